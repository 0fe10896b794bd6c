(** Multipliers, penalties and recorded violation during an augmented-Lagrangian solve. *)
From Coq Require Import ZArith String List Bool Lia Relation_Operators.
From Verif Require Import Base Lin RLin ConModel ConSpec ConProofs ConProofs4 LogModel StatsModel StatsSpec StatsProofs TrajModel IlqrModel IlqrSpec IlqrFrame IlqrProofs IlqrProofs2 IlqrProofs3 IlqrProofs4 IlqrProofs5 IlqrProofs6 CostInst AlModel AlProofs AlProofs2.
Import ListNotations.
Local Open Scope Z_scope.

Section Hist.
Context {F : Scalar} (n m : nat).
Notation IL := (ILQR F (ALCost F)).
Notation Rh := (al_rel (F:=F) cv_steps).

Lemma Rh_eval (c : ALCost F) x u : Rh c (snd (co_eval al_ops c x u)).
Proof. cbn [co_eval al_ops]. rewrite al_eval_snd. apply al_rel_map. intros; constructor. Qed.
Lemma Rh_grad (c : ALCost F) x u b : Rh c (snd (co_grad al_ops c x u b)).
Proof. cbn [co_grad al_ops]. rewrite al_gradient_snd. apply al_rel_map. intros; constructor. Qed.
Lemma Rh_hess (c : ALCost F) x u b : Rh c (snd (co_hess al_ops c x u b)).
Proof. cbn [co_hess al_ops]. rewrite al_hessian_snd. apply al_rel_map. intros; constructor. Qed.

Definition cost_hist (s s' : IL) : Prop := Forall2 Rh (il_costobjs s) (il_costobjs s').
Lemma hist_refl s : cost_hist s s.
Proof. unfold cost_hist. induction (il_costobjs s); constructor; auto using al_rel_refl. Qed.
Lemma hist_trans a b c : cost_hist a b -> cost_hist b c -> cost_hist a c.
Proof.
  unfold cost_hist. generalize (il_costobjs a) (il_costobjs b) (il_costobjs c). intros x y z H. revert z.
  induction H; intros z H'; inversion H'; subst; constructor; eauto using al_rel_trans.
Qed.
Lemma hist_kps R (l l' : list (KPF F (ALCost F))) : kps_sim R l l' -> Forall2 R (map kp_cost l) (map kp_cost l').
Proof. induction 1 as [|k k' l l' [_ H] _ IH]; constructor; auto. Qed.
Lemma hist_solve debug fuel (s s1 : IL) : il_solve al_ops n m als_max_violation debug fuel s = Ok s1 -> cost_hist s s1.
Proof.
  intros H. destruct (solve_ready al_ops n m als_max_violation Rh al_rel_refl al_rel_trans Rh_eval Rh_grad Rh_hess debug fuel s s1 H) as [_ Hfr].
  apply hist_kps. apply Hfr.
Qed.
Lemma hist_map f cs : (forall c, Rh c (f c)) -> Forall2 Rh cs (map f cs).
Proof. intros H. induction cs; constructor; auto. Qed.
Lemma F2len {A} (R : A -> A -> Prop) l l' : Forall2 R l l' -> length l = length l'.
Proof. induction 1; simpl; auto. Qed.
Lemma set_penalty_hist debug rho : forall cs cs' : list (ALCost F), als_set_penalty debug rho cs = Ok cs' -> Forall2 Rh cs cs'.
Proof.
  unfold als_set_penalty. induction cs as [|c cs IH]; intros cs' H; [inversion H; constructor|].
  destruct (al_set_penalty debug Equality rho c) as [a1| | | | |] eqn:E1; try discriminate. cbn [bind] in H.
  destruct (al_set_penalty debug Inequality rho a1) as [a2| | | | |] eqn:E2; try discriminate. cbn [bind] in H.
  match type of H with context [?g cs] => destruct (g cs) as [r| | | | |] eqn:E3; try discriminate end. cbn [bind] in H. inversion H; subst.
  constructor; [|apply IH; reflexivity].
  eapply al_rel_trans.
  - apply (al_step_rel debug (OpSetPenalty Equality rho)). exact E1.
  - apply (al_step_rel debug (OpSetPenalty Inequality rho)). exact E2.
Qed.
Lemma init_hist debug (s b : IL) : as_init debug s = Ok b -> cost_hist s b.
Proof.
  unfold as_init. set (s1 := if o_reset_duals (il_opts s) then il_map_costobjs al_reset_duals s else s). cbv zeta.
  assert (H1 : cost_hist s s1).
  { unfold s1. destruct (o_reset_duals (il_opts s)); [|apply hist_refl]. unfold cost_hist. rewrite map_costobjs.
    apply hist_map. intros c. apply al_rel_map. intros; constructor. }
  clearbody s1.
  destruct (if ltb zero (o_init_pen (il_opts s)) then do cs <- als_set_penalty debug (o_init_pen (il_opts s)) (il_costobjs s1) ; Ok (il_set_costobjs cs s1) else Ok s1)
    as [s2| | | | |] eqn:E2; try discriminate. cbn [bind].
  assert (H2 : cost_hist s1 s2).
  { destruct (ltb zero (o_init_pen (il_opts s))).
    - destruct (als_set_penalty debug (o_init_pen (il_opts s)) (il_costobjs s1)) as [cs| | | | |] eqn:E; try discriminate. cbn [bind] in E2.
      apply (f_equal (fun r => match r with Ok x => x | _ => s2 end)) in E2. subst s2. apply set_penalty_hist in E. unfold cost_hist.
      rewrite set_costs_costobjs; [exact E|]. rewrite <- (F2len _ _ _ E). unfold il_costobjs. apply map_length.
    - inversion E2; subst. apply hist_refl. }
  destruct (st_reset debug (il_opts s) (il_stats s2)) as [st| | | | |] eqn:E3; try discriminate. cbn [bind].
  destruct (il_recost debug (il_set_stats s2 (st_logZ "iter_al" 0 st))) as [s3| | | | |] eqn:E4; try discriminate. cbn [bind].
  intros Hb. apply (f_equal (fun r => match r with Ok x => x | _ => b end)) in Hb.
  destruct (recost_spec _ _ _ E4) as (_ & _ & _ & _ & _ & Z & _ & _ & _ & Hk).
  eapply hist_trans; [exact H1|]. eapply hist_trans; [exact H2|].
  unfold cost_hist, il_costobjs. subst b. cbn [il_kps il_set_stats]. rewrite Hk. cbn [il_kps il_set_stats].
  apply hist_kps. apply sim_calc_costs; [apply al_rel_refl|apply Rh_eval].
Qed.
Lemma outer_hist debug fuel (s : IL) d s' s1 s4 : outer_step n m debug fuel s d s' s1 s4 -> cost_hist s s1 /\ cost_hist s1 s4 /\ cost_hist s4 s'.
Proof.
  intros []. split; [eapply hist_solve; eauto|]. split.
  - unfold cost_hist. rewrite ou_costs. apply hist_map. intros c. apply al_rel_map. intros; constructor.
  - destruct d; [subst s'; apply hist_refl|]. destruct ou_end as (_ & _ & _ & _ & _ & _ & _ & E & _). unfold cost_hist. rewrite E.
    apply hist_map. intros c. apply al_rel_map. intros; constructor.
Qed.
Lemma reach_hist debug fuel (b : IL) j s : as_reach n m debug fuel b j s -> cost_hist b s.
Proof.
  induction 1 as [|j s s' H IH Hi]; [apply hist_refl|].
  destruct (as_iter_spec n m debug fuel s None s' Hi) as (s1 & s4 & S4). destruct (outer_hist _ _ _ _ _ _ _ S4) as (A & B & C).
  eauto using hist_trans.
Qed.
(** all constraint objects at the end of a solve are those of the start after a history of public operations *)
Theorem solve_hist debug fuel (a a' : ALS F) : as_solve n m debug fuel a = Ok a' -> cost_hist (as_il a) (as_il a').
Proof.
  unfold as_solve. destruct (as_init debug (as_il a)) as [b| | | | |] eqn:Eb; try discriminate. cbn [bind]. intros H.
  eapply hist_trans; [exact (init_hist _ _ _ Eb)|]. clear Eb. revert H.
  destruct (Z.to_nat (o_max_outer (il_opts b))) as [|it]; [intros H; inversion H; subst; apply hist_refl|].
  intros H. destruct (as_loop_run n m debug fuel (S it) _ _ H) as (j & s & d & A & B & C & D); [lia|]. cbn [as_il] in A.
  destruct (as_iter_spec n m debug fuel s d _ C) as (s1 & s4 & S4). destruct (outer_hist _ _ _ _ _ _ _ S4) as (X & Y & W).
  apply reach_hist in A. eauto using hist_trans.
Qed.

(** ** Penalties: after j outer iterations every penalty was multiplied j times by its scaling *)
Fixpoint pen_after (j : nat) (rho phi : F) : F := match j with O => rho | S j => mul (pen_after j rho phi) phi end.
Definition pens_at (j : nat) (rho : F) (cs : list (ALCost F)) : Prop :=
  forall c v i, In c cs -> In v (al_cvs c) -> (i < cv_p v)%nat -> cv_pen v i = pen_after j rho (cv_scal v).
Notation Rf := (fun a b : ALCost F => al_fresh b = al_fresh a).
Lemma fresh_pens j rho cs cs' : Forall2 Rf cs cs' -> pens_at j rho cs -> pens_at j rho cs'.
Proof.
  intros H Hp c' v' i Hc Hv Hi.
  assert (exists c, In c cs /\ al_fresh c' = al_fresh c) as (c & Hc' & E).
  { clear - H Hc. induction H as [|x y l l' Hxy H IH]; [easy|]. destruct Hc as [<-|Hc]; [exists x; split; [left|]; auto|].
    destruct (IH Hc) as (c & A & B). exists c. split; [right|]; auto. }
  assert (Hm : forall a : ALCost F, al_cvs (al_fresh a) = map cv_fresh (al_cvs a)).
  { intros a. unfold al_cvs, al_fresh, al_map. cbn. now rewrite map_app. }
  assert (In (cv_fresh v') (map cv_fresh (al_cvs c))) by (rewrite <- Hm, <- E, Hm; now apply in_map).
  apply in_map_iff in H0. destruct H0 as (v & E' & Hv').
  assert (E1 : cv_pen v' = cv_pen v) by (change (cv_pen (cv_fresh v') = cv_pen (cv_fresh v)); now rewrite E').
  assert (E2 : cv_scal v' = cv_scal v) by (change (cv_scal (cv_fresh v') = cv_scal (cv_fresh v)); now rewrite E').
  assert (E3 : cv_p v' = cv_p v) by (change (cv_p (cv_fresh v') = cv_p (cv_fresh v)); now rewrite E').
  rewrite E1, E2. apply (Hp c v i Hc' Hv'). lia.
Qed.
Lemma map_pens j j' rho (f : CV F -> CV F) cs : 
  (forall v i, (i < cv_p v)%nat -> cv_p (f v) = cv_p v /\ cv_scal (f v) = cv_scal v /\ (cv_pen v i = pen_after j rho (cv_scal v) -> cv_pen (f v) i = pen_after j' rho (cv_scal v))) ->
  (forall v, cv_p (f v) = cv_p v) ->
  pens_at j rho cs -> pens_at j' rho (map (al_map f) cs).
Proof.
  intros Hf Hp H c v i Hc Hv Hi. apply in_map_iff in Hc. destruct Hc as (c0 & <- & Hc).
  unfold al_cvs, al_map in Hv. cbn in Hv. rewrite <- map_app in Hv. apply in_map_iff in Hv. destruct Hv as (w & <- & Hw).
  rewrite Hp in Hi. destruct (Hf w i Hi) as (_ & -> & G). apply G. apply (H c0 w i Hc Hw Hi).
Qed.
Lemma fresh_solve debug fuel (s s1 : IL) : il_solve al_ops n m als_max_violation debug fuel s = Ok s1 ->
  Forall2 Rf (il_costobjs s) (il_costobjs s1).
Proof.
  intros H. destruct (solve_ready al_ops n m als_max_violation Rf) with (debug:=debug) (fuel:=fuel) (s:=s) (s':=s1) as [_ Hfr]; auto.
  - intros; congruence.
  - intros. apply al_eval_fresh.
  - intros. apply al_grad_fresh.
  - intros. apply al_hess_fresh.
  - apply hist_kps. apply Hfr.
Qed.
Lemma outer_pens j rho debug fuel (s : IL) d s' s1 s4 : outer_step n m debug fuel s d s' s1 s4 ->
  pens_at j rho (il_costobjs s) -> pens_at j rho (il_costobjs s1) /\ pens_at j rho (il_costobjs s4) /\
  (d = None -> pens_at (S j) rho (il_costobjs s')).
Proof.
  intros [] H. pose proof (fresh_pens j rho _ _ (fresh_solve _ _ _ _ ou_solve) H) as H1.
  assert (H4 : pens_at j rho (il_costobjs s4)).
  { rewrite ou_costs. apply (map_pens j j rho cv_update_duals); auto. }
  split; [exact H1|]. split; [exact H4|]. intros ->. destruct ou_end as (_ & _ & _ & _ & _ & _ & _ & E & _). rewrite E.
  apply (map_pens j (S j) rho cv_update_penalties); auto. intros v i Hi. split; [reflexivity|]. split; [reflexivity|]. cbn.
  intros E'. rewrite vstore_lt by exact Hi. now rewrite E'.
Qed.
Lemma recost_pens j rho debug (s s' : IL) : il_recost debug s = Ok s' -> pens_at j rho (il_costobjs s) -> pens_at j rho (il_costobjs s').
Proof.
  intros E. destruct (recost_spec _ _ _ E) as (_ & _ & _ & _ & _ & Z & _ & _ & _ & Hk). apply fresh_pens.
  unfold il_costobjs. rewrite Hk. apply hist_kps. apply sim_calc_costs; [reflexivity|]. intros. apply al_eval_fresh.
Qed.
Lemma init_pens debug (s b : IL) : as_init debug s = Ok b -> ltb zero (o_init_pen (il_opts s)) = true -> leb zero (o_init_pen (il_opts s)) = true ->
  pens_at 0 (o_init_pen (il_opts s)) (il_costobjs b).
Proof.
  unfold as_init. set (s1 := if o_reset_duals (il_opts s) then il_map_costobjs al_reset_duals s else s). cbv zeta. clearbody s1.
  intros H Hr Hle. rewrite Hr in H. set (rho := o_init_pen (il_opts s)) in *.
  rewrite als_set_penalty_ok in H by auto. cbn [bind] in H. set (cs := map (al_map (const_pen rho)) (il_costobjs s1)) in *.
  assert (Hcs : pens_at 0 rho cs).
  { intros c v i Hc Hv Hi. apply in_map_iff in Hc. destruct Hc as (c0 & <- & Hc).
    unfold al_cvs, al_map in Hv. cbn in Hv. rewrite <- map_app in Hv. apply in_map_iff in Hv. destruct Hv as (w & <- & Hw).
    cbn. unfold cv_p in Hi |- *. cbn in Hi. now rewrite vstore_lt. }
  destruct (st_reset debug (il_opts s) (il_stats (il_set_costobjs cs s1))) as [st| | | | |]; try discriminate. cbn [bind] in H.
  destruct (il_recost debug _) as [s3| | | | |] eqn:E4; try discriminate. cbn [bind] in H.
  apply (f_equal (fun r => match r with Ok x => x | _ => b end)) in H. subst b.
  change (pens_at 0 rho (il_costobjs s3)). eapply recost_pens; [exact E4|].
  change (pens_at 0 rho (il_costobjs (il_set_costobjs cs s1))). rewrite set_costs_costobjs; [exact Hcs|].
  unfold cs, il_costobjs. now rewrite !map_length.
Qed.
Lemma reach_pens debug fuel (b : IL) rho j s : as_reach n m debug fuel b j s -> pens_at 0 rho (il_costobjs b) -> pens_at j rho (il_costobjs s).
Proof.
  intros H Hb. induction H as [|j s s' H IH Hi]; [exact Hb|].
  destruct (as_iter_spec n m debug fuel s None s' Hi) as (s1 & s4 & S4). apply (outer_pens _ _ _ _ _ _ _ _ _ S4 IH). reflexivity.
Qed.
(** penalties at the end of a solve with k outer iterations: k-1 updates of the initial penalty *)
Theorem solve_pens debug fuel (a a' : ALS F) : as_solve n m debug fuel a = Ok a' -> 1 <= o_max_outer (il_opts (as_il a)) ->
  map fst (st_ser (il_stats (as_il a))) = series_titles ->
  ltb zero (o_init_pen (il_opts (as_il a))) = true -> leb zero (o_init_pen (il_opts (as_il a))) = true ->
  pens_at (Z.to_nat (st_outer (il_stats (as_il a')) - 1)) (o_init_pen (il_opts (as_il a))) (as_costs a').
Proof.
  intros H Hm Ht H1 H2. destruct (as_run n m debug fuel a a' H Hm Ht) as (b & j & s & s1 & Hb & Hr & Hs & S4 & P & P' & K & K' & O1 & O2 & _).
  pose proof (reach_pens _ _ _ _ _ _ Hr (init_pens _ _ _ Hb H1 H2)) as Hp.
  destruct (outer_pens _ _ _ _ _ _ _ _ _ S4 Hp) as (_ & A & _).
  replace (Z.to_nat (st_outer (il_stats (as_il a')) - 1)) with j by lia. exact A.
Qed.

(** ** C15: the stored constraint values are those of the returned trajectory, if the last inner iteration
    accepted a new trajectory *)
Lemma costs_at (kps : list (KPF F (ALCost F))) : forall Z k c z, nth_error (map kp_cost (snd (calc_costs al_ops kps Z))) k = Some c -> nth_error Z k = Some z ->
  exists c0, nth_error (map kp_cost kps) k = Some c0 /\ c = snd (al_eval c0 (z_x z) (z_u z)).
Proof.
  induction kps as [|kp kps IH]; intros [|z0 Z] k c z Hc Hz; try (destruct k; discriminate).
  cbn [calc_costs] in Hc. destruct (kpf_cost al_ops kp (z_x z0) (z_u z0)) as [J kp'] eqn:E.
  specialize (IH Z). destruct (calc_costs al_ops kps Z) as [Js ks]. cbn [snd map] in Hc. destruct k as [|k].
  - cbn in *. inversion Hc; inversion Hz; subst. exists (kp_cost kp). split; [reflexivity|].
    unfold kpf_cost in E. cbn [co_eval al_ops] in E. destruct (al_eval (kp_cost kp) (z_x z) (z_u z)). inversion E. reflexivity.
  - cbn in Hc, Hz |- *. apply (IH k c z Hc Hz).
Qed.
Lemma iter_moved debug fuel (s0 s1 : IL) : il_solve al_ops n m als_max_violation debug fuel s0 = Ok s1 -> 1 <= o_max_inner (il_opts s0) ->
  exists t, il_iteration al_ops n m als_max_violation fuel t = Ok (true, s1) /\ il_ready t /\
  (il_Z s1 <> il_Z t -> exists ks Z', il_Z s1 = Some Z' /\ length Z' = S (il_N s1) /\ il_kps s1 = snd (calc_costs al_ops ks Z')).
Proof.
  intros H Hm. destruct (solve_run al_ops n m als_max_violation debug fuel s0 s1 H Hm) as (b & j & t & Hb & Hr & Hi & _ & _ & _ & Hrt & _).
  exists t. split; [exact Hi|]. split; [exact Hrt|]. intros Hne.
  destruct (iteration_spec (@al_ops F) n m als_max_violation (fun _ _ => True) (fun _ => I)) with (fuel:=fuel) (s:=t) (fin:=true) (s':=s1)
    as (Z & s2 & s3 & Hio & _ & Hr1 & _); try (intros; exact I); auto.
  destruct Hio. destruct it_acc as [(s & J & Hs & A1 & A2 & A3 & _)|(A1 & _)].
  - destruct Hs as (alpha & ks & Zb & Zb1 & z & P). decompose [and] P. exists ks, Zb1.
    split; [congruence|]. split; [|congruence]. destruct Hr1 as (_ & (Z' & E1 & E2) & _). assert (Z' = Zb1) by congruence. congruence.
  - exfalso. apply Hne. congruence.
Qed.
End Hist.
