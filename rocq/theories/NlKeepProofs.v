(** A whole augmented-Lagrangian solve keeps the setting of C83: smooth objects, positive penalties, a trajectory that obeys the dynamics. *)
From Coq Require Import Reals Lra Lia List Bool ZArith Psatz Arith.
From Coquelicot Require Import Coquelicot.
Import List ListNotations.
From Verif Require Import Base Lin RLin LogModel StatsModel TrajModel ConModel ConSpec IlqrModel IlqrSpec IlqrFrame IlqrProofs IlqrProofs2 IlqrProofs3 IlqrProofs6 CostInst AlModel AlProofs AlProofs2 AlProofs3 LsSpec RDer ConProofs ConProofs4 LqSpec LltProofs LqProofs LqProbSpec LqProofs6 NlSpec NlAlSpec NlAlProofs.
Local Open Scope R_scope.

(** ** the scratch trajectory has the time grid of the trajectory, in any arithmetic *)
Section Grid.
Context {F : Scalar} {CS : Type} (ops : CostOps F CS) (n m : nat) (cb : list CS -> F).
Theorem solve_grid debug fuel (s s' : ILQR F CS) : il_solve ops n m cb debug fuel s = Ok s' -> exists Z Zb, il_Z s = Some Z /\ il_Zb s' = Some Zb /\ same_grid Z Zb.
Proof.
  intros E. set (R := fun _ _ : CS => True).
  assert (T1 : forall c, R c c) by (intros; exact I). assert (T2 : forall a b c, R a b -> R b c -> R a c) by (intros; exact I).
  assert (T3 : forall c x u, R c (snd (co_eval ops c x u))) by (intros; exact I). assert (T4 : forall c x u b, R c (snd (co_grad ops c x u b))) by (intros; exact I). assert (T5 : forall c x u b, R c (snd (co_hess ops c x u b))) by (intros; exact I).
  destruct (solve_start ops n m cb R T1 T3 debug fuel s s' E) as (s4 & Z & Z1 & EB & [] & El).
  destruct (loop_ind ops n m cb R T1 T2 T3 T4 T5 (feas n (il_x0 s) (map kp_dyn (il_kps s)) Z) fuel) with (s := s4) (s' := s') (iters := Z.to_nat (o_max_inner (il_opts s)))
    as [Hr (_ & _ & Z' & Zb & H1 & H2 & H3 & H4 & H5 & H6)]; auto.
  - intros. eapply (feas_iter ops n m cb R T1 T2 T3 T4 T5); eauto.
  - destruct so_frame. split; [auto|]. split; [apply (kps_dyns R _ _ fr_kps)|].
    destruct so_grid as (Zb & G1 & G2). destruct so_Z1 as [G3 _]. exists Z1, Zb. split; [exact G3|]. split; [exact G1|]. split; [exact so_head|]. split; [exact so_follows|].
    assert (same_grid Z Z1) by (apply grid_times; auto). split; auto. eapply grid_trans; eauto.
  - exists Z, Zb. auto.
Qed.
End Grid.

Section Keep.
Context (n m : nat).
Notation IL := (ILQR RS (ALCost RS)).
(** smooth, with positive penalty scalings *)
Definition keeps (a : ALCost RS) : Prop := smooth_al n m a /\ forall v, In v (al_cvs a) -> 0 < cv_scal v.
(** cone and constraint *)
Definition sig (v : CV RS) : cone * Con RS := (cv_type v, cv_con v).
Definition R (a b : ALCost RS) : Prop := keeps a -> keeps b /\ al_cost b = al_cost a /\ map sig (al_cvs b) = map sig (al_cvs a).
Lemma R_refl a : R a a. Proof. intros H. auto. Qed.
Lemma R_trans a b c : R a b -> R b c -> R a c.
Proof. intros A B H. destruct (A H) as (K & E1 & E2). destruct (B K) as (K' & F1 & F2). split; [exact K'|]. split; congruence. Qed.
Lemma assert_release {A} b (k : res A) w : (do _ <- altro_assert true b ; k) = Ok w -> (do _ <- altro_assert false b ; k) = Ok w.
Proof. destruct b; cbn; [auto|discriminate]. Qed.
Lemma step_release (a b : ALCost RS) debug o : al_step debug o a = Ok b -> al_step false o a = Ok b.
Proof.
  destruct debug; [|auto].
  assert (U : forall (f g : CV RS -> res (CV RS)) K i a b, (forall v w, f v = Ok w -> g v = Ok w) -> al_upd_at true f K i a = Ok b -> al_upd_at false g K i a = Ok b).
  { intros f g K i x y H E0. unfold al_upd_at in *. cbv zeta in *. apply assert_release in E0. revert E0. cbn [altro_assert bind andb]. destruct (i <? 0)%Z; [discriminate|]. destruct (nth_error _ _) as [v|]; [|discriminate].
    destruct (f v) as [w| | | | |] eqn:E; try discriminate. rewrite (H _ _ E). auto. }
  assert (P : forall rho v w, cv_set_penalty (F:=RS) true rho v = Ok w -> cv_set_penalty false rho v = Ok w) by (intros rho v w; unfold cv_set_penalty; apply assert_release).
  assert (S : forall rho v w, cv_set_scaling (F:=RS) true rho v = Ok w -> cv_set_scaling false rho v = Ok w) by (intros rho v w; unfold cv_set_scaling; apply assert_release).
  assert (L : forall (f g : nat -> ALCost RS -> res (ALCost RS)) l a b, (forall i v w, f i v = Ok w -> g i v = Ok w) -> for_res l f a = Ok b -> for_res l g a = Ok b).
  { intros f g l. induction l as [|i l IH]; intros x y H; [auto|]. cbn [for_res]. destruct (f i x) as [x'| | | | |] eqn:E; try discriminate. rewrite (H _ _ _ E). cbn [bind]. apply IH. exact H. }
  destruct o; cbn [al_step]; try auto.
  - unfold al_set_penalty. apply L. intros j v w. unfold al_set_penalty_at. apply U. apply P.
  - unfold al_set_penalty_at. apply U. apply P.
  - unfold al_set_scaling. apply L. intros j v w. unfold al_set_scaling_at. apply U. apply S.
  - unfold al_set_scaling_at. apply U. apply S.
Qed.
Lemma reach_release (a b : ALCost RS) debug os : al_reach debug a os b -> al_reach false a os b.
Proof. induction 1 as [|os o x y _ IH E]; [apply reach_nil|]. eapply reach_step; [exact IH|]. exact (step_release _ _ _ _ E). Qed.
(** a step of the object that keeps penalties positive, scalings and constraints *)
Lemma R_step a b o : al_step false o a = Ok b -> (smooth_al n m a -> forall v, In v (al_cvs b) -> exists w, In w (al_cvs a) /\ cv_scal v = cv_scal w /\ (0 < cv_scal w -> 0 < cv_pen v 0%nat)) ->
  al_cost b = al_cost a -> map sig (al_cvs b) = map sig (al_cvs a) -> R a b.
Proof.
  intros E P C M [SA SP]. split; [|auto]. specialize (P SA). split.
  - destruct SA as (debug & cost & eqs & ineqs & os & X1 & X2 & X3 & X4 & X5). exists false, cost, eqs, ineqs, (os ++ [o]). repeat (split; [assumption|]).
    split; [eapply reach_step; [exact (reach_release _ _ _ _ X4)|exact E]|]. intros v Hv. destruct (P v Hv) as (w & Hw & _ & H). apply H. apply SP. exact Hw.
  - intros v Hv. destruct (P v Hv) as (w & Hw & -> & _). apply SP. exact Hw.
Qed.
Lemma cvs_map f (a : ALCost RS) : al_cvs (al_map f a) = map f (al_cvs a).
Proof. unfold al_cvs, al_map. cbn. now rewrite map_app. Qed.
Lemma R_map f a o : al_step false o a = Ok (al_map f a) -> (forall v, sig (f v) = sig v /\ cv_scal (f v) = cv_scal v) ->
  (forall v, (1 <= cv_p v)%nat -> 0 < cv_pen v 0%nat -> 0 < cv_scal v -> 0 < cv_pen (f v) 0%nat) -> R a (al_map f a).
Proof.
  intros E C P. apply (R_step _ _ o E).
  - intros SA v Hv. rewrite cvs_map in Hv. apply in_map_iff in Hv. destruct Hv as (w & <- & Hw). exists w. split; [exact Hw|]. split; [apply C|]. destruct (smooth_facts n m a SA) as (_ & _ & _ & F). destruct (F w Hw) as (F1 & F2 & _). apply P; assumption.
  - reflexivity.
  - rewrite cvs_map, map_map. apply map_ext. intros v. apply C.
Qed.
Lemma fresh_R a b o : (forall debug, al_step debug o a = Ok b) -> al_fresh b = al_fresh a -> R a b.
Proof.
  intros E FR. assert (G : forall c : ALCost RS, al_cvs (al_fresh c) = map (@CostInst.cv_fresh RS) (al_cvs c)) by (intros; apply cvs_map).
  assert (CV : forall T (g : CV RS -> T), (forall v, g (CostInst.cv_fresh v) = g v) -> map g (al_cvs b) = map g (al_cvs a)).
  { intros T g Hg. assert (H : forall c : ALCost RS, map g (al_cvs c) = map g (al_cvs (al_fresh c))) by (intros c; rewrite G, map_map; apply map_ext; intros; symmetry; apply Hg). rewrite (H b), FR, <- H. reflexivity. }
  intros [SA SP]. split; [split; [exact (smooth_step n m a b o E FR SA)|]|split].
  - intros v Hv. assert (I : In (cv_scal v) (map (@cv_scal RS) (al_cvs a))) by (rewrite <- (CV _ (@cv_scal RS) (fun _ => eq_refl)); apply in_map; exact Hv).
    apply in_map_iff in I. destruct I as (w & <- & Hw). apply SP. exact Hw.
  - change (al_cost (al_fresh b) = al_cost (al_fresh a)). rewrite FR. reflexivity.
  - apply CV. reflexivity.
Qed.
Lemma R_eval c x u : R c (snd (co_eval al_ops c x u)).
Proof. apply (fresh_R _ _ (OpEval x u)); [reflexivity|apply al_eval_fresh]. Qed.
Lemma R_grad c x u b : R c (snd (co_grad al_ops c x u b)).
Proof. apply (fresh_R _ _ (OpGrad x u b)); [reflexivity|apply al_grad_fresh]. Qed.
Lemma R_hess c x u b : R c (snd (co_hess al_ops c x u b)).
Proof. apply (fresh_R _ _ (OpHess x u b)); [reflexivity|apply al_hess_fresh]. Qed.
Lemma R_duals c : R c (al_update_duals c).
Proof. apply (R_map _ c OpUpdateDuals); [reflexivity|intros; split; reflexivity|intros v _ H _; exact H]. Qed.
Lemma R_reset c : R c (al_reset_duals c).
Proof. apply (R_map _ c OpResetDuals); [reflexivity|intros; split; reflexivity|intros v _ H _; exact H]. Qed.
Lemma R_pens c : R c (al_update_penalties c).
Proof.
  apply (R_map _ c OpUpdatePenalties); [reflexivity|intros; split; reflexivity|]. intros v H1 H2 H3. unfold cv_update_penalties. cbn [cv_pen set_pen]. rewrite vstore_lt by exact H1. apply Rmult_lt_0_compat; assumption.
Qed.
Lemma R_set rho c : 0 < rho -> R c (al_map (const_pen rho) c).
Proof.
  intros HR. set (c1 := al_set_list Equality c (map (const_pen rho) (al_list Equality c))).
  assert (A1 : R c c1).
  { apply (R_step c c1 (OpSetPenalty Equality rho)).
    - cbn [al_step]. rewrite al_set_penalty_ok by discriminate. reflexivity.
    - intros SA v Hv. destruct (smooth_facts n m c SA) as (_ & _ & _ & F). unfold al_cvs, c1 in Hv. cbn in Hv. apply in_app_or in Hv. destruct Hv as [Hv|Hv].
      + apply in_map_iff in Hv. destruct Hv as (w & <- & Hw). assert (Hw' : In w (al_cvs c)) by (apply in_or_app; auto). exists w. split; [exact Hw'|]. split; [reflexivity|]. intros _. destruct (F w Hw') as (_ & D & _). unfold const_pen. cbn [cv_pen set_pen]. rewrite vstore_lt by exact D. exact HR.
      + assert (Hw' : In v (al_cvs c)) by (apply in_or_app; auto). exists v. split; [exact Hw'|]. split; [reflexivity|]. intros _. apply (F v Hw').
    - reflexivity.
    - unfold al_cvs, c1. cbn. rewrite !map_app, map_map. f_equal. }
  assert (A2 : R c1 (al_map (const_pen rho) c)).
  { apply (R_step c1 _ (OpSetPenalty Inequality rho)).
    - cbn [al_step]. rewrite al_set_penalty_ok by discriminate. reflexivity.
    - intros SA v Hv. destruct (smooth_facts n m c1 SA) as (_ & _ & _ & F). rewrite cvs_map in Hv. unfold al_cvs in Hv. rewrite map_app in Hv. apply in_app_or in Hv. destruct Hv as [Hv|Hv].
      + assert (Hw' : In v (al_cvs c1)) by (apply in_or_app; left; exact Hv). exists v. split; [exact Hw'|]. split; [reflexivity|]. intros _. apply (F v Hw').
      + apply in_map_iff in Hv. destruct Hv as (w & <- & Hw). assert (Hw' : In w (al_cvs c1)) by (apply in_or_app; auto). exists w. split; [exact Hw'|]. split; [reflexivity|]. intros _. destruct (F w Hw') as (_ & D & _). unfold const_pen. cbn [cv_pen set_pen]. rewrite vstore_lt by exact D. exact HR.
    - reflexivity.
    - rewrite cvs_map, map_map. unfold al_cvs, c1. cbn. rewrite !map_app, map_map. f_equal. }
  exact (R_trans _ _ _ A1 A2).
Qed.

(** ** solver objects *)
Definition al_inv (s : IL) : Prop := (exists Z Zb, al_setting n m s Z Zb) /\ forall c v, In c (il_costobjs s) -> In v (al_cvs c) -> 0 < cv_scal v.
Lemma inv_costs s : al_inv s -> Forall keeps (il_costobjs s).
Proof. intros [(Z & Zb & []) P]. apply Forall_forall. intros c Hc. split; [rewrite Forall_forall in al_objs; apply al_objs; exact Hc|]. intros v Hv. exact (P c v Hc Hv). Qed.
Lemma R_all l l' : Forall2 R l l' -> Forall keeps l -> Forall keeps l'.
Proof. induction 1 as [|a b l l' H _ IH]; intros K; [constructor|]. inversion K; subst. constructor; [apply H; assumption|apply IH; assumption]. Qed.
Lemma R_nth l l' k c' : Forall2 R l l' -> nth_error l' k = Some c' -> exists c, nth_error l k = Some c /\ R c c'.
Proof. intros H. revert k. induction H as [|a b l l' H _ IH]; intros [|k] E; try discriminate; [inversion E; subst; exists a; auto|]. apply IH. exact E. Qed.
(** anything that keeps sizes, start and dynamics, relates the objects by [R] and leaves a trajectory that obeys the dynamics *)
Lemma inv_keep (s s' : IL) Z' Zb' : al_inv s -> il_N s' = il_N s -> il_x0 s' = il_x0 s -> map kp_dyn (il_kps s') = map kp_dyn (il_kps s) -> Forall2 R (il_costobjs s) (il_costobjs s') ->
  il_Z s' = Some Z' -> length Z' = S (il_N s) -> dyn_feasible n (il_x0 s) (map kp_dyn (il_kps s)) Z' -> il_Zb s' = Some Zb' -> length Zb' = S (il_N s) -> same_steps (il_N s) Z' Zb' -> al_inv s'.
Proof.
  intros I EN EX ED EC EZ LZ FZ EB LB SS. pose proof (R_all _ _ EC (inv_costs s I)) as K. destruct I as [(Z & Zb & []) P].
  split.
  - exists Z', Zb'. split; try (rewrite ?EN; assumption).
    + rewrite EN, <- al_len. apply (f_equal (@length _)) in ED. rewrite !map_length in ED. exact ED.
    + rewrite Forall_forall in *. intros c Hc. apply (K c Hc).
    + intros k kp Hk Hkp. rewrite EN in Hk. assert (E : nth_error (map kp_dyn (il_kps s)) k = Some (kp_dyn kp)) by (rewrite <- ED, nth_error_map, Hkp; reflexivity).
      rewrite nth_error_map in E. destruct (nth_error (il_kps s) k) as [kp0|] eqn:E0; [|discriminate]. cbn in E. inversion E as [E']. exact (al_dyn k kp0 Hk E0).
    + intros c' Hc' x u u'. rewrite EN in Hc'. destruct (R_nth _ _ _ _ EC Hc') as (c & Hc & Rc).
      assert (Kc : keeps c). { split; [rewrite Forall_forall in al_objs; apply al_objs; eapply nth_error_In; exact Hc|]. intros v Hv. apply (P c v); [eapply nth_error_In; exact Hc|exact Hv]. }
      destruct (Rc Kc) as (_ & E1 & E2). destruct (al_end c Hc x u u') as [A B]. split; [rewrite E1; exact A|]. intros v i Hv Hi.
      assert (I : In (sig v) (map sig (al_cvs c))) by (rewrite <- E2; apply in_map; exact Hv). apply in_map_iff in I. destruct I as (w & Es & Hw). assert (Ew : cv_con w = cv_con v) by (inversion Es; reflexivity). unfold cv_p in Hi. rewrite <- Ew in Hi |- *. exact (B w i Hw Hi).
    + rewrite EX, ED. exact FZ.
  - rewrite Forall_forall in K. intros c v Hc Hv. apply (K c Hc). exact Hv.
Qed.
Lemma inv_same (s s' : IL) : al_inv s -> il_N s' = il_N s -> il_x0 s' = il_x0 s -> map kp_dyn (il_kps s') = map kp_dyn (il_kps s) -> Forall2 R (il_costobjs s) (il_costobjs s') -> il_Z s' = il_Z s -> il_Zb s' = il_Zb s -> al_inv s'.
Proof. intros I EN EX ED EC EZ EB. pose proof I as [(Z & Zb & []) P]. apply (inv_keep s s' Z Zb); try assumption; congruence. Qed.
Lemma R_map_all f cs : (forall c, R c (f c)) -> Forall2 R cs (map f cs).
Proof. intros H. induction cs; constructor; auto. Qed.
Lemma R_refl_all cs : Forall2 R cs cs.
Proof. induction cs; constructor; auto using R_refl. Qed.
Lemma inv_solve debug fuel (s s1 : IL) : il_solve al_ops n m als_max_violation debug fuel s = Ok s1 -> al_inv s -> al_inv s1.
Proof.
  intros E I. destruct (solve_ready al_ops n m als_max_violation R R_refl R_trans R_eval R_grad R_hess debug fuel s s1 E) as [(L1 & (Z1 & EZ1 & LZ1) & (Zb1 & EB1 & LB1)) []].
  destruct (solve_dyn_feasible al_ops n m als_max_violation debug fuel s s1 E) as (Z & Z' & A1 & A2 & A3 & A4 & A5 & A6).
  destruct (solve_grid al_ops n m als_max_violation debug fuel s s1 E) as (Z0 & Zb' & B1 & B2 & B3).
  assert (Z0 = Z) by congruence. subst Z0. assert (Zb' = Zb1) by congruence. subst Zb'.
  pose proof I as [(ZI & ZbI & SI) _]. pose proof (al_Z _ _ _ _ _ SI) as EZ. pose proof (al_lenZ _ _ _ _ _ SI) as LZ. assert (ZI = Z) by congruence. subst ZI.
  apply (inv_keep s s1 Z' Zb1); auto.
  - apply (kps_dyns R _ _ fr_kps).
  - apply hist_kps. exact fr_kps.
  - congruence.
  - apply (steps_trans _ _ Z); [exact LZ|apply steps_sym, grid_steps; [exact LZ|split; assumption]|apply grid_steps; assumption].
Qed.
Lemma inv_iteration debug fuel (s s' : IL) d : as_iteration n m debug fuel s = Ok (d, s') -> al_inv s -> al_inv s'.
Proof.
  intros E I. destruct (as_iter_spec n m debug fuel s d s' E) as (s1 & s4 & []). pose proof (inv_solve _ _ _ _ ou_solve I) as I1.
  assert (I4 : al_inv s4). { apply (inv_same s1 s4); auto. rewrite ou_costs. apply R_map_all. apply R_duals. }
  destruct d as [e|]; [subst s'; exact I4|]. destruct ou_end as (_ & EN & EX & EZ & EB & _ & ED & EC & _). apply (inv_same s4 s'); auto. rewrite EC. apply R_map_all. apply R_pens.
Qed.
Lemma R_trans_all x y z : Forall2 R x y -> Forall2 R y z -> Forall2 R x z.
Proof. intros H. revert z. induction H as [|p q x y H _ IH]; intros z G; inversion G; subst; constructor; [eapply R_trans; eassumption|apply IH; assumption]. Qed.
Lemma R_init debug (s b : IL) : as_init debug s = Ok b -> Forall2 R (il_costobjs s) (il_costobjs b).
Proof.
  intros E. unfold as_init in E. set (s1 := if o_reset_duals (il_opts s) then il_map_costobjs al_reset_duals s else s) in E. cbv zeta in E.
  assert (H1 : Forall2 R (il_costobjs s) (il_costobjs s1)). { unfold s1. destruct (o_reset_duals (il_opts s)); [|apply R_refl_all]. rewrite map_costobjs. apply R_map_all. apply R_reset. }
  clearbody s1.
  destruct (if ltb zero (o_init_pen (il_opts s)) then do cs <- als_set_penalty debug (o_init_pen (il_opts s)) (il_costobjs s1) ; Ok (il_set_costobjs cs s1) else Ok s1) as [s2| | | | |] eqn:E2; try discriminate. cbn [bind] in E.
  assert (H2 : Forall2 R (il_costobjs s1) (il_costobjs s2)).
  { destruct (ltb zero (o_init_pen (il_opts s))) eqn:EL.
    - assert (HP : 0 < o_init_pen (il_opts s)) by (apply Rltb_true; exact EL). rewrite als_set_penalty_ok in E2 by (intros _; apply Rleb_true; left; exact HP). cbn [bind] in E2.
      apply (f_equal (fun r => match r with Ok x => x | _ => s2 end)) in E2. subst s2. rewrite set_costs_costobjs by (unfold il_costobjs; rewrite !map_length; reflexivity). apply R_map_all. intros c. apply R_set. exact HP.
    - inversion E2; subst. apply R_refl_all. }
  destruct (StatsModel.st_reset debug (il_opts s) (il_stats s2)) as [st| | | | |]; try discriminate. cbn [bind] in E.
  destruct (il_recost debug _) as [s3| | | | |] eqn:E4; try discriminate. cbn [bind] in E.
  apply (f_equal (fun r => match r with Ok x => x | _ => b end)) in E. destruct (recost_spec _ _ _ E4) as (_ & _ & _ & _ & _ & Z & _ & _ & _ & Hk).
  eapply R_trans_all; [exact H1|]. eapply R_trans_all; [exact H2|]. unfold il_costobjs. subst b. cbn [il_kps il_set_stats]. rewrite Hk. cbn [il_kps il_set_stats]. apply hist_kps. apply sim_calc_costs; [apply R_refl|apply R_eval].
Qed.
Lemma inv_init debug (s b : IL) : as_init debug s = Ok b -> al_inv s -> al_inv b.
Proof. intros E I. destruct (init_spec _ _ _ E) as (P & EZ & EB & _). apply (inv_same s b I); try apply P; auto. apply (R_init _ _ _ E). Qed.
Lemma R_iteration debug fuel (s s' : IL) d : as_iteration n m debug fuel s = Ok (d, s') -> Forall2 R (il_costobjs s) (il_costobjs s').
Proof.
  intros E. destruct (as_iter_spec n m debug fuel s d s' E) as (s1 & s4 & []).
  destruct (solve_ready al_ops n m als_max_violation R R_refl R_trans R_eval R_grad R_hess debug fuel s s1 ou_solve) as [_ []]. apply hist_kps in fr_kps. apply (R_trans_all _ _ _ fr_kps).
  assert (H4 : Forall2 R (il_costobjs s1) (il_costobjs s4)) by (rewrite ou_costs; apply R_map_all, R_duals). apply (R_trans_all _ _ _ H4).
  destruct d as [e|]; [subst s'; apply R_refl_all|]. destruct ou_end as (_ & EN & EX & EZ & EB & _ & ED & EC & _). rewrite EC. apply R_map_all, R_pens.
Qed.
Lemma R_as_solve debug fuel (a a' : ALS RS) : as_solve n m debug fuel a = Ok a' -> Forall2 R (il_costobjs (as_il a)) (il_costobjs (as_il a')).
Proof.
  unfold as_solve. destruct (as_init debug (as_il a)) as [b| | | | |] eqn:Eb; try discriminate. cbn [bind]. intros H. apply (R_trans_all _ _ _ (R_init _ _ _ Eb)). clear Eb.
  generalize dependent (as_status a). generalize (Z.to_nat (o_max_outer (il_opts b))). intros it. revert b. induction it as [|it IH]; intros b st H.
  - cbn in H. inversion H; subst. apply R_refl_all.
  - cbn [as_loop as_il as_status] in H. destruct (as_iteration n m debug fuel b) as [[d s]| | | | |] eqn:E; try discriminate. cbn [bind] in H. pose proof (R_iteration _ _ _ _ _ E) as P.
    destruct d as [e|]; [inversion H; subst; exact P|]. eapply R_trans_all; [exact P|]. exact (IH s st H).
Qed.
(** costs, cones and constraints are those of the start *)
Lemma same_data cs cs' : Forall2 R cs cs' -> Forall keeps cs -> map (@al_cost RS) cs' = map (@al_cost RS) cs /\ map (fun c => map sig (al_cvs c)) cs' = map (fun c => map sig (al_cvs c)) cs.
Proof. induction 1 as [|c c' cs cs' H _ IH]; intros K; [split; reflexivity|]. inversion K as [|? ? K1 K2]; subst. destruct (H K1) as (_ & E1 & E2). destruct (IH K2) as [F1 F2]. cbn [map]. split; congruence. Qed.
Lemma problem_as_solve debug fuel (a a' : ALS RS) : as_solve n m debug fuel a = Ok a' -> same_problem (as_il a) (as_il a').
Proof.
  unfold as_solve. destruct (as_init debug (as_il a)) as [b| | | | |] eqn:Eb; try discriminate. cbn [bind]. intros H. destruct (init_spec _ _ _ Eb) as (P & _). apply (sp_trans _ _ _ P). clear P Eb.
  generalize dependent (as_status a). generalize (Z.to_nat (o_max_outer (il_opts b))). intros it. revert b. induction it as [|it IH]; intros b st H.
  - cbn in H. inversion H; subst. apply sp_refl.
  - cbn [as_loop as_il as_status] in H. destruct (as_iteration n m debug fuel b) as [[d s]| | | | |] eqn:E; try discriminate. cbn [bind] in H. destruct (as_iter_spec n m debug fuel b d s E) as (s1 & s4 & OS).
    destruct (outer_problem _ _ _ _ _ _ _ _ _ OS) as (P1 & P2 & P3). assert (P : same_problem b s) by (eapply sp_trans; [exact P1|]; eapply sp_trans; eassumption).
    destruct d as [e|]; [inversion H; subst; exact P|]. eapply sp_trans; [exact P|]. exact (IH s st H).
Qed.
Theorem inv_as_solve debug fuel (a a' : ALS RS) : as_solve n m debug fuel a = Ok a' -> al_inv (as_il a) -> al_inv (as_il a').
Proof.
  unfold as_solve. destruct (as_init debug (as_il a)) as [b| | | | |] eqn:Eb; try discriminate. cbn [bind]. intros H I. apply (inv_init _ _ _ Eb) in I. clear Eb.
  generalize dependent (as_status a). generalize (Z.to_nat (o_max_outer (il_opts b))). intros it. revert b I. induction it as [|it IH]; intros b I st H.
  - cbn in H. inversion H; subst. exact I.
  - cbn [as_loop as_il as_status] in H. destruct (as_iteration n m debug fuel b) as [[d s]| | | | |] eqn:E; try discriminate. cbn [bind] in H. pose proof (inv_iteration _ _ _ _ _ E I) as I'.
    destruct d as [e|]; [inversion H; subst; exact I'|]. exact (IH s I' st H).
Qed.
End Keep.
