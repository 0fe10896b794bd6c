(** End of an augmented-Lagrangian solve: meaning of the status, and of 'solved' for the returned trajectory. *)
From Coq Require Import ZArith Reals String List Bool Lia Lra.
From Verif Require Import Base Lin RLin ConModel ConSpec ConProofs ConProofs4 ConProofs5 LogModel StatsModel StatsSpec StatsProofs TrajModel IlqrModel IlqrSpec IlqrFrame IlqrProofs IlqrProofs2 IlqrProofs3 IlqrProofs4 IlqrProofs5 IlqrProofs6 CostInst AlModel AlProofs AlProofs2 AlProofs3.
Import ListNotations.
Local Open Scope Z_scope.

Section Status.
Context {F : Scalar} (n m : nat).
(** [s] and [s1]: the solver before and after the last inner solve of an outer solve from [a] to [a'] *)
Definition last_inner (debug : bool) (fuel : nat) (a a' : ALS F) (s s1 : ILQR F (ALCost F)) : Prop :=
  exists b j, as_init debug (as_il a) = Ok b /\ as_reach n m debug fuel b j s /\
    il_solve al_ops n m als_max_violation debug fuel s = Ok s1 /\
    as_iteration n m debug fuel s = Ok (Some (as_status a'), as_il a').

Theorem as_status_spec debug fuel (a a' : ALS F) : as_solve n m debug fuel a = Ok a' -> 1 <= o_max_outer (il_opts (as_il a)) ->
  map fst (st_ser (il_stats (as_il a))) = series_titles ->
  exists s s1 V P, last_inner debug fuel a a' s s1 /\
    st_back "viol" (il_stats (as_il a')) = Ok V /\ V = als_max_violation (as_costs a') /\
    st_back "pen" (il_stats (as_il a')) = Ok P /\ P = als_max_penalty (as_costs a') /\
    il_Z (as_il a') = il_Z s1 /\ as_costs a' = map al_update_duals (il_costobjs s1) /\
    il_opts s = il_opts (as_il a) /\ stats_ok (il_stats s) /\
    st_outer (il_stats (as_il a')) <= o_max_outer (il_opts (as_il a)) /\
    st_total (il_stats (as_il a')) = st_total (il_stats s1) /\
    let o := il_opts (as_il a) in let st := il_stats (as_il a') in
    as_status a' =
      if negb (status_eqb (il_status s1) kSolved) then il_status s1
      else if ltb V (o_con_tol o) then kSolved
      else if ltb (o_max_pen o) P then kMaxPenalty
      else if o_max_outer o <=? st_outer st then kMaxOuterIterations
      else kMaxIterations.
Proof.
  intros H Hm Ht.
  unfold as_solve in H. destruct (as_init debug (as_il a)) as [b| | | | |] eqn:Eb; try discriminate. cbn [bind] in H.
  destruct (init_spec _ _ _ Eb) as (P & HZ & HZb & Hs & Ho & Hto & Hmt & Hok). specialize (Hok Ht).
  assert (Hopt : il_opts b = il_opts (as_il a)) by apply P.
  destruct (as_loop_run n m debug fuel _ _ _ H) as (j & s & d & A & B & C & D); [rewrite Hopt; lia|]. cbn [as_il as_status] in A, D. rewrite Hopt in B, D.
  destruct (reach_outer _ _ _ _ _ _ _ A Ho Hto Hok) as (R1 & R2 & R3 & R4 & R5 & R6).
  destruct (as_iter_spec n m debug fuel s d (as_il a') C) as (s1 & s4 & S4).
  destruct (outer_problem _ _ _ _ _ _ _ _ _ S4) as (P1 & P4 & P').
  pose proof (ou_solve _ _ _ _ _ _ _ _ _ S4) as Hsol.
  pose proof (solve_stats_ok al_ops n m als_max_violation debug fuel s s1 Hsol R3) as K1.
  destruct (solve_bounds al_ops n m als_max_violation debug fuel s s1 Hsol) as (_ & _ & B3 & _).
  pose proof (ou_outer _ _ _ _ _ _ _ _ _ S4) as E.
  assert (Eo : il_opts s4 = il_opts (as_il a)) by (destruct P, R1, P1, P4; congruence).
  destruct d as [e|].
  - pose proof (ou_end _ _ _ _ _ _ _ _ _ S4) as E'. cbn in E'. subst s4. subst e.
    destruct (ou_stats _ _ _ _ _ _ _ _ _ S4 K1) as (K4 & Kv & Kp).
    pose proof (done_cases _ _ _ _ (ou_done _ _ _ _ _ _ _ _ _ S4) Kv Kp) as Hd.
    rewrite Eo, (ou_status _ _ _ _ _ _ _ _ _ S4) in Hd.
    exists s, s1, (als_max_violation (as_costs a')), (als_max_penalty (as_costs a')).
    split; [exists b, j; auto|]. split; [exact Kv|]. split; [reflexivity|]. split; [exact Kp|]. split; [reflexivity|].
    split; [apply (ou_Z _ _ _ _ _ _ _ _ _ S4)|]. split; [apply (ou_costs _ _ _ _ _ _ _ _ _ S4)|].
    split; [destruct P, R1; congruence|]. split; [exact R3|]. split; [lia|]. split; [apply (ou_total _ _ _ _ _ _ _ _ _ S4)|]. cbv zeta.
    change (il_costobjs (as_il a')) with (as_costs a') in Hd.
    destruct (negb _); [now inversion Hd|]. destruct (ltb _ _); [now inversion Hd|]. destruct (ltb _ _); [now inversion Hd|].
    destruct (_ <=? _); [now inversion Hd|]. destruct (_ <=? _); now inversion Hd.
  - exfalso. destruct (as_done_false _ (ou_done _ _ _ _ _ _ _ _ _ S4)) as (D1 & D2 & D3). rewrite Eo in D2. lia.
Qed.
(** and the last branch is taken only when the total limit was reached *)
Theorem as_status_total debug fuel (a a' : ALS F) s s1 V P : last_inner debug fuel a a' s s1 ->
  st_back "viol" (il_stats (as_il a')) = Ok V -> st_back "pen" (il_stats (as_il a')) = Ok P ->
  il_status s1 = kSolved -> ltb V (o_con_tol (il_opts (as_il a'))) = false -> ltb (o_max_pen (il_opts (as_il a'))) P = false ->
  st_outer (il_stats (as_il a')) < o_max_outer (il_opts (as_il a')) -> o_max_total (il_opts (as_il a')) <= st_total (il_stats (as_il a')).
Proof.
  intros (b & j & Hb & Hr & Hs & Hi) HV HP H1 H2 H3 H4.
  destruct (as_iter_spec n m debug fuel s _ (as_il a') Hi) as (s1' & s4 & S4).
  pose proof (ou_end _ _ _ _ _ _ _ _ _ S4) as E'. cbn in E'. subst s4.
  assert (s1' = s1) by (pose proof (ou_solve _ _ _ _ _ _ _ _ _ S4); congruence). subst s1'.
  pose proof (done_cases _ _ _ _ (ou_done _ _ _ _ _ _ _ _ _ S4) HV HP) as Hd.
  rewrite (ou_status _ _ _ _ _ _ _ _ _ S4), H1, H2, H3 in Hd. cbn [status_eqb negb] in Hd.
  destruct (Z.leb_spec (o_max_outer (il_opts (as_il a'))) (st_outer (il_stats (as_il a')))); [lia|].
  destruct (Z.leb_spec (o_max_total (il_opts (as_il a'))) (st_total (il_stats (as_il a')))); [assumption|discriminate].
Qed.
Lemma as_opts debug fuel (a a' : ALS F) : as_solve n m debug fuel a = Ok a' -> 1 <= o_max_outer (il_opts (as_il a)) ->
  map fst (st_ser (il_stats (as_il a))) = series_titles -> il_opts (as_il a') = il_opts (as_il a).
Proof. intros H Hm Ht. destruct (as_run n m debug fuel a a' H Hm Ht) as (b & j & s & s1 & _ & _ & _ & _ & _ & P & _). apply P. Qed.
End Status.

(** constraint values after a solved outer solve whose last inner iteration moved the trajectory *)
Lemma Forall2_nth {A B} (R : A -> B -> Prop) l l' : Forall2 R l l' -> forall k x, nth_error l k = Some x -> exists y, nth_error l' k = Some y /\ R x y.
Proof. induction 1; intros [|k] z Hz; simpl in *; try discriminate; [inversion Hz; subst; eauto|eauto]. Qed.
Lemma Forall2_In {A B} (R : A -> B -> Prop) l l' x : Forall2 R l l' -> In x l -> exists y, In y l' /\ R x y.
Proof. intros H Hi. induction H; simpl in *; [easy|]. destruct Hi as [<-|Hi]; [eauto|]. destruct (IHForall2 Hi) as (z & A1 & A2). eauto. Qed.
Lemma Forall2_In_r {A B} (R : A -> B -> Prop) l l' y : Forall2 R l l' -> In y l' -> exists x, In x l /\ R x y.
Proof. intros H Hi. induction H; simpl in *; [easy|]. destruct Hi as [<-|Hi]; [eauto|]. destruct (IHForall2 Hi) as (z & A1 & A2). eauto. Qed.
Lemma Forall2_app' {A B} (R : A -> B -> Prop) l1 l2 l1' l2' : Forall2 R l1 l1' -> Forall2 R l2 l2' -> Forall2 R (l1 ++ l2) (l1' ++ l2').
Proof. induction 1; simpl; auto. Qed.

Theorem solved_certified n m debug fuel (a a' : ALS RS) : as_solve n m debug fuel a = Ok a' ->
  1 <= o_max_outer (il_opts (as_il a)) -> 1 <= o_max_inner (il_opts (as_il a)) ->
  map fst (st_ser (il_stats (as_il a))) = series_titles -> (0 < o_con_tol (il_opts (as_il a)))%R ->
  (forall c, In c (as_costs a) -> al_writes c) -> as_status a' = kSolved ->
  exists t s1, il_iteration al_ops n m als_max_violation fuel t = Ok (true, s1) /\ il_Z (as_il a') = il_Z s1 /\
  (il_Z (as_il a') <> il_Z t ->
   exists Z, il_Z (as_il a') = Some Z /\
   forall k c z v i b, nth_error (as_costs a) k = Some c -> nth_error Z k = Some z -> In v (al_cvs c) -> (i < cv_p v)%nat ->
     comp_within (cv_type v) (o_con_tol (il_opts (as_il a))) (con_eval (cv_con v) (z_x z) (z_u z) b i)).
Proof.
  intros H Ho Hi Ht Htol Hw Hst.
  destruct (as_status_spec n m debug fuel a a' H Ho Ht) as (s & s1 & V & P & L & HV & EV & _ & _ & EZ & EC & Eopt & _ & _ & _ & Es). cbv zeta in Es.
  destruct L as (b & j & Hb & Hr & Hs & _).
  assert (Hlt : (V < o_con_tol (il_opts (as_il a)))%R).
  { rewrite Hst in Es. destruct (il_status s1); try discriminate Es. cbn [status_eqb negb] in Es.
    destruct (ltb V (o_con_tol (il_opts (as_il a)))) eqn:E; [now apply Rltb_true|].
    destruct (ltb _ P); [discriminate|]. destruct (_ <=? _); discriminate. }
  destruct (iter_moved n m debug fuel s s1 Hs) as (t & Hit & Hrt & Hmv); [rewrite Eopt; exact Hi|].
  exists t, s1. split; [exact Hit|]. split; [exact EZ|]. rewrite EZ. intros Hne. destruct (Hmv Hne) as (ks & Z & HZ & _ & Hk).
  exists Z. split; [exact HZ|]. intros k c z v i buf Hc Hz Hv Hip.
  pose proof (hist_trans _ _ _ (init_hist _ _ _ Hb) (hist_trans _ _ _ (reach_hist n m _ _ _ _ _ Hr) (hist_solve n m _ _ _ _ Hs))) as Hh.
  destruct (Forall2_nth _ _ _ Hh k c Hc) as (c1 & Hc1 & Hcc).
  assert (Hcs : Forall2 cv_steps (al_cvs c) (al_cvs c1)) by (destruct Hcc as (_ & _ & _ & A & B); apply Forall2_app'; auto).
  destruct (Forall2_In _ _ _ v Hcs Hv) as (v1 & Hv1 & Hvv). apply cv_steps_static in Hvv. destruct Hvv as (_ & _ & E3 & E4).
  assert (Hp1 : cv_p v1 = cv_p v) by (unfold cv_p; now rewrite E4).
  unfold il_costobjs in Hc1. rewrite Hk in Hc1. destruct (costs_at ks Z k c1 z Hc1 Hz) as (c0 & _ & Ec1).
  destruct (al_eval_stores c0 (z_x z) (z_u z)) as (_ & Hst0). rewrite <- Ec1 in Hst0.
  destruct (Forall2_In_r _ _ _ v1 Hst0 Hv1) as (v0 & Hv0 & ((_ & _ & _ & E7) & _ & _ & _ & Hval)).
  assert (Hcw : con_writes (cv_con v)).
  { specialize (Hw c). unfold al_writes in Hw. rewrite Forall_forall in Hw. apply Hw; [eapply nth_error_In; exact Hc|exact Hv]. }
  assert (Hq : cv_c v1 i = con_eval (cv_con v) (z_x z) (z_u z) buf i).
  { rewrite Hval by (unfold cv_p in *; rewrite <- E7, E4; exact Hip). rewrite <- E7, E4. apply Hcw. exact Hip. }
  rewrite <- Hq, <- E3.
  rewrite EV, EC in Hlt. destruct (max_violation_cor (map al_update_duals (il_costobjs s1))) as [_ Hcor].
  pose proof (proj1 (Hcor _ Htol) Hlt) as Hall.
  refine (Hall (al_update_duals c1) (cv_update_duals v1) i _ _ _).
  - apply in_map. unfold il_costobjs. rewrite Hk. eapply nth_error_In; exact Hc1.
  - unfold al_cvs, al_update_duals, al_map, al_set. cbn. rewrite <- map_app. apply in_map. exact Hv1.
  - unfold cv_p. cbn. unfold cv_p in Hp1, Hip. rewrite Hp1. exact Hip.
Qed.

(** multipliers of inequalities at every outer iteration *)
Theorem solve_duals {F : Scalar} n m debug fuel (a a' : ALS F) :
  leb (@zero F) zero = true -> (forall x : F, ltb x zero = true -> leb x zero = true) ->
  as_solve n m debug fuel a = Ok a' -> (forall c v, In c (as_costs a) -> In v (al_ineq c) -> cv_type v = NegativeOrthant /\ duals_nonpos v) ->
  forall c v i, In c (as_costs a') -> In v (al_ineq c) -> (i < cv_p v)%nat -> leb (cv_lam v i) zero = true.
Proof.
  intros H0 H1 H Hd c v i Hc Hv Hi. pose proof (solve_hist n m debug fuel a a' H) as Hh. unfold cost_hist in Hh.
  destruct (Forall2_In_r _ _ _ c Hh Hc) as (c0 & Hc0 & (_ & _ & _ & _ & Hcc)).
  destruct (Forall2_In_r _ _ _ v Hcc Hv) as (v0 & Hv0 & Hvv). destruct (Hd c0 v0 Hc0 Hv0) as [T0 D0].
  assert (T1 : cv_type v = NegativeOrthant) by (destruct (cv_steps_static _ _ Hvv) as (_ & _ & E & _); congruence).
  assert (D1 : duals_nonpos v).
  { revert D0. apply (cv_steps_inv duals_nonpos); auto. intros x y Hxy. now apply (duals_nonpos_step H0 H1). }
  now apply D1.
Qed.
