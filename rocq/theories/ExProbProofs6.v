(** The example problems read through their costs and constraints; the solvers made from them. *)
From Coq Require Import Reals Lra ZArith List Bool Lia.
From Verif Require Import Base Lin RLin ConModel ConSpec ConProofs LogModel StatsModel TrajModel IlqrModel IlqrSpec CostInst AlModel DynModel DynSpec DynProofs ExampleModel ExampleSpec ExampleProofs ExampleProofs2 ExampleProofs3 P_Examples P_Traj ProblemModel ProblemSpec ProblemProofs ProblemProofs2 ProblemProofs3 ProblemProofs4 IlqrProofs5 LqSpec LqProbSpec LltProofs LqInst P_Lqr ExProbModel ExProbSpec ExProbProofs ExProbProofs2 ExProbProofs3 ExProbProofs4 ExProbProofs5.
From Coq Require Import FunctionalExtensionality.
Import List ListNotations LqSpec.
Local Open Scope R_scope.

Lemma cost_of N h p x0 md cost eqs ineqs k x u : holds (F:=RS) N h p x0 md cost eqs ineqs -> (0 <= k <= N)%Z -> cost_at p (Z.to_nat k) x u (uc_eval (cost k) x u).
Proof. intros H Hk. eexists. split; [apply (ho_cost _ _ _ _ _ _ _ _ H k Hk)|reflexivity]. Qed.
Lemma feasible_of N h p x0 md cost eqs ineqs k x u : holds (F:=RS) N h p x0 md cost eqs ineqs -> (0 <= k <= N)%Z ->
  (feasible_at p (Z.to_nat k) x u <-> (forall con buf, In con (eqs k) -> in_cone ZeroCone (con_dim con) (con_eval con x u buf)) /\ (forall con buf, In con (ineqs k) -> in_cone NegativeOrthant (con_dim con) (con_eval con x u buf))).
Proof.
  intros H Hk. unfold feasible_at. pose proof (ho_eq _ _ _ _ _ _ _ _ H k Hk) as E1. pose proof (ho_ineq _ _ _ _ _ _ _ _ H k Hk) as E2. cbn [in_cone]. split.
  - intros [A B]. split; intros con buf HI i Hi; [eapply A|eapply B]; eauto.
  - intros [A B]. split; intros l con buf El HI i Hi; [rewrite E1 in El|rewrite E2 in El]; inversion El; subst l; [eapply A|eapply B]; eauto.
Qed.

(** * triple integrator *)
Section Tri.
Context (debug : bool) (ldlt : mat RS -> bool) (dmax : R) (dof : nat) (uref : vec RS) (st : RK4 RS) (add : bool).
Record ti_ok (t : TIP RS) : Prop := {
  to_dof : (1 <= dof)%nat; to_N : (1 <= ti_N t)%Z; to_x0 : length (A:=R) (ti_x0 t) = (3 * dof)%nat;
  to_Q : sym (3 * dof) (ti_Q t); to_Qf : sym (3 * dof) (ti_Qf t); to_R : sym dof (ti_R t); to_Rp : posdef dof (ti_R t);
  to_lQ : ldlt (ti_Q t) = true; to_lQf : ldlt (ti_Qf t) = true;
  to_ub : add = true -> (dof <= length (A:=R) (ti_ubnd t))%nat /\ forall i, (i < dof)%nat -> 0 <= nth i (ti_ubnd t) 0 < dmax }.
Theorem ti_contents t h : ti_ok t -> let n := (3 * dof)%nat in let N := Z.to_nat (ti_N t) in let xf := (fun i => nth (A:=R) i (ti_xf t) 0) in
  exists h' p, ti_make debug ldlt dmax dof uref st add t h = Ok (h', p) /\ pr_is_fully_defined h' p = Ok true /\ pr_segments p = Ok (ti_N t) /\
    pr_num_constraints debug p = Ok (if add then N * (2 * dof) + n else 0)%nat /\ h_get (pr_init p) h' = ti_x0 t /\
    (forall k, (k < N)%nat -> exists md, nth_error (pr_models p) k = Some (Some md) /\ md_n md = Z.of_nat n /\ md_m md = Z.of_nat dof /\ forall x u tm s buf, tri_motion dof s x u (dy_eval (md_dyn md) x u tm s buf)) /\
    (forall k x u, (k < N)%nat -> cost_at p k x u (weighted n (ti_Q t) x xf + weighted dof (ti_R t) u uref)) /\
    (forall x u, cost_at p N x u (weighted n (ti_Qf t) x xf)) /\
    (forall k x u, (k < N)%nat -> (feasible_at p k x u <-> (add = true -> forall i, (i < dof)%nat -> Rabs (u i) <= nth i (ti_ubnd t) 0))) /\
    (forall x u, feasible_at p N x u <-> (add = true -> forall i, (i < n)%nat -> x i = xf i)).
Proof.
  intros OK n N xf. destruct OK as [H1 H2 H3 H4 H5 H6 H7 H8 H9 H10].
  destruct (ti_made debug ldlt dmax dof uref st add t h H1 H2 H3 H4 H5 H6 H7 H8 H9 H10) as (h' & p & c & cT & b & q & qT & E & FD & NC & HO & Ec & EcT & Eq & EqT & BX).
  exists h', p. split; [exact E|]. split; [exact FD|]. split; [apply (ho_N _ _ _ _ _ _ _ _ HO)|]. split; [exact NC|]. split; [apply (ho_init _ _ _ _ _ _ _ _ HO)|].
  assert (ZN : forall k : nat, (k < N)%nat -> (0 <= Z.of_nat k <= ti_N t)%Z /\ (Z.of_nat k < ti_N t)%Z) by (unfold N; intros; lia).
  split; [|split; [|split; [|split]]].
  - intros k Hk. exists (ti_model dof st). destruct (ZN k Hk). split; [rewrite <- (Nat2Z.id k) at 1; apply (ho_dyn _ _ _ _ _ _ _ _ HO); lia|]. split; [reflexivity|]. split; [reflexivity|]. intros. apply tri_step.
  - intros k x u Hk. destruct (ZN k Hk) as [A B]. pose proof (cost_of _ _ _ _ _ _ _ _ _ x u HO A) as CO. cbv beta in CO. rewrite Nat2Z.id in CO. replace (Z.of_nat k =? ti_N t)%Z with false in CO by (symmetry; apply Z.eqb_neq; lia).
    rewrite Ec in CO. cbn [qc_ucost uc_eval] in CO. rewrite (C54_lqr _ _ _ _ _ _ _ _ _ _ Eq H4 H6) in CO. exact CO.
  - intros x u. pose proof (cost_of _ _ _ _ _ _ _ _ (ti_N t) x u HO ltac:(lia)) as CO. cbv beta in CO. rewrite Z.eqb_refl in CO.
    rewrite EcT in CO. cbn [qc_ucost uc_eval] in CO. rewrite (C54_lqr _ _ _ _ _ _ _ _ _ _ EqT H5 ltac:(intros i j _ _; reflexivity)) in CO. rewrite qform_zero in CO.
    replace (weighted n (ti_Qf t) x xf) with (/ 2 * qform n n (ti_Qf t) (fun i => x i - xf i) (fun i => x i - xf i) + / 2 * 0) by (unfold weighted; lra). exact CO.
  - intros k x u Hk. destruct (ZN k Hk) as [A B]. pose proof (feasible_of _ _ _ _ _ _ _ _ _ x u HO A) as FO. cbv beta in FO. rewrite Nat2Z.id in FO. rewrite FO. clear FO.
    replace (Z.of_nat k =? ti_N t)%Z with false by (symmetry; apply Z.eqb_neq; lia). replace (Z.of_nat k <? ti_N t)%Z with true by (symmetry; apply Z.ltb_lt; lia). rewrite andb_false_r, andb_true_r.
    destruct add.
    + split.
      * intros [_ G] _ i Hi. specialize (G b vzero (or_introl eq_refl)). rewrite BX in G by reflexivity. specialize (G i Hi). apply Rabs_le. exact G.
      * intros G. split; [intros con buf []|]. intros con buf [<-|[]]. apply BX; [reflexivity|]. intros i Hi. specialize (G eq_refl i Hi). unfold Rabs in G. destruct (Rcase_abs (u i)); lra.
    + split; [discriminate|]. intros _. split; intros con buf [].
  - intros x u. unfold N. rewrite (feasible_of _ _ _ _ _ _ _ _ (ti_N t) x u HO ltac:(lia)). cbv beta. rewrite Z.eqb_refl, Z.ltb_irrefl, andb_false_r, andb_true_r. destruct (C53_goal n dof xf) as [CG _]. destruct add.
    + split.
      * intros [G _] _. apply (CG x u vzero). apply (G (goal_con (F:=RS) n xf) vzero). left. reflexivity.
      * intros G. split; [|intros con buf []]. intros con buf [<-|[]]. apply (CG x u buf). apply G. reflexivity.
    + split; [discriminate|]. intros _. split; intros con buf [].
Qed.
(** iLQR on the problem, from any trajectory with the problem's time step, reaches the global minimum of the cost (constraints are not used by iLQR) *)
Theorem ti_solved t h on om Z o cb : ti_ok t -> let n := (3 * dof)%nat in let N := Z.to_nat (ti_N t) in let xf := (fun i => nth (A:=R) i (ti_xf t) 0) in
  possemi n (ti_Q t) -> possemi n (ti_Qf t) -> (on = None \/ on = Some n) -> (om = None \/ om = Some dof) ->
  length Z = S N -> (forall k z, (k < N)%nat -> nth_error Z k = Some z -> z_h z = ti_h t) ->
  reg_ok o -> 0 < o_reg_min o -> o_reg_initial o = 0 -> o_ls_lb o <= 1 <= o_ls_ub o -> (1 <= o_ls_iters o)%Z -> (1 <= o_max_inner o)%Z -> o_check_bounds o = false ->
  exists h' p s, ti_make debug ldlt dmax dof uref st add t h = Ok (h', p) /\ il_of_problem debug on om h' p = Ok s /\
  exists fuel, forall fuel', (fuel <= fuel')%nat -> exists s' Z', il_solve (@ucost_ops RS) n dof cb debug fuel' (il_set_opts (il_set_trajectory Z s) o) = Ok s' /\ il_Z s' = Some Z' /\ length Z' = S N /\
    tri_path dof N (ti_h t) (fun i => nth (A:=R) i (ti_x0 t) 0) (zX Z') (zU Z') /\
    forall X U, tri_path dof N (ti_h t) (fun i => nth (A:=R) i (ti_x0 t) 0) X U ->
      tri_cost dof N (ti_Q t) (ti_R t) (ti_Qf t) xf uref (zX Z') (zU Z') <= tri_cost dof N (ti_Q t) (ti_R t) (ti_Qf t) xf uref X U.
Proof.
  intros OK n N xf PQ PF Hon Hom LZ HZ RO RM RI HLB HIT HMI HCB. destruct OK as [H1 H2 H3 H4 H5 H6 H7 H8 H9 H10].
  destruct (ti_made debug ldlt dmax dof uref st add t h H1 H2 H3 H4 H5 H6 H7 H8 H9 H10) as (h' & p & c & cT & b & q & qT & E & FD & _ & HO & Ec & EcT & Eq & EqT & _).
  fold n in Eq, EqT.
  exists h', p. eexists. split; [exact E|]. split.
  { apply (holds_copy debug on om _ _ _ _ _ _ _ _ H2 HO FD).
    - cbn [ti_model md_n]. fold n. destruct Hon as [->| ->]; [reflexivity|cbn; apply Z.eqb_refl].
    - cbn [ti_model md_m]. destruct Hom as [->| ->]; [reflexivity|cbn; apply Z.eqb_refl]. }
  set (ks := map _ _).
  assert (EK : ks = tri_ks dof q qT N st).
  { unfold ks, tri_ks. rewrite Ec, EcT. replace (Z.of_nat N) with (ti_N t) by (unfold N; lia). replace (Z.to_nat (ti_N t + 1)) with (S N) by (unfold N; lia). reflexivity. }
  rewrite EK. clear ks EK. fold N.
  set (x0 := fun i => nth (A:=R) i (ti_x0 t) 0). change (fun i => nth i (ti_x0 t) zero) with x0.
  rewrite tri_ks_split.
  pose proof (C31_lqr_rk4 n dof N x0 (repeat (disc_rk4 n dof (triple (F:=RS) dof) st, qc_ucost q) N) (identity_dyn, qc_ucost qT) Z o cb debug) as T.
  destruct T as [fuel T]; auto.
  - apply repeat_length.
  - apply Forall_forall. intros e He. apply repeat_spec in He. subst e. split.
    + exists (triple (F:=RS) dof), (tri_A dof), (tri_B dof), (fun _ => 0), (fun _ _ => true), st. split; [apply triple_linear|reflexivity].
    + exists debug, (ldlt (ti_Q t)), (ti_Q t), (ti_R t), (lvec (ti_xf t)), uref, false, q. auto 10.
  - exists debug, (ldlt (ti_Qf t)), (ti_Qf t), (lvec (ti_xf t)), uref, true, qT. auto.
  - unfold N. lia.
  - exists fuel. intros f Hf. destruct (T f Hf) as (s' & Z' & R1 & R2 & BC & BM). exists s', Z'. split; [exact R1|]. split; [exact R2|].
    match type of BC with candidate _ ?s _ _ => set (s0 := s) in * end.
    assert (EX : il_x0 s0 = x0) by reflexivity. assert (EN : il_N s0 = N) by reflexivity.
    assert (ED : map kp_dyn (il_kps s0) = map fst (tri_ks dof q qT N st)).
    { rewrite tri_ks_split. change (il_kps s0) with (map (fun p => kpf_make (fst p) (snd p)) (repeat (disc_rk4 n dof (triple (F:=RS) dof) st, qc_ucost q) N ++ [(identity_dyn, qc_ucost qT)])). rewrite map_map. reflexivity. }
    assert (EC : map (fun k => kp_cost k) (il_kps s0) = map snd (tri_ks dof q qT N st)).
    { rewrite tri_ks_split. change (il_kps s0) with (map (fun p => kpf_make (fst p) (snd p)) (repeat (disc_rk4 n dof (triple (F:=RS) dof) st, qc_ucost q) N ++ [(identity_dyn, qc_ucost qT)])). rewrite map_map. reflexivity. }
    assert (LZ' : length Z' = S N) by (destruct BC as [L _]; rewrite EN in L; exact L).
    split; [exact LZ'|]. split; [eapply (candidate_path dof q qT N st x0 (ti_h t) Z LZ HZ s0 EN EX ED); exact BC|].
    intros X U HP. destruct (path_candidate dof q qT N st x0 (ti_h t) Z LZ HZ s0 EN EX ED X U HP) as (Y & CY & LY & EY). specialize (BM Y CY). unfold n in BM.
    rewrite (tri_lq_cost debug dof (ti_Q t) (ti_R t) (ti_Qf t) xf uref _ _ q qT N st H4 PQ H5 PF H6 H7 Eq EqT s0 Z' EC LZ') in BM.
    rewrite (tri_lq_cost debug dof (ti_Q t) (ti_R t) (ti_Qf t) xf uref _ _ q qT N st H4 PQ H5 PF H6 H7 Eq EqT s0 Y EC LY) in BM.
    replace (tri_cost dof N (ti_Q t) (ti_R t) (ti_Qf t) xf uref X U) with (tri_cost dof N (ti_Q t) (ti_R t) (ti_Qf t) xf uref (zX Y) (zU Y)); [exact BM|].
    unfold tri_cost. f_equal; [apply fsum_ext; intros k Hk; destruct (EY k ltac:(lia)) as [-> ->]; reflexivity|destruct (EY N ltac:(lia)) as [-> _]; reflexivity].
Qed.
End Tri.
