(** The unicycle problem in exact arithmetic. *)
From Coq Require Import Reals Lra ZArith List Bool Lia.
From Verif Require Import Base Lin RLin ConModel ConSpec ConProofs LogModel StatsModel TrajModel IlqrModel IlqrSpec CostInst AlModel DynModel DynSpec DynProofs ExampleModel ExampleSpec ExampleProofs ExampleProofs2 ExampleProofs3 P_Examples ProblemModel ProblemSpec ProblemProofs ProblemProofs2 ProblemProofs3 ProblemProofs4 LqSpec LqProbSpec LltProofs LqInst P_Lqr ExProbModel ExProbSpec ExProbProofs ExProbProofs2 ExProbProofs3 ExProbProofs4.
From Coq Require Import FunctionalExtensionality.
Import List ListNotations LqSpec.
Local Open Scope R_scope.

Definition diagonal (n : nat) (A : nat -> nat -> R) : Prop := forall i j, (i < n)%nat -> (j < n)%nat -> i <> j -> A i j = 0.
Lemma set_diag_sym n c (A : mat RS) : diagonal n A -> sym n (set_diag (F:=RS) c A).
Proof. intros H i j Hi Hj. unfold set_diag. rewrite (Nat.eqb_sym j i). destruct (Nat.eqb_spec i j); [reflexivity|]. rewrite !H; auto. Qed.
Lemma set_diag_diag n c (A : mat RS) : diagonal n A -> diagonal n (set_diag (F:=RS) c A).
Proof. intros H i j Hi Hj Hne. unfold set_diag. rewrite (proj2 (Nat.eqb_neq i j)) by auto. auto. Qed.
Lemma form_diag n c (A : mat RS) x y : diagonal n A -> qform n n (set_diag (F:=RS) c A) x y = c * fsum n (fun i => x i * y i).
Proof.
  intros H. unfold qform. rewrite !fsum_rsum. rewrite <- rsum_scal. apply rsum_ext. intros i Hi. rewrite fsum_rsum.
  rewrite (rsum_single n i) by (auto; intros j Hj Hne; unfold set_diag; rewrite (proj2 (Nat.eqb_neq i j)) by auto; rewrite H by auto; lra).
  unfold set_diag. rewrite Nat.eqb_refl. lra.
Qed.
Lemma set_diag_pos n c (A : mat RS) : diagonal n A -> 0 < c -> posdef n (set_diag (F:=RS) c A).
Proof.
  intros H Hc x (i & Hi & Hx).
  assert (E : form n n (set_diag (F:=RS) c A) x x = c * fsum n (fun i => x i * x i)).
  { rewrite <- (form_diag n c A) by auto. rewrite form_rsum. unfold qform. rewrite fsum_rsum. apply rsum_ext. intros k Hk. now rewrite fsum_rsum. }
  rewrite E. apply Rmult_lt_0_compat; auto. rewrite fsum_rsum.
  rewrite (rsum_ext n _ (fun k => (if Nat.eqb k i then x i * x i else 0) + (if Nat.eqb k i then 0 else x k * x k))) by (intros k Hk; destruct (Nat.eqb_spec k i) as [->|]; lra).
  rewrite rsum_plus. rewrite (rsum_single n i) by (auto; intros j Hj Hne; rewrite (proj2 (Nat.eqb_neq j i)) by auto; reflexivity). rewrite Nat.eqb_refl.
  assert (0 <= rsum n (fun k => if Nat.eqb k i then 0 else x k * x k)) by (apply rsum_nonneg; intros k Hk; destruct (Nat.eqb k i); [lra|nra]).
  pose proof (Rsqr_pos_lt (x i) Hx) as HS. unfold Rsqr in HS. apply Rplus_lt_le_0_compat; assumption.
Qed.

(** * numbers *)
Lemma ofZ_R z : ofZ (s:=RS) z = IZR z.
Proof. reflexivity. Qed.
Lemma lit_R a b : lit (F:=RS) a b = IZR a / IZR b.
Proof. reflexivity. Qed.
Lemma un_step_R N tf : un_step (F:=RS) N tf = tf / IZR N.
Proof. reflexivity. Qed.

(** * MakeProblem *)
Section Un.
Context (debug : bool) (ldlt : mat RS -> bool) (dmax : R) (scos ssin : R -> R).
(** Eigen's LDLT accepts diagonal matrices with entries that are not negative *)
Definition ldlt_diag : Prop := forall A : mat RS, diagonal 3 A -> (forall i, (i < 3)%nat -> 0 <= A i i) -> ldlt A = true.
Definition un_ok (s : UNP RS) : Prop := (1 <= un_N s)%Z /\ length (A:=R) (un_x0 s) = 3%nat /\ diagonal 3 (un_Q s) /\ diagonal 2 (un_R s) /\ diagonal 3 (un_Qf s) /\
  (un_three s = false -> 0 <= un_v s < dmax /\ 0 <= un_w s < dmax).
Context (LD : ldlt_diag) (DM : 3 < dmax).
(** the data of the scenario, written out *)
Definition sc_tf (three : bool) : R := if three then 5 else 3.
Definition sc_wx (three : bool) : R := if three then 1 else 1 / 100.
Definition sc_wu (three : bool) : R := if three then 1 / 2 else 1 / 100.
Definition sc_wf (three : bool) : R := if three then 10 else 100.
Definition sc_xf (s : UNP RS) : nat -> R := if un_three s then (fun i => nth i [3; 3; 0] 0) else (fun i => nth (A:=R) i (un_xf s) 0).
Definition sc_x0 (s : UNP RS) : list R := if un_three s then [0; 0; 0] else un_x0 s.
Definition sc_lo (s : UNP RS) : nat -> R := if un_three s then (fun i => nth i [0; -3] 0) else (fun i => nth i [- un_v s; - un_w s] 0).
Definition sc_hi (s : UNP RS) : nat -> R := if un_three s then (fun i => nth i [3; 3] 0) else (fun i => nth i [un_v s; un_w s] 0).
Definition sc_u0 (s : UNP RS) : nat -> R := if un_three s then (fun i => nth i [1 / 100; 1 / 100] 0) else (fun i => nth (A:=R) i (un_u0 s) 0).

Lemma step_pos N tf : (1 <= N)%Z -> 0 < tf -> 0 < tf / IZR N.
Proof. intros H Ht. apply Rmult_lt_0_compat; auto. apply Rinv_0_lt_compat. apply (IZR_lt 0). lia. Qed.
Lemma prep_Q s : un_ok s -> let u := un_prep s in let h := sc_tf (un_three s) / IZR (un_N s) in
  un_Q u = set_diag (F:=RS) (sc_wx (un_three s) * h) (un_Q s) /\ un_R u = set_diag (F:=RS) (sc_wu (un_three s) * h) (un_R s) /\ un_Qf u = set_diag (F:=RS) (sc_wf (un_three s)) (un_Qf s) /\
  un_x0 u = sc_x0 s /\ un_uref u = un_uref s /\ un_N u = un_N s /\ un_three u = un_three s /\ un_tf u = sc_tf (un_three s) /\ un_st u = un_st s.
Proof.
  intros _. unfold un_prep, sc_tf, sc_wx, sc_wu, sc_wf, sc_x0. destruct (un_three s) eqn:E; cbn.
  - repeat (split; [try reflexivity|]); auto.
  - repeat (split; [try reflexivity|]); auto.
Qed.

Lemma two_bounds dm l0 l1 u0 u1 : 0 <= dm -> l0 <= u0 -> l1 <= u1 -> Rabs l0 < dm -> Rabs l1 < dm -> Rabs u0 < dm -> Rabs u1 < dm ->
  exists b, cb_make (F:=RS) dm debug [l0; l1] [u0; u1] = Ok b /\ con_dim (cb_con (F:=RS) 3 b) = 4%nat /\
  forall x u buf, in_cone NegativeOrthant (con_dim (cb_con (F:=RS) 3 b)) (con_eval (cb_con 3 b) x u buf) <-> (l0 <= u 0%nat <= u0 /\ l1 <= u 1%nat <= u1).
Proof.
  intros HD H0 H1 A B C D.
  assert (EM : cb_make (F:=RS) dm debug [l0; l1] [u0; u1] = Ok (mkCB (F:=RS) 2 [l0; l1] [u0; u1] (finite_indices (F:=RS) dm [l0; l1]) (finite_indices (F:=RS) dm [u0; u1]))).
  { apply (cb_make_ok debug dm [l0; l1] [u0; u1]); [reflexivity|cbn; lia|]. intros [|[|i]] Hi; cbn in *; [auto|auto|lia]. }
  eexists. split; [exact EM|].
  assert (FL : Forall (fun v => Rabs v < dm) [l0; l1]) by (repeat constructor; auto). assert (FU : Forall (fun v => Rabs v < dm) [u0; u1]) by (repeat constructor; auto).
  destruct (bound_box debug dm [l0; l1] [u0; u1] _ 3 HD eq_refl EM FL FU) as [E1 E2].
  split; [exact E1|]. intros x u buf. etransitivity; [apply E2|]. cbn [length]. split.
  - intros H. split; [apply (H 0%nat); lia|apply (H 1%nat); lia].
  - intros [G0 G1] [|[|i]] Hi; cbn; [auto|auto|lia].
Qed.
Theorem un_shape (add : bool) (s : UNP RS) h : un_ok s -> let u := un_prep s in
  exists h' p s0 b q qT, pr_new (un_N s) h = Ok s0 /\
    (let os := shape (un_N s) (if un_three s then Some (cc_con (un_obs u)) else None) (qc_ucost q) (qc_ucost qT) (un_model scos ssin u) (if add then Some (cb_con 3 b, goal_con 3 (lvec (un_xf u))) else None) (un_x0 u) true in
     (forall d, pr_run d os s0 = Ok (h', p)) /\ contents (un_N s) (length h) os h' p) /\
    un_make debug ldlt dmax scos ssin add s h = Ok ((h', p), u) /\ pr_is_fully_defined h' p = Ok true /\
    qc_lqr debug (ldlt (un_Q u)) 3 2 (un_Q u) (un_R u) (lvec (un_xf u)) (lvec (un_uref u)) false = Ok q /\
    qc_lqr debug (ldlt (un_Qf u)) 3 2 (un_Qf u) (fun _ _ => 0 : RS) (lvec (un_xf u)) (lvec (un_uref u)) true = Ok qT /\
    con_dim (cb_con (F:=RS) 3 b) = 4%nat /\
    (forall x v buf, in_cone NegativeOrthant (con_dim (cb_con (F:=RS) 3 b)) (con_eval (cb_con 3 b) x v buf) <-> (forall i, (i < 2)%nat -> sc_lo s i <= v i <= sc_hi s i)) /\
    cb_make (F:=RS) dmax debug (un_lb u) (un_ub u) = Ok b.
Proof.
  intros OK u. pose proof OK as (HN & LX & DQ & DR & DF & HB). destruct (prep_Q s OK) as (EQ & ER & EF & EX & EU & _). fold u in EQ, ER, EF, EX, EU.
  set (st := sc_tf (un_three s) / IZR (un_N s)) in *.
  assert (HS : 0 < st) by (apply step_pos; [exact HN|unfold sc_tf; destruct (un_three s); lra]).
  assert (PX : 0 < sc_wx (un_three s) * st) by (apply Rmult_lt_0_compat; auto; unfold sc_wx; destruct (un_three s); lra).
  assert (PU : 0 < sc_wu (un_three s) * st) by (apply Rmult_lt_0_compat; auto; unfold sc_wu; destruct (un_three s); lra).
  assert (PFF : 0 < sc_wf (un_three s)) by (unfold sc_wf; destruct (un_three s); lra).
  assert (LDD : forall c A, 0 < c -> diagonal 3 A -> ldlt (set_diag (F:=RS) c A) = true).
  { intros c A Hc HA. apply LD; [apply set_diag_diag; auto|]. intros i Hi. unfold set_diag. rewrite Nat.eqb_refl. lra. }
  assert (SR : sym 2 (un_R u)) by (rewrite ER; apply set_diag_sym; auto).
  destruct (lqr_ok debug ldlt 3 2 (un_Q u) (un_R u) (lvec (un_xf u)) (lvec (un_uref u)) false) as (q & Eq & Ec).
  { rewrite EQ. apply set_diag_sym; auto. } { exact SR. } { right. rewrite ER. apply set_diag_pos; auto. } { rewrite EQ. apply LDD; auto. }
  destruct (lqr_ok debug ldlt 3 2 (un_Qf u) (mscale zero (un_R u)) (lvec (un_xf u)) (lvec (un_uref u)) true) as (qT & EqT & EcT).
  { rewrite EF. apply set_diag_sym; auto. } { intros i j _ _. rewrite scale0. reflexivity. } { left. reflexivity. } { rewrite EF. apply LDD; auto. }
  assert (BD : exists b, cb_make (F:=RS) dmax debug (un_lb u) (un_ub u) = Ok b /\ con_dim (cb_con (F:=RS) 3 b) = 4%nat /\
    forall x v buf, in_cone NegativeOrthant (con_dim (cb_con (F:=RS) 3 b)) (con_eval (cb_con 3 b) x v buf) <-> (forall i, (i < 2)%nat -> sc_lo s i <= v i <= sc_hi s i)).
  { assert (FA : forall l0 l1 u0 u1 (v : nat -> R), (l0 <= v 0%nat <= u0 /\ l1 <= v 1%nat <= u1) <-> (forall i, (i < 2)%nat -> nth i [l0; l1] 0 <= v i <= nth i [u0; u1] 0)).
    { intros. split; [intros [A B] [|[|i]] Hi; cbn; [auto|auto|lia]|intros H; split; [apply (H 0%nat); lia|apply (H 1%nat); lia]]. }
    unfold sc_lo, sc_hi. unfold u, un_prep. destruct (un_three s) eqn:E3.
    - destruct (two_bounds dmax 0 (-3) 3 3) as (b & B1 & B2 & B3); try lra; try (unfold Rabs; destruct (Rcase_abs _); lra).
      exists b. split; [exact B1|]. split; [exact B2|]. intros x v buf. rewrite B3. apply FA.
    - destruct (HB eq_refl) as [V W].
      destruct (two_bounds dmax (- un_v s) (- un_w s) (un_v s) (un_w s)) as (b & B1 & B2 & B3); try lra; try (unfold Rabs; destruct (Rcase_abs _); lra).
      exists b. split; [exact B1|]. split; [exact B2|]. intros x v buf. rewrite B3. apply FA. }
  destruct BD as (b & B1 & B2 & B3).
  destruct (new_ok (C:=UCost RS) (un_N s) h ltac:(lia)) as [p0 E0].
  set (bg := if add then Some (cb_con 3 b, goal_con 3 (lvec (un_xf u))) else None).
  set (obs := if un_three s then Some (cc_con (un_obs u)) else None).
  destruct (sh_run (un_N s) HN obs (qc_ucost q) (qc_ucost qT) (un_model scos ssin u) bg (un_x0 u) true) with (h0 := h) (s0 := (h ++ [[]], p0)) as (h' & p & RUN & FD & CT); auto.
  { unfold un_model. cbn. lia. }
  { unfold un_model. cbn [md_n]. rewrite EX. unfold sc_x0. destruct (un_three s); [reflexivity|]. change (@length (T RS)) with (@length R). rewrite LX. reflexivity. }
  { unfold obs, u, un_prep. destruct (un_three s); [cbn; lia|exact I]. }
  { unfold bg. destruct add; [|exact I]. rewrite B2. cbn. lia. }
  exists h', p, (h ++ [[]], p0), b, q, qT. split; [exact E0|]. split; [split; [exact RUN|exact CT]|].
  split. { rewrite (un_make_run debug ldlt dmax scos ssin add s h (h ++ [[]], p0) (qc_ucost q) (qc_ucost qT) b E0 Ec EcT (fun _ => B1)). fold u. fold bg. fold obs. rewrite RUN. reflexivity. }
  split; [exact FD|]. split; [exact Eq|]. split; [rewrite scale0 in EqT; exact EqT|]. auto.
Qed.
End Un.
