(** C86: the scalar-function interface: what reaches the caller through the vector-function interface. *)
From Coq Require Import Reals Lra Lia ZArith List Arith Bool String.
From Verif Require Import Base Lin RLin ConModel ExampleModel UtilModel UtilProofs ExProbProofs5 FuncModel.
Import ListNotations.
Local Open Scope nat_scope.

(** the gradient function writes all [k] entries *)
Definition fills {F : Scalar} (k : nat) (f : SFun F) : Prop := forall x u old old' j, j < k -> sf_grad f x u old j = sf_grad f x u old' j.
(** after the call the row holds the gradient and nothing else in memory has changed *)
Definition row_done {F : Scalar} (v : View) (g : vec F) (m m' : Mem F) : Prop :=
  (forall j, j < v_cols v -> v_read v m' 0 j = g j) /\ (forall c, (forall j, j < v_cols v -> c <> v_at v 0 j) -> m_cell m' c = m_cell m c).

(** Evaluate fills the one entry of the output and touches nothing else. *)
Theorem C86_evaluate (F : Scalar) debug (f : SFun F) x u off m : exists m', pf_eval debug f x u off 1 m = Ok m' /\
  m_cell m' off = sf_eval f x u /\ forall c, c <> off -> m_cell m' c = m_cell m c.
Proof.
  eexists. split; [unfold pf_eval, altro_assert; cbn [Nat.eqb]; destruct debug; reflexivity|]. cbn [m_cell]. rewrite Nat.eqb_refl. split; [reflexivity|]. intros c Hc. apply Nat.eqb_neq in Hc. rewrite Hc. reflexivity.
Qed.
(** Jacobian on one row: what is in every entry afterwards, whatever matrix the row belongs to. *)
Theorem C86_row (F : Scalar) debug (f : SFun F) x u v m : v_rows v = 1 -> v_off v + v_cols v <= m_cap m -> fills (v_cols v) f ->
  exists m', pf_jac debug f x u v m = Ok m' /\ m_cap m' = m_cap m /\
  forall j, v_read v m' 0 j = if Nat.ltb (j * v_ld v) (v_cols v) then sf_grad f x u vzero (j * v_ld v) else v_read v m 0 j.
Proof.
  intros R C W. eexists. split; [unfold pf_jac, altro_assert; rewrite R; cbn [Nat.eqb negb]; rewrite andb_false_r; cbn [bind]; replace (Nat.ltb (m_cap m) (v_off v + v_cols v)) with false by (symmetry; apply Nat.ltb_ge; lia); reflexivity|].
  split; [reflexivity|]. intros j. unfold v_read, v_at. cbn [m_cell]. rewrite Nat.add_0_r. replace (Nat.leb (v_off v) (v_off v + j * v_ld v)) with true by (symmetry; apply Nat.leb_le; lia). cbn [andb].
  replace (Nat.ltb (v_off v + j * v_ld v) (v_off v + v_cols v)) with (Nat.ltb (j * v_ld v) (v_cols v)) by (destruct (Nat.ltb (j * v_ld v) (v_cols v)) eqn:E; symmetry; [apply Nat.ltb_lt in E; apply Nat.ltb_lt; lia|apply Nat.ltb_ge in E; apply Nat.ltb_ge; lia]).
  destruct (Nat.ltb (j * v_ld v) (v_cols v)) eqn:E; [|reflexivity]. apply Nat.ltb_lt in E. replace (v_off v + j * v_ld v - v_off v) with (j * v_ld v) by lia. apply W. exact E.
Qed.
(** On a matrix with storage of its own (or with one column) the row holds the gradient and nothing else changes ... *)
Theorem C86_jacobian (F : Scalar) debug (f : SFun F) x u v m : v_rows v = 1 -> v_off v + v_cols v <= m_cap m -> fills (v_cols v) f -> v_ld v = 1 \/ v_cols v <= 1 ->
  exists m', pf_jac debug f x u v m = Ok m' /\ row_done v (sf_grad f x u vzero) m m'.
Proof.
  intros R C W L. destruct (C86_row F debug f x u v m R C W) as (m' & E & _ & H). exists m'. split; [exact E|]. split.
  - intros j Hj. rewrite H. assert (E2 : j * v_ld v = j) by (destruct L as [-> | L]; [lia|assert (j = 0) as -> by lia; reflexivity]). rewrite E2. apply Nat.ltb_lt in Hj. rewrite Hj. reflexivity.
  - intros c Hc. unfold pf_jac, altro_assert in E. rewrite R in E. cbn [Nat.eqb negb] in E. rewrite andb_false_r in E. cbn [bind] in E. replace (Nat.ltb (m_cap m) (v_off v + v_cols v)) with false in E by (symmetry; apply Nat.ltb_ge; lia). injection E as <-. cbn [m_cell].
    destruct (Nat.leb (v_off v) c) eqn:E1; [|reflexivity]. destruct (Nat.ltb c (v_off v + v_cols v)) eqn:E2; [|reflexivity]. exfalso. apply Nat.leb_le in E1. apply Nat.ltb_lt in E2.
    apply (Hc (c - v_off v)); [lia|]. unfold v_at. assert ((c - v_off v) * v_ld v = c - v_off v) by (destruct L as [-> | L]; [lia|assert (c - v_off v = 0) as -> by lia; reflexivity]). lia.
Qed.
(** ... and only there: for any other row some gradient does not arrive. *)
Theorem C86_jacobian_iff v cap : v_rows v = 1 -> 1 <= v_ld v -> v_at v 0 (v_cols v) <= cap ->
  ((forall debug (f : SFun RS) x u m, m_cap m = cap -> fills (v_cols v) f -> exists m', pf_jac debug f x u v m = Ok m' /\ row_done v (sf_grad f x u vzero) m m') <-> (v_ld v = 1 \/ v_cols v <= 1)).
Proof.
  intros R L1 C. assert (CC : v_off v + v_cols v <= cap) by (unfold v_at in C; nia). split.
  - intros H. destruct (Nat.eq_dec (v_ld v) 1) as [E|E]; [left; exact E|]. right. apply Nat.nlt_ge. intros L.
    set (f := mkSFun (F:=RS) (fun _ _ => 0%R) (fun _ _ _ j => IZR (Z.of_nat (S j))) (fun _ _ h => h)). assert (W : fills (v_cols v) f) by (intros x u o o' j Hj; reflexivity).
    destruct (H false f vzero vzero (mkMem (F:=RS) cap (fun _ => 0%R)) eq_refl W) as (m' & E1 & D & _). destruct (C86_row RS false f vzero vzero v (mkMem (F:=RS) cap (fun _ => 0%R)) R CC W) as (m2 & E2 & _ & Q). rewrite E1 in E2. injection E2 as <-.
    specialize (Q 1). rewrite (D 1 L) in Q. rewrite Nat.mul_1_l in Q. cbn [f sf_grad] in Q. destruct (Nat.ltb (v_ld v) (v_cols v)).
    + apply eq_IZR in Q. lia.
    + change (v_read v (mkMem (F:=RS) cap (fun _ => 0%R)) 0 1) with 0%R in Q. apply eq_IZR in Q. lia.
  - intros H debug f x u m <- W. apply C86_jacobian; assumption.
Qed.
(** FINDING: the first row of a matrix with two rows (jac.topRows(1), which the interface accepts): in both builds the second entry of the row is
    never written, and the second derivative lands in the second row, outside the reference. *)
Theorem C86_jacobian_refuted : forall (F : Scalar) debug (f : SFun F) x u m, m_cap m = 4 -> fills 2 f ->
  let v := mkView 0 1 2 2 in exists m', pf_jac debug f x u v m = Ok m' /\ v_read v m' 0 1 = v_read v m 0 1 /\ m_cell m' 1 = sf_grad f x u vzero 1 /\ (forall j, j < v_cols v -> 1 <> v_at v 0 j).
Proof.
  intros F debug f x u m C W v. eexists. split; [unfold pf_jac, altro_assert; cbn [v v_rows Nat.eqb negb]; rewrite andb_false_r; cbn [bind v_off v_cols Nat.add]; rewrite C; reflexivity|]. split; [reflexivity|]. split; [cbn; apply W; lia|].
  intros [|[|j]] Hj; cbn in *; lia.
Qed.
(** The debug build refuses exactly the wrong sizes ... *)
Theorem C86_checked (F : Scalar) (f : SFun F) x u off len v m blen b h :
  (pf_eval true f x u off len m = Abort <-> len <> 1) /\ (pf_jac true f x u v m = Abort <-> v_rows v <> 1) /\ (pf_hess true f x u blen b h = Abort <-> ~ (blen = 1 /\ approx_one (b 0) = true)).
Proof.
  unfold pf_eval, pf_jac, pf_hess, altro_assert. cbn [andb]. split; [|split].
  - destruct (Nat.eqb len 1) eqn:E; cbn [negb bind]; [apply Nat.eqb_eq in E; subst len; cbn; split; [discriminate|congruence]|apply Nat.eqb_neq in E; tauto].
  - destruct (Nat.eqb (v_rows v) 1) eqn:E; cbn [negb bind]; [apply Nat.eqb_eq in E; split; [destruct (Nat.ltb _ _); discriminate|congruence]|apply Nat.eqb_neq in E; tauto].
  - destruct (Nat.eqb blen 1) eqn:E; cbn [andb]; [apply Nat.eqb_eq in E|apply Nat.eqb_neq in E]; [destruct (approx_one (b 0)); cbn [negb bind]; (split; [discriminate|intuition congruence]) || (split; [intros _; intuition congruence|reflexivity])|cbn [negb bind]; split; [intros _; intuition congruence|reflexivity]].
Qed.
(** ... FINDING: the release build does not: an output without entries or a Jacobian without storage is written out of range, a Jacobian with two rows
    gets the gradient down its first column. *)
Theorem C86_sizes_refuted : forall (F : Scalar) (f : SFun F) x u m,
  pf_eval false f x u 0 0 m = UB /\ (m_cap m = 0 -> pf_jac false f x u (mkView 0 0 2 0) m = UB) /\
  (m_cap m = 4 -> fills 2 f -> exists m', pf_jac false f x u (mkView 0 2 2 2) m = Ok m' /\ v_read (mkView 0 2 2 2) m' 1 0 = sf_grad f x u vzero 1 /\ v_read (mkView 0 2 2 2) m' 0 1 = v_read (mkView 0 2 2 2) m 0 1).
Proof.
  intros F f x u m. split; [reflexivity|]. split; [intros C; unfold pf_jac; cbn; rewrite C; reflexivity|]. intros C W. eexists. split; [unfold pf_jac; cbn [altro_assert andb bind v_off v_cols Nat.add]; rewrite C; reflexivity|]. split; [cbn; apply W; lia|reflexivity].
Qed.
(** Hessian: the Hessian of the user, for b = [1] the derivative of the Jacobian transpose times b ... *)
Theorem C86_hessian debug (f : SFun RS) x u (b : vec RS) h : b 0 = 1%R -> pf_hess debug f x u 1 b h = Ok (sf_hess f x u h).
Proof.
  intros E. unfold pf_hess, altro_assert. assert (A : approx_one (F:=RS) (b 0) = true).
  { unfold approx_one. rewrite lit_R. apply Rleb_true. rs. rewrite E. unfold smin. rs. replace (1 - 1)%R with 0%R by lra. rewrite Rabs_R0, Rabs_R1. destruct (Rltb 1 1); lra. }
  rewrite A. destruct debug; reflexivity.
Qed.
(** ... FINDING: for another b the release build still returns it unscaled: gradient x, b = [2]; the derivative of 2 x is not the 1 returned. *)
Theorem C86_hessian_refuted : exists (f : SFun RS) (b : vec RS) h, (forall x u old, sf_grad f x u old 0 = x 0) /\ (forall x u old, pf_hess false f x u 1 b old = Ok h) /\
  ~ (forall x u old t, (b 0%nat * sf_grad f (fun i => x i + t) u old 0%nat - b 0%nat * sf_grad f x u old 0%nat = h 0%nat 0%nat * t)%R).
Proof.
  exists (mkSFun (F:=RS) (fun x _ => x 0%nat * x 0%nat / 2)%R (fun x _ _ _ => x 0%nat) (fun _ _ _ _ _ => 1%R)), (fun _ => 2%R), (fun _ _ => 1%R). split; [reflexivity|]. split; [reflexivity|]. intros H. specialize (H vzero vzero vzero 1%R). cbn in H. lra.
Qed.
(** CheckJacobian on a cost function decides the same as CheckGradient; CheckHessian with b = [1] is the check of C56. *)
Theorem C86_check debug n m (c : UCost RS) junk x u eps : n + m <> 0 -> check_jacobian_scalar debug n m (sf_cost n m c) junk x u eps = check_gradient n m c x u eps.
Proof.
  intros Hn. unfold check_jacobian_scalar, check_jacobian, check_gradient. cbn [con_dim sf_con]. unfold fd_grad.
  match goal with |- context [fd_jac (n + m) 1 ?f ?z ?e false] => destruct (fd_jac_spec (F:=RS) (n + m) 1 f z e false Hn) as (J1 & E1 & V1); rewrite E1 end.
  match goal with |- context [fd_jac (n + m) 1 ?f ?z ?e false] => destruct (fd_jac_spec (F:=RS) (n + m) 1 f z e false Hn) as (J2 & E2 & V2); rewrite E2 end. cbn [bind].
  f_equal. unfold mat_compare. f_equal. f_equal. unfold fro2. cbn [sumn]. rs. rewrite Rplus_0_l. apply sumn_ext. intros j Hj. rs. rewrite Rplus_0_l.
  assert (EJ : J1 0 j = J2 0 j). { rewrite (V1 0 j), (V2 0 j) by lia. rewrite !vstore_lt by lia. unfold con_eval, sf_con, pf_eval, altro_assert. cbn [Nat.eqb negb]. rewrite !andb_false_r. cbn [bind m_cell Nat.eqb sf_eval sf_cost]. reflexivity. }
  rewrite EJ. rewrite mstore_lt by lia. assert (EG : con_jac (sf_con (F:=RS) debug (n + m) (sf_cost n m c)) x u mzero 0 j = joint_grad n m c x u vzero j).
  { cbn [con_jac sf_con]. unfold pf_jac, altro_assert. cbn [own_row v_rows v_off v_cols Nat.eqb negb m_cap Nat.add]. rewrite andb_false_r. cbn [bind]. rewrite Nat.ltb_irrefl. unfold v_read, v_at. cbn [m_cell v_off v_ld own_row Nat.add]. rewrite Nat.mul_1_r. apply Nat.ltb_lt in Hj. rewrite Hj. cbn [Nat.leb andb]. rewrite Nat.sub_0_r. reflexivity. }
  rewrite EG. reflexivity.
Qed.
Theorem C86_check_hessian debug n m (c : UCost RS) x u (b : vec RS) eps : b 0 = 1%R -> check_hessian_b debug n m c x u 1 b eps = check_hessian n m c x u eps.
Proof.
  intros E. unfold check_hessian_b, check_hessian. rewrite (C86_hessian debug (sf_cost n m c) x u b mzero E). cbn [bind sf_hess sf_cost]. rewrite E. reflexivity.
Qed.

(** cost x^2/2 + x u on a row of its own, and on the first row of a matrix with two rows *)
Definition exf : SFun QS := mkSFun (F:=QS) (fun x u => add (x 0) (u 0)) (fun x u _ j => if Nat.eqb j 0 then add (x 0) (u 0) else x 0) (fun _ _ h => h).
Example C86_example : fills 2 exf /\ forall debug, (do m <- pf_jac debug exf (fun _ => one) (fun _ => two) (mkView 0 1 2 1) (mkMem 2 (fun _ => zero)) ; Ok (v_read (mkView 0 1 2 1) m 0 0, v_read (mkView 0 1 2 1) m 0 1)) = Ok (add one two, one) /\
  (do m <- pf_jac debug exf (fun _ => one) (fun _ => two) (mkView 0 1 2 2) (mkMem 4 (fun _ => zero)) ; Ok (map (m_cell m) [0; 1; 2; 3])) = Ok [add one two; one; zero; zero].
Proof. split; [intros x u o o' j _; reflexivity|]. intros []; split; vm_compute; reflexivity. Qed.
Print Assumptions C86_evaluate. Print Assumptions C86_row. Print Assumptions C86_jacobian. Print Assumptions C86_jacobian_iff. Print Assumptions C86_jacobian_refuted.
Print Assumptions C86_checked. Print Assumptions C86_sizes_refuted. Print Assumptions C86_hessian. Print Assumptions C86_hessian_refuted.
Print Assumptions C86_check. Print Assumptions C86_check_hessian. Print Assumptions C86_example.
