(** Properties C52, C53 and C54: the example constraints and the quadratic cost. *)
From Coq Require Import Reals Lra Lia List Bool ZArith QArith SpecFloat.
From Coquelicot Require Import Coquelicot.
From Verif Require Import Base Lin RLin RDer ConModel ConSpec ConProofs IlqrModel DynModel DynSpec DynProofs ExampleModel ExampleSpec ExampleProofs2 ExampleProofs3.
From Verif Require LqSpec LltLow LltProofs.
Import List ListNotations.
Local Open Scope R_scope.
Notation qform := ExampleSpec.qform.

(** * C52 ControlBound *)
(** Every object that can be built and modified through the public interface, in any arithmetic: the output dimension is the
    number of bounds the code regards as finite, Evaluate never throws, and its rows are exactly lower - u and u - upper of
    those bounds. *)
Theorem C52_rows : forall (F : Scalar) (dmax inf : F), ltb (sabs inf) dmax = false -> ltb (sabs (opp inf)) dmax = false ->
  forall debug (s : CB F), cb_reach dmax inf debug s ->
  let fin := fun v => ltb (sabs v) dmax in
  length (cb_lo s) = cb_m s /\ length (cb_hi s) = cb_m s /\
  cb_dim s = (length (filter fin (cb_lo s)) + length (filter fin (cb_hi s)))%nat /\
  forall u c, exists c', cb_eval s u c = Ok c' /\
    (forall k, (k < cb_dim s)%nat -> exists j v, (counts dmax (cb_lo s) j v /\ c' k = sub v (u j)) \/ (counts dmax (cb_hi s) j v /\ c' k = sub (u j) v)) /\
    (forall j v, counts dmax (cb_lo s) j v -> exists k, (k < cb_dim s)%nat /\ c' k = sub v (u j)) /\
    (forall j v, counts dmax (cb_hi s) j v -> exists k, (k < cb_dim s)%nat /\ c' k = sub (u j) v).
Proof.
  intros F dmax inf Hi Hn debug s Hs fin. pose proof (cb_reach_inv dmax inf debug s Hi Hn Hs) as HI. pose proof HI as [A B C D].
  split; [exact A|]. split; [exact B|]. split; [unfold cb_dim; rewrite C, D; unfold finite_indices; rewrite !finite_length; reflexivity|].
  intros u c. destruct (cb_eval_spec dmax s u c HI) as (c' & E & V). exists c'. split; [exact E|].
  assert (HN : forall (b : list F) j v, nth_error b j = Some v -> nth j b zero = v) by (intros; apply nth_error_nth; auto).
  split; [|split].
  - intros k Hk. rewrite (V k Hk). unfold cb_val, cb_dim in *. destruct (Nat.ltb k (length (cb_il s))) eqn:L.
    + apply Nat.ltb_lt in L. pose proof (nth_In (cb_il s) 0%nat L) as Hin. set (j := nth k (cb_il s) 0%nat) in *. rewrite C in Hin. apply finite_in in Hin. destruct Hin as (v & Hv).
      exists j, v. left. split; [exact Hv|]. rewrite (HN _ _ _ (proj1 Hv)). reflexivity.
    + apply Nat.ltb_ge in L. assert (L' : (k - length (cb_il s) < length (cb_iu s))%nat) by lia. pose proof (nth_In (cb_iu s) 0%nat L') as Hin.
      set (j := nth (k - length (cb_il s)) (cb_iu s) 0%nat) in *. rewrite D in Hin. apply finite_in in Hin. destruct Hin as (v & Hv).
      exists j, v. right. split; [exact Hv|]. rewrite (HN _ _ _ (proj1 Hv)). reflexivity.
  - intros j v Hv. assert (Hin : In j (cb_il s)) by (rewrite C; apply finite_in; exists v; exact Hv). apply (In_nth _ _ 0%nat) in Hin. destruct Hin as (k & Hk & Ek).
    exists k. split; [unfold cb_dim; lia|]. rewrite (V k) by (unfold cb_dim; lia). unfold cb_val. rewrite (proj2 (Nat.ltb_lt k _) Hk), Ek. rewrite (HN _ _ _ (proj1 Hv)). reflexivity.
  - intros j v Hv. assert (Hin : In j (cb_iu s)) by (rewrite D; apply finite_in; exists v; exact Hv). apply (In_nth _ _ 0%nat) in Hin. destruct Hin as (k & Hk & Ek).
    exists (length (cb_il s) + k)%nat. split; [unfold cb_dim; lia|]. rewrite V by (unfold cb_dim; lia). unfold cb_val.
    replace (Nat.ltb (length (cb_il s) + k) (length (cb_il s))) with false by (symmetry; apply Nat.ltb_ge; lia).
    replace (length (cb_il s) + k - length (cb_il s))%nat with k by lia. rewrite Ek. rewrite (HN _ _ _ (proj1 Hv)). reflexivity.
Qed.
(** a control without finite bounds has no influence *)
Theorem C52_unbounded : forall (F : Scalar) (dmax inf : F), ltb (sabs inf) dmax = false -> ltb (sabs (opp inf)) dmax = false ->
  forall debug (s : CB F) j, cb_reach dmax inf debug s -> (forall v, ~ counts dmax (cb_lo s) j v) -> (forall v, ~ counts dmax (cb_hi s) j v) ->
  forall n x u u' c, (forall i, i <> j -> u' i = u i) -> forall k, (k < cb_dim s)%nat ->
  con_eval (cb_con n s) x u' c k = con_eval (cb_con n s) x u c k.
Proof.
  intros F dmax inf Hi Hn debug s j Hs Hlo Hhi n x u u' c Hu k Hk. pose proof (cb_reach_inv dmax inf debug s Hi Hn Hs) as HI. cbn [cb_con con_eval].
  destruct (cb_eval_spec dmax s u c HI) as (c1 & -> & V1). destruct (cb_eval_spec dmax s u' c HI) as (c2 & -> & V2). rewrite V1, V2 by auto.
  destruct HI as [A B C D]. unfold cb_val, cb_dim in *. destruct (Nat.ltb k (length (cb_il s))) eqn:L.
  - apply Nat.ltb_lt in L. pose proof (nth_In (cb_il s) 0%nat L) as Hin. set (i := nth k (cb_il s) 0%nat) in *. rewrite C in Hin. apply finite_in in Hin. destruct Hin as (v & Hv).
    rewrite Hu; [reflexivity|]. intros ->. exact (Hlo v Hv).
  - apply Nat.ltb_ge in L. assert (L' : (k - length (cb_il s) < length (cb_iu s))%nat) by lia. pose proof (nth_In (cb_iu s) 0%nat L') as Hin.
    set (i := nth (k - length (cb_il s)) (cb_iu s) 0%nat) in *. rewrite D in Hin. apply finite_in in Hin. destruct Hin as (v & Hv).
    cbv zeta. rewrite Hu; [reflexivity|]. intros ->. exact (Hhi v Hv).
Qed.
(** exact arithmetic: the value is in the cone of an inequality constraint if and only if every control is within its finite
    bounds (numbers of magnitude [dmax] or more play the role of infinity) *)
Theorem C52_feasible : forall (dmax inf : R), dmax <= inf -> forall debug (s : CB RS), cb_reach (F:=RS) dmax inf debug s ->
  forall n x u buf, in_cone NegativeOrthant (cb_dim s) (con_eval (cb_con n s) x u buf) <-> within dmax (cb_lo s) (cb_hi s) u.
Proof.
  intros dmax inf Hd debug s Hs n x u buf.
  assert (HI : cb_inv (F:=RS) dmax s).
  { apply (cb_reach_inv (F:=RS) dmax inf debug s); auto; apply Rltb_false; cbn [sabs opp RS]; rewrite ?Rabs_Ropp; pose proof (Rle_abs inf); lra. }
  rewrite <- (cb_feasible dmax s u HI). cbn [in_cone cb_con con_eval]. destruct (cb_eval_spec (F:=RS) dmax s u buf HI) as (c1 & -> & V1).
  split; intros H k Hk; specialize (H k Hk); rewrite V1 in * by auto; auto.
Qed.
(** every entry of the Jacobian is written and is the derivative of the value *)
Theorem C52_jacobian : forall (dmax inf : R), dmax <= inf -> forall debug (s : CB RS), cb_reach (F:=RS) dmax inf debug s -> forall n,
  exists g J, con_true n (cb_m s) (cb_con n s) g J (fun _ _ => true).
Proof.
  intros dmax inf Hd debug s Hs n. eexists _, _. eapply (cb_con_true dmax).
  apply (cb_reach_inv (F:=RS) dmax inf debug s); auto; apply Rltb_false; cbn [sabs opp RS]; rewrite ?Rabs_Ropp; pose proof (Rle_abs inf); lra.
Qed.
(** Finding: the largest finite double is not regarded as a finite bound: with lower bound DBL_MAX the control 0 violates a
    finite bound, but the constraint has no rows. *)
Definition fmax : FS := S754_finite false 9007199254740991 971.
Definition finf : FS := S754_infinity false.
Theorem C52_dblmax_refuted : exists lb ub (s : CB FS) (u : FS), match lb with S754_finite _ _ _ => True | _ => False end /\ cb_make (F:=FS) fmax true [lb] [ub] = Ok s /\
  leb (s:=FS) lb u = false /\ ltb (s:=FS) u lb = true /\ cb_dim s = 0%nat.
Proof. exists fmax, finf. exists (mkCB (F:=FS) 1 [fmax] [finf] [] []), (zero (s:=FS)). split; [exact I|]. split; [reflexivity|]. split; [reflexivity|]. split; reflexivity. Qed.
(** three controls, with lower bounds on the first two and an upper bound on the last; then the upper bounds are replaced *)
Definition ex_cb : res (CB QS) := do s <- cb_make (F:=QS) (1000%Q : QS) true [(-1)%Q; (-2)%Q; (-1000)%Q] [1000%Q; 1000%Q; 5%Q] ; cb_set_upper (F:=QS) (1000%Q : QS) true [3%Q; 1000%Q; 7%Q] s.
Example C52_example : exists s, ex_cb = Ok s /\ cb_reach (F:=QS) (1000%Q : QS) (1000%Q : QS) true s /\ cb_dim s = 4%nat /\ cb_il s = [0%nat; 1%nat] /\ cb_iu s = [0%nat; 2%nat] /\
  match cb_eval (F:=QS) s (fun _ => 4%Q) vzero with Ok c => map c [0;1;2;3]%nat | _ => [] end = [(-5)%Q; (-6)%Q; 1%Q; (-3)%Q].
Proof.
  exists (mkCB (F:=QS) 3 [(-1)%Q; (-2)%Q; (-1000)%Q] [3%Q; 1000%Q; 7%Q] [0%nat; 1%nat] [0%nat; 2%nat]). split; [reflexivity|]. split; [|repeat split].
  eapply (R_upper (F:=QS) _ _ true [3%Q; 1000%Q; 7%Q]); [eapply (R_make (F:=QS) _ _ true [(-1)%Q; (-2)%Q; (-1000)%Q] [1000%Q; 1000%Q; 5%Q]); [left; reflexivity|reflexivity]|left; reflexivity|reflexivity].
Qed.

(** * C53 goal and circle constraints *)
Theorem C53_goal : forall n m xf, (forall x u buf, in_cone ZeroCone n (con_eval (goal_con (F:=RS) n xf) x u buf) <-> forall i, (i < n)%nat -> x i = xf i) /\
  con_dim (goal_con (F:=RS) n xf) = n /\ exists g J, con_true n m (goal_con n xf) g J (fun _ _ => true).
Proof.
  intros n m xf. split; [|split; [reflexivity|eexists _, _; apply goal_con_true]].
  intros x u buf. cbn [goal_con con_eval in_cone]. split; intros H i Hi; specialize (H i Hi); rs; lra.
Qed.
(** the circle constraint is feasible exactly outside all circles, measured at the chosen position indices *)
Theorem C53_circle : forall (s : CC RS) x u buf, (forall o, In o (cc_obs s) -> 0 <= ci_r o) ->
  (in_cone NegativeOrthant (con_dim (cc_con s)) (con_eval (cc_con s) x u buf) <->
   forall o, In o (cc_obs s) -> ci_r o <= dist (x (cc_xi s)) (x (cc_yi s)) (ci_x o) (ci_y o)).
Proof.
  intros s x u buf Hr. cbn [in_cone cc_con con_dim con_eval]. split.
  - intros H o Ho. destruct (In_nth _ _ o0 Ho) as (k & Hk & Ek). specialize (H k Hk). rewrite cc_eval_val in H by auto. unfold cc_val in H. rewrite Ek in H. cbv zeta in H.
    apply cc_outside; auto.
  - intros H k Hk. rewrite cc_eval_val by auto. unfold cc_val. pose proof (nth_In (cc_obs s) o0 Hk) as Ho. apply cc_outside; auto.
Qed.
Theorem C53_setters : forall (F : Scalar) debug xi yi o (s s' : CC F),
  cc_obs (cc_add o s) = cc_obs s ++ [o] /\ cc_xi (cc_add o s) = cc_xi s /\ cc_yi (cc_add o s) = cc_yi s /\
  (cc_set_xy debug xi yi s = Ok s' -> Z.of_nat (cc_xi s') = xi /\ Z.of_nat (cc_yi s') = yi /\ cc_obs s' = cc_obs s).
Proof.
  intros F debug xi yi o s s'. repeat (split; [reflexivity|]). unfold cc_set_xy, altro_assert. intros E.
  destruct debug, (Z.leb 0 xi) eqn:E1, (Z.leb 0 yi) eqn:E2; cbn in E; try discriminate E; destruct (Z.ltb xi 0) eqn:E3, (Z.ltb yi 0) eqn:E4; cbn in E; try discriminate E;
  injection E as <-; cbn [cc_xi cc_yi cc_obs]; apply Z.ltb_ge in E3; apply Z.ltb_ge in E4; split; try lia; split; try lia; reflexivity.
Qed.
(** for the default position indices the Jacobian is the derivative (other entries are left alone and must be zero) *)
Theorem C53_circle_jacobian_partial : forall n m (s : CC RS), (2 <= n)%nat -> cc_xi s = 0%nat -> cc_yi s = 1%nat -> con_smooth n m (cc_con s).
Proof. intros n m s H1 H2 H3. eexists _, _, _. apply cc_con_true; auto. Qed.
(** Finding: Jacobian ignores the indices chosen with SetXYIndices. *)
Theorem C53_circle_jacobian_refuted : exists n m (s : CC RS), cc_set_xy (F:=RS) true 1 2 (cc_add (mkCircle (F:=RS) 1 0 1) cc_new) = Ok s /\
  (cc_xi s < n)%nat /\ (cc_yi s < n)%nat /\ ~ con_smooth n m (cc_con s).
Proof.
  exists 3%nat, 0%nat. eexists. split; [reflexivity|]. split; [cbn; lia|]. split; [cbn; lia|].
  intros (g & J & W & [H1 H2 H3 H4]). set (s := mkCC 1 2 [mkCircle (F:=RS) 1 0 1]).
  change (Z.to_nat 1) with 1%nat in *. change (Z.to_nat 2) with 2%nat in *.
  pose (X := fun (s : R) (i : nat) => if Nat.eqb i 1 then s else 0). pose (v := fun (i : nat) => if Nat.eqb i 1 then 1 else 0).
  assert (HX : curve X v). { intros i. unfold X, v. destruct (Nat.eqb i 1); [apply d_id|apply d_const]. }
  assert (HU : curve (fun _ _ => 0) (fun _ => 0)) by (intros i; apply d_const).
  pose proof (H4 X (fun _ _ => 0) v (fun _ => 0) HX HU 0%nat ltac:(cbn; lia)) as D.
  assert (D' : is_derive (fun t => g (X t) (fun _ => 0) 0%nat) 0 2).
  { apply (d_ext (fun t => 1 ^ 2 - ((t - 1) * (t - 1) + 0))).
    - intros t. rewrite <- (H1 (X t) (fun _ => 0) vzero 0%nat) by (cbn; lia). cbn [cc_con con_eval].
      change (1 ^ 2 - ((t - 1) * (t - 1) + 0) = cc_eval s (X t) vzero 0%nat). rewrite cc_eval_val by (cbn; lia). unfold cc_val, s, X. cbn. ring.
    - eapply d_eq; [apply d_minus; [apply d_const|apply d_plus; [apply (d_mult (fun t => t - 1) (fun t => t - 1)); (apply d_minus; [apply d_id|apply d_const])|apply d_const]]|]. cbv beta. ring. }
  pose proof (eq_trans (eq_sym (is_derive_unique _ _ _ D')) (is_derive_unique _ _ _ D)) as E1. rewrite !fsum_rsum, !rsum_S, !rsum_0 in E1. unfold v in E1. cbn [Nat.eqb] in E1.
  assert (E2 : J (X 0) (fun _ => 0) 0%nat 1%nat = 2) by lra.
  pose proof (H2 (X 0) (fun _ => 0) (fun _ _ => 0) 0%nat 1%nat ltac:(cbn; lia) ltac:(lia)) as E3.
  assert (E4 : con_jac (cc_con s) (X 0) (fun _ => 0) (fun _ _ => 0) 0%nat 1%nat = 0).
  { cbn. unfold X, mset. cbn. ring. }
  change (con_jac (cc_con s) (X 0) (fun _ => 0) (fun _ _ => 0) 0%nat 1%nat = if W 0%nat 1%nat then J (X 0) (fun _ => 0) 0%nat 1%nat else 0) in E3.
  rewrite E4, E2 in E3. destruct (W 0%nat 1%nat) eqn:EW; [lra|]. rewrite (H3 (X 0) (fun _ => 0) 0%nat 1%nat EW) in E2. lra.
Qed.
Example C53_example : let s := cc_add (mkCircle (F:=QS) 3%Q 4%Q 5%Q) cc_new in
  cc_eval s (fun _ => 0%Q) vzero 0%nat = 0%Q /\ cc_eval s (fun _ => 1%Q) vzero 0%nat = 12%Q.
Proof. vm_compute. split; reflexivity. Qed.

(** * C54 quadratic cost *)
Theorem C54_value : forall (s : QC RS) x u, let n := qc_n s in let m := qc_m s in
  qc_eval s x u = / 2 * qform n n (qc_Q s) x x + qform n m (qc_H s) x u + / 2 * qform m m (qc_R s) u u + fsum n (fun i => qc_q s i * x i) + fsum m (fun i => qc_r s i * u i) + qc_c s.
Proof. intros s x u n m. rewrite qc_eval_eq, !qform_qf, !fsum_rsum. reflexivity. Qed.
Theorem C54_derivatives : forall (s : QC RS), symmetric (qc_n s) (qc_Q s) -> symmetric (qc_m s) (qc_R s) ->
  cost_true (qc_n s) (qc_m s) (qc_ucost s) /\
  is_hessian (qc_n s) (qc_m s) (fun x u => fst (qc_grad s x u)) (fun x u => snd (qc_grad s x u))
    (fun x u => fst (fst (qc_hess s x u))) (fun x u => snd (fst (qc_hess s x u))) (fun x u => snd (qc_hess s x u)).
Proof. intros s HQ HR. split; [apply qc_cost_true; auto|apply qc_is_hessian; auto]. Qed.
Theorem C54_lqr : forall debug ok n m Q R xref uref term (s : QC RS), qc_lqr debug ok n m Q R xref uref term = Ok s -> symmetric n Q -> symmetric m R ->
  forall x u, qc_eval s x u = / 2 * qform n n Q (fun i => x i - xref i) (fun i => x i - xref i) + / 2 * qform m m R (fun i => u i - uref i) (fun i => u i - uref i).
Proof. intros debug ok n m Q R xref uref term s E HQ HR x u. rewrite !qform_qf. eapply qc_lqr_value; eauto. Qed.
(** [h] is the derivative of the joint gradient of [c] at (x, u) *)
Definition joint_hessian_true (n m : nat) (c : UCost RS) (H : vec RS -> vec RS -> nat -> nat -> R) : Prop :=
  forall X U v w, curve X v -> curve U w -> forall i, (i < n + m)%nat ->
    is_derive (fun t => joint_grad n m c (X t) (U t) vzero i) 0
      (fsum n (fun j => H (X 0) (U 0) i j * v j) + fsum m (fun j => H (X 0) (U 0) i (n + j)%nat * w j)).
(** Finding: CostFunction::Hessian(x, u, hess) never writes the bottom-left block, so the joint Hessian of a correct cost with
    a cross term is wrong. *)
Definition ex_cross : QC RS := mkQC (F:=RS) 1 1 (fun _ _ => 1) (fun _ _ => 2) (fun _ _ => 1) (fun _ => 0) (fun _ => 0) 0 false.
Theorem C54_joint_hessian_refuted : exists (s : QC RS), symmetric (qc_n s) (qc_Q s) /\ symmetric (qc_m s) (qc_R s) /\ cost_true (qc_n s) (qc_m s) (qc_ucost s) /\
  ~ joint_hessian_true (qc_n s) (qc_m s) (qc_ucost s) (fun x u => joint_hess (qc_n s) (qc_m s) (qc_ucost s) x u mzero).
Proof.
  exists ex_cross. assert (HQ : symmetric (qc_n ex_cross) (qc_Q ex_cross)) by (intros i j _ _; reflexivity).
  assert (HR : symmetric (qc_m ex_cross) (qc_R ex_cross)) by (intros i j _ _; reflexivity).
  split; [exact HQ|]. split; [exact HR|]. split; [apply qc_cost_true; auto|]. intros H.
  assert (HX : curve (fun t _ => t) (fun _ => 1)) by (intros i; apply d_id). assert (HU : curve (fun _ _ => 0) (fun _ => 0)) by (intros i; apply d_const).
  pose proof (H _ _ _ _ HX HU 1%nat ltac:(cbn; lia)) as D. cbn [qc_n qc_m ex_cross] in D. rewrite !fsum_rsum, !rsum_S, !rsum_0 in D.
  assert (D' : is_derive (fun t => joint_grad 1 1 (qc_ucost ex_cross) (fun _ => t) (fun _ => 0) vzero 1%nat) 0 1).
  { apply (d_ext (fun t => t)); [|apply d_id]. intros t. unfold joint_grad. cbn [qc_ucost uc_grad]. unfold qc_grad. cbn [Nat.ltb Nat.leb Nat.sub ex_cross qc_n qc_m qc_Q qc_R qc_H qc_q qc_r]. rewrite vstore_lt by lia.
    unfold mv, mtr. rewrite !rdot_eq, !rsum_S, !rsum_0. rs. ring. }
  pose proof (eq_trans (eq_sym (is_derive_unique _ _ _ D')) (is_derive_unique _ _ _ D)) as E1. unfold joint_hess in E1. cbn [qc_ucost uc_hess qc_hess] in E1.
  cbn [Nat.ltb Nat.leb] in E1. unfold mzero in E1. revert E1. rs. intros E1. lra.
Qed.
(** without a cross term (and a zeroed destination, as in CheckHessian) it is the full Hessian; with one, everything is right but the
    bottom-left block, which keeps the content of the destination *)
Theorem C54_joint_hessian_partial : forall (s : QC RS), let n := qc_n s in let m := qc_m s in symmetric n (qc_Q s) -> symmetric m (qc_R s) ->
  (forall x u h i j, (i < n + m)%nat -> (j < n + m)%nat ->
     joint_hess n m (qc_ucost s) x u h i j = if Nat.ltb i n then (if Nat.ltb j n then qc_Q s i j else qc_H s i (j - n)%nat) else (if Nat.ltb j n then h i j else qc_R s (i - n)%nat (j - n)%nat)) /\
  ((forall i j, (i < n)%nat -> (j < m)%nat -> qc_H s i j = 0) -> joint_hessian_true n m (qc_ucost s) (fun x u => joint_hess n m (qc_ucost s) x u mzero)).
Proof.
  intros s n m HQ HR. split.
  - intros x u h i j Hi Hj. reflexivity.
  - intros HH X U v w HX HU i Hi. destruct (qc_is_hessian s HQ HR X U v w HX HU) as [D1 D2]. fold n m in D1, D2. unfold joint_grad, joint_hess. cbn [qc_ucost uc_grad uc_hess qc_hess].
    destruct (Nat.ltb i n) eqn:E1.
    + pose proof E1 as E0. apply Nat.ltb_lt in E1. specialize (D1 i E1). cbn [qc_hess fst snd] in D1.
      apply (d_ext (fun t => fst (qc_grad s (X t) (U t)) i)); [intros t; destruct (qc_grad s (X t) (U t)); cbn [fst snd]; rewrite E0; reflexivity|].
      eapply d_eq; [exact D1|]. rewrite !fsum_rsum. f_equal; apply rsum_ext; intros j Hj.
      * rewrite (proj2 (Nat.ltb_lt j n) Hj). reflexivity.
      * replace (Nat.ltb (n + j) n) with false by (symmetry; apply Nat.ltb_ge; lia). replace (n + j - n)%nat with j by lia. reflexivity.
    + pose proof E1 as E0. apply Nat.ltb_ge in E1. specialize (D2 (i - n)%nat ltac:(lia)). cbn [qc_hess fst snd] in D2.
      apply (d_ext (fun t => snd (qc_grad s (X t) (U t)) (i - n)%nat)); [intros t; destruct (qc_grad s (X t) (U t)); cbn [fst snd]; rewrite E0; reflexivity|].
      eapply d_eq; [exact D2|]. rewrite !fsum_rsum. f_equal; apply rsum_ext; intros j Hj.
      * rewrite (proj2 (Nat.ltb_lt j n) Hj). unfold mzero. rs. rewrite (HH j (i - n)%nat Hj ltac:(lia)). reflexivity.
      * replace (Nat.ltb (n + j) n) with false by (symmetry; apply Nat.ltb_ge; lia). replace (n + j - n)%nat with j by lia. reflexivity.
Qed.
(** The constructor keeps what it is given.  In a debug build it accepts the weights exactly if they are symmetric up to 1e-12 of their
    size, the lower triangle of R is that of a positive definite matrix unless the cost is terminal, and the (unmodelled) LDLT check
    of Q holds; otherwise it stops. *)
Definition asym (n : nat) (A : nat -> nat -> R) : R := fsum n (fun i => fsum n (fun j => (A i j - A j i) ^ 2)).
Definition size2 (n : nat) (A : nat -> nat -> R) : R := fsum n (fun i => fsum n (fun j => A i j ^ 2)).
Definition from_low (A : nat -> nat -> R) (i j : nat) : R := if Nat.leb j i then A i j else A j i.
Lemma fro_tr n (A : mat RS) : fro2 n n (mtr A) = fro2 n n A.
Proof. unfold fro2, mtr. change (rsum n (fun i => rsum n (fun j => A j i * A j i)) = rsum n (fun i => rsum n (fun j => A i j * A i j))). apply rsum_swap. Qed.
Lemma approx_iff n (A : mat RS) : is_approx_tr n (mstore n n A) = true <-> asym n A <= / 10 ^ 24 * size2 n A.
Proof.
  unfold is_approx_tr. rewrite fro_tr. unfold smin, lit. rs. rewrite Rleb_true.
  assert (E1 : fro2 n n ((fun i j => mstore (F:=RS) n n A i j - mstore (F:=RS) n n A j i) : mat RS) = asym n A).
  { unfold fro2, asym. rewrite fsum_rsum. apply rsum_ext. intros i Hi. rewrite fsum_rsum. apply rsum_ext. intros j Hj. rewrite !mstore_lt by auto. rs. ring. }
  assert (E2 : fro2 n n (mstore (F:=RS) n n A) = size2 n A).
  { unfold fro2, size2. rewrite fsum_rsum. apply rsum_ext. intros i Hi. rewrite fsum_rsum. apply rsum_ext. intros j Hj. rewrite !mstore_lt by auto. rs. ring. }
  rewrite E1, E2. replace (if Rltb (size2 n A) (size2 n A) then size2 n A else size2 n A) with (size2 n A) by (destruct (Rltb _ _); reflexivity).
  replace (1 / 1000000000000 * (1 / 1000000000000)) with (/ 10 ^ 24) by lra. reflexivity.
Qed.
Theorem C54_validate : forall ld n m Q R H q r c term, let s := mkQC (F:=RS) n m (mstore n n Q) (mstore m m R) (mstore n m H) (vstore n q) (vstore m r) c term in
  let valid := asym n Q <= / 10 ^ 24 * size2 n Q /\ asym m R <= / 10 ^ 24 * size2 m R /\ (term = true \/ LqSpec.posdef m (from_low R)) /\ ld = true in
  qc_make false ld n m Q R H q r c term = Ok s /\ (valid -> qc_make true ld n m Q R H q r c term = Ok s) /\ (~ valid -> qc_make true ld n m Q R H q r c term = Abort).
Proof.
  intros ld n m Q R H q r c term s valid. split; [reflexivity|].
  assert (LL : match llt m (mstore (F:=RS) m m R) with Some _ => true | None => false end = true <-> LqSpec.posdef m (from_low R)).
  { assert (SY : LqSpec.sym m (from_low R)). { intros i j Hi Hj. unfold from_low. destruct (Nat.leb_spec j i), (Nat.leb_spec i j); auto; [replace j with i by lia; reflexivity|lia]. }
    pose proof (LltLow.llt_low m (mstore (F:=RS) m m R) (from_low R)) as X. assert (SL : LltLow.same_low (F:=RS) m (mstore m m R) (from_low R)).
    { intros i j Hij Hi. unfold from_low. rewrite mstore_lt by lia. replace (Nat.leb j i) with true by (symmetry; apply Nat.leb_le; lia). reflexivity. }
    specialize (X SL). destruct (llt m (mstore (F:=RS) m m R)) as [L|], (llt m (from_low R : mat RS)) as [L'|] eqn:E; try contradiction.
    - split; [intros _; eapply LltProofs.llt_posdef; eauto|reflexivity].
    - split; [discriminate|]. intros P. destruct (LltProofs.posdef_llt m (from_low R) SY P) as (L & EL). rewrite EL in E. discriminate. }
  unfold qc_make, qc_validate. fold s. cbn [qc_n qc_m qc_Q qc_R qc_term s]. unfold altro_assert. cbn [andb].
  pose proof (approx_iff n Q) as A1. pose proof (approx_iff m R) as A2. unfold valid. rewrite <- A1, <- A2, <- LL.
  destruct (is_approx_tr n (mstore n n Q)), (is_approx_tr m (mstore m m R)), term, (match llt m (mstore (F:=RS) m m R) with Some _ => true | None => false end), ld; cbn [negb bind orb]; split; intros V; try reflexivity; exfalso; intuition congruence.
Qed.
(** Finding: the test of symmetry is not exact, and with weights that are only nearly symmetric the gradient is not the derivative. *)
Theorem C54_nearly_symmetric_refuted : exists s : QC RS, (exists Q R, qc_make true true 2 1 Q R mzero vzero vzero 0 false = Ok s) /\ ~ cost_true (qc_n s) (qc_m s) (qc_ucost s).
Proof.
  set (Q := fun i j => if Nat.eqb i j then 1 else if Nat.ltb i j then / 10 ^ 13 else 0).
  exists (mkQC (F:=RS) 2 1 (mstore 2 2 Q) (mstore 1 1 (fun _ _ => 1)) (mstore 2 1 mzero) (vstore 2 vzero) (vstore 1 vzero) 0 false). split.
  - exists Q, (fun _ _ => 1). apply C54_validate. unfold asym, size2, fsum, Q. cbn [seq fold_right Nat.eqb Nat.ltb Nat.leb]. repeat split; try lra.
    right. intros x (i & Hi & Nx). unfold LqSpec.form, LqSpec.tot, from_low. cbn [seq map fold_right]. replace i with 0%nat in Nx by lia. cbn [Nat.leb]. pose proof (Rsqr_pos_lt _ Nx) as P. unfold Rsqr in P. rs. lra.
  - intros [HG].
    assert (HX : curve (fun t i => match i with O => t | _ => 1 end) (fun i => match i with O => 1 | _ => 0 end)) by (intros [|i]; [apply d_id|apply d_const]).
    assert (HU : curve (fun _ _ => 0) (fun _ => 0)) by (intros i; apply d_const).
    pose proof (HG _ _ _ _ HX HU (vzero, vzero)) as D. cbn [qc_n qc_m qc_ucost uc_grad uc_eval] in D. rewrite !fsum_rsum, !rsum_S, !rsum_0 in D.
    unfold qc_grad in D. cbn [qc_n qc_m qc_Q qc_R qc_H qc_q qc_r fst snd] in D. rewrite !vstore_lt in D by lia. unfold mv in D. rewrite !rdot_eq, !rsum_S, !rsum_0 in D. rewrite !mstore_lt in D by lia.
    assert (D' : is_derive (fun t => / 2 * t * t + / 2 * / 10 ^ 13 * t + / 2) 0 (/ 2 * / 10 ^ 13)).
    { eapply d_eq; [auto_derive; auto|]. lra. }
    pose proof (is_derive_unique _ _ _ D') as E1. pose proof (is_derive_unique _ _ _ D) as E2.
    assert (EX : forall t, / 2 * t * t + / 2 * / 10 ^ 13 * t + / 2 = qc_eval (mkQC (F:=RS) 2 1 (mstore 2 2 Q) (mstore 1 1 (fun _ _ => 1)) (mstore 2 1 mzero) (vstore 2 vzero) (vstore 1 vzero) 0 false) (fun i => match i with O => t | _ => 1 end) (fun _ => 0)).
    { intros t. unfold qc_eval. cbn [qc_n qc_m qc_Q qc_R qc_H qc_q qc_r qc_c]. unfold mv. rewrite !rdot_eq, !rsum_S, !rsum_0. rewrite !rdot_eq, !rsum_S, !rsum_0. rewrite !mstore_lt, !vstore_lt by lia. unfold Q, half, lit, mzero, vzero. cbn [Nat.eqb Nat.ltb Nat.leb]. rs. lra. }
    pose proof (eq_trans (eq_sym E1) (eq_trans (Derive_ext _ _ 0 EX) E2)) as E3. revert E3. unfold Q, mzero, vzero. cbn [Nat.eqb Nat.ltb Nat.leb]. rs. lra.
Qed.
Example C54_example : exists s, qc_lqr (F:=QS) true true 2 1 (fun i j => if Nat.eqb i j then 2%Q else 1%Q) (fun _ _ => 3%Q) (fun i => inject_Z (Z.of_nat i)) (fun _ => 1%Q) false = Ok s /\
  qc_eval s (fun _ => 2%Q) (fun _ => 3%Q) = 13%Q /\ qc_eval s (fun i => inject_Z (Z.of_nat i)) (fun _ => 1%Q) = 0%Q.
Proof. eexists. split; [vm_compute; reflexivity|]. vm_compute. split; reflexivity. Qed.

Print Assumptions C52_rows.
Print Assumptions C52_unbounded.
Print Assumptions C52_feasible.
Print Assumptions C52_dblmax_refuted.
Print Assumptions C53_circle.
Print Assumptions C53_circle_jacobian_refuted.
Print Assumptions C54_derivatives.
Print Assumptions C54_joint_hessian_refuted.
Print Assumptions C54_validate. Print Assumptions C54_nearly_symmetric_refuted.
