(** Property C47: uniform time steps (trajectory.hpp). *)
From Coq Require Import ZArith QArith Reals List Bool Lia Lra.
From Coq Require Import Floats.SpecFloat.
From Verif Require Import Base Lin RLin TrajModel.
Import ListNotations.
Local Open Scope nat_scope.

Section Any.
Context {F : Scalar}.
Lemma set_uniform_length (h : F) : forall Z k, length (set_uniform h k Z) = length Z.
Proof. induction Z as [|z [|z' r] IH]; intros k; [reflexivity..|]. cbn [set_uniform length]. f_equal. apply IH. Qed.
Lemma set_uniform_nth (h : F) : forall Z j k z, nth_error Z k = Some z ->
  nth_error (set_uniform h j Z) k = Some (if S k =? length Z
    then mkKP (z_x z) (z_u z) (f32mul h (tof32 (ofZ (Z.of_nat (j + k))))) zero
    else mkKP (z_x z) (z_u z) (f32mul (tof32 (ofZ (Z.of_nat (j + k)))) h) h).
Proof.
  induction Z as [|z0 [|z' r] IH]; intros j k z H.
  - destruct k; discriminate.
  - destruct k as [|[|k]]; try discriminate. injection H as ->. cbn. rewrite Nat.add_0_r. reflexivity.
  - destruct k as [|k].
    + injection H as ->. cbn [set_uniform nth_error]. rewrite Nat.add_0_r. reflexivity.
    + change (nth_error (set_uniform h j (z0 :: z' :: r)) (S k)) with (nth_error (set_uniform h (S j) (z' :: r)) k). rewrite (IH (S j) k z H). rewrite Nat.add_succ_comm. reflexivity.
Qed.
End Any.

(** Every arithmetic: SetUniformStep keeps the states, the controls and the number of segments, stores the step at every
    knot point but the last, 0 at the last, and the (single-precision) products k*h as times. *)
Theorem C47_uniform_step : forall (F : Scalar) (h : F) (Z : Traj F),
  length (traj_set_uniform_step h Z) = length Z /\
  forall k z, nth_error Z k = Some z -> exists z', nth_error (traj_set_uniform_step h Z) k = Some z' /\
    z_x z' = z_x z /\ z_u z' = z_u z /\
    (S k < length Z -> z_h z' = tof32 h /\ z_t z' = f32mul (tof32 (ofZ (Z.of_nat k))) (tof32 h)) /\
    (S k = length Z -> z_h z' = zero /\ z_t z' = f32mul (tof32 h) (tof32 (ofZ (Z.of_nat k)))).
Proof.
  intros F h Z. split; [apply set_uniform_length|]. intros k z H. unfold traj_set_uniform_step. rewrite (set_uniform_nth (tof32 h) Z 0 k z H).
  eexists. split; [reflexivity|]. destruct (S k =? length Z) eqn:E; [apply Nat.eqb_eq in E|apply Nat.eqb_neq in E]; cbn [z_x z_u z_h z_t].
  - repeat split; intros; try lia; reflexivity.
  - repeat split; intros; try lia; reflexivity.
Qed.

(** Every arithmetic: SetZero clears the states and the controls and keeps every time and step, so the outcome of the time check does not change. *)
Theorem C47_set_zero : forall (F : Scalar) (eps : F) (Z : Traj F),
  length (traj_set_zero Z) = length Z /\
  (forall k z, nth_error Z k = Some z -> exists z', nth_error (traj_set_zero Z) k = Some z' /\
     (forall i, z_x z' i = zero) /\ (forall i, z_u z' i = zero) /\ z_t z' = z_t z /\ z_h z' = z_h z) /\
  traj_check_times eps (traj_set_zero Z) = traj_check_times eps Z.
Proof.
  intros F eps Z. split; [apply map_length|]. split.
  - intros k z H. unfold traj_set_zero. rewrite (map_nth_error _ _ _ H). eexists. split; [reflexivity|]. repeat split; reflexivity.
  - induction Z as [|z [|z' r] IH]; [reflexivity..|]. unfold traj_set_zero in *. cbn [map traj_check_times z_h z_t] in *. rewrite IH. reflexivity.
Qed.

(** the consistency test, read independently: every recorded step is the difference of the neighbouring times up to eps *)
Definition consistent (eps : R) (Z : Traj RS) : Prop :=
  forall k z z', nth_error Z k = Some z -> nth_error Z (S k) = Some z' -> (Rabs (z_h z - (z_t z' - z_t z)) <= eps)%R.
Theorem C47_check_exact : forall (eps : R) (Z : Traj RS), traj_check_times (F:=RS) eps Z = true <-> consistent eps Z.
Proof.
  intros eps Z. induction Z as [|z [|z' r] IH].
  - split; [|reflexivity]. intros _ k z z' H. destruct k; discriminate.
  - split; [|reflexivity]. intros _ k y y' _ H. destruct k as [|[|k]]; discriminate.
  - cbn [traj_check_times]. unfold f32sub. rs. destruct (Rltb eps (Rabs (z_h z - (z_t z' - z_t z)))) eqn:E.
    + split; [discriminate|]. intros H. specialize (H 0 z z' eq_refl eq_refl). apply Rltb_true in E. lra.
    + apply Rltb_false in E. rewrite IH. split.
      * intros H [|k] y y' H1 H2; [injection H1 as <-; injection H2 as <-; exact E|]. exact (H k y y' H1 H2).
      * intros H k y y' H1 H2. exact (H (S k) y y' H1 H2).
Qed.
(** Exact arithmetic: the times are k*h, and the trajectory passes the test for every tolerance >= 0. *)
Theorem C47_exact_consistent : forall (h eps : R) (Z : Traj RS), (0 <= eps)%R ->
  (forall k z, nth_error (traj_set_uniform_step (F:=RS) h Z) k = Some z -> z_t z = (INR k * h)%R) /\
  traj_check_times (F:=RS) eps (traj_set_uniform_step (F:=RS) h Z) = true.
Proof.
  intros h eps Z He. destruct (C47_uniform_step RS h Z) as [Hl Hk].
  assert (Ht : forall k z, nth_error (traj_set_uniform_step (F:=RS) h Z) k = Some z -> z_t z = (INR k * h)%R /\ (S k < length Z -> z_h z = h)).
  { intros k z Hz. assert (k < length Z) by (rewrite <- Hl; apply nth_error_Some; congruence).
    destruct (nth_error Z k) as [y|] eqn:Ey; [|apply nth_error_None in Ey; lia].
    destruct (Hk k y Ey) as (z' & E' & _ & _ & H1 & H2). rewrite Hz in E'. injection E' as <-.
    destruct (Nat.eq_dec (S k) (length Z)) as [e|ne].
    - destruct (H2 e) as [_ ->]. split; [|intros; lia]. unfold f32mul. rs. rewrite <- INR_IZR_INZ. ring.
    - destruct (H1 ltac:(lia)) as [-> ->]. split; [|reflexivity]. unfold f32mul. rs. rewrite <- INR_IZR_INZ. reflexivity. }
  split; [intros k z Hz; apply Ht; exact Hz|]. apply C47_check_exact. intros k z z' H1 H2.
  assert (S k < length Z) by (rewrite <- Hl; apply nth_error_Some; congruence).
  destruct (Ht k z H1) as [-> Hh]. destruct (Ht (S k) z' H2) as [-> _]. rewrite Hh by lia. rewrite S_INR.
  replace (h - ((INR k + 1) * h - INR k * h))%R with 0%R by ring. rewrite Rabs_R0. exact He.
Qed.
(** The constructor from states, controls and times: knot k holds X[k], U[k], times[k] and the difference of the times; the
    last has step 0 and control 0; the result passes the test.  At least one segment. *)
Theorem C47_from_times : forall (debug : bool) (X U : list (vec RS)) (times : list R),
  U <> [] -> length X = S (length U) -> length times = S (length U) ->
  exists Z, traj_make (F:=RS) debug X U times = Ok Z /\ length Z = S (length U) /\
    (forall k x u t t', nth_error X k = Some x -> nth_error U k = Some u -> nth_error times k = Some t -> nth_error times (S k) = Some t' ->
       nth_error Z k = Some (mkKP x u t (t' - t)%R)) /\
    (exists z, nth_error Z (length U) = Some z /\ nth_error X (length U) = Some (z_x z) /\ nth_error times (length U) = Some (z_t z) /\
       z_h z = 0%R /\ forall i, z_u z i = 0%R) /\
    (forall eps, (0 <= eps)%R -> traj_check_times (F:=RS) eps Z = true).
Proof.
  intros debug X U times HU HX Ht.
  set (last := mkKP (nth (length U) X vzero) (vscale (F:=RS) zero (nth (length U - 1) U vzero)) (nth (length U) times zero) zero : KP RS).
  assert (Hb : forall U X times, length X = S (length U) -> length times = S (length U) ->
    length (traj_build (F:=RS) X U times) = length U /\
    forall k x u t t', nth_error X k = Some x -> nth_error U k = Some u -> nth_error times k = Some t -> nth_error times (S k) = Some t' ->
       nth_error (traj_build (F:=RS) X U times) k = Some (mkKP x u t (t' - t)%R)).
  { clear. induction U as [|u U IH]; intros X times HX Ht.
    - destruct X as [|x [|]]; try discriminate. destruct times as [|t [|]]; try discriminate. split; [reflexivity|].
      intros [|k] x0 u0 t0 t1 _ H; discriminate.
    - destruct X as [|x X]; [discriminate|]. destruct times as [|t [|t' times]]; try discriminate.
      destruct (IH X (t' :: times)) as [I1 I2]; try (simpl in *; lia). cbn [traj_build]. split; [cbn [length]; rewrite I1; reflexivity|].
      intros [|k] x0 u0 t0 t1 H1 H2 H3 H4.
      + injection H1 as <-. injection H2 as <-. injection H3 as <-. injection H4 as <-. reflexivity.
      + exact (I2 k x0 u0 t0 t1 H1 H2 H3 H4). }
  destruct (Hb U X times HX Ht) as [B1 B2].
  exists (traj_build (F:=RS) X U times ++ [last]).
  assert (Hlen : length (traj_build (F:=RS) X U times ++ [last]) = S (length U)) by (rewrite app_length, B1; simpl; lia).
  assert (HK : forall k x u t t', nth_error X k = Some x -> nth_error U k = Some u -> nth_error times k = Some t -> nth_error times (S k) = Some t' ->
       nth_error (traj_build (F:=RS) X U times ++ [last]) k = Some (mkKP x u t (t' - t)%R)).
  { intros k x u t t' H1 H2 H3 H4. rewrite nth_error_app1; [exact (B2 k x u t t' H1 H2 H3 H4)|]. rewrite B1. apply nth_error_Some. congruence. }
  assert (HL : nth_error (traj_build (F:=RS) X U times ++ [last]) (length U) = Some last).
  { rewrite nth_error_app2 by lia. rewrite B1, Nat.sub_diag. reflexivity. }
  split; [|split; [exact Hlen|split; [exact HK|split]]].
  - assert (Ht' : @length (T RS) times = S (length U)) by exact Ht. unfold traj_make. rewrite HX, Ht', !Nat.eqb_refl. unfold altro_assert. rewrite andb_false_r. cbn [bind].
    destruct U as [|u U]; [congruence|]. rewrite (Nat.leb_refl (S (length (u :: U)))). reflexivity.
  - exists last. split; [exact HL|]. unfold last. cbn [z_x z_u z_t z_h]. split; [apply nth_error_nth'; lia|]. split; [apply nth_error_nth'; lia|].
    split; [reflexivity|]. intros i. unfold vscale. rs. ring.
  - intros eps He. apply C47_check_exact. intros k z z' H1 H2.
    assert (Hk : S k < S (length U)) by (rewrite <- Hlen; apply nth_error_Some; congruence).
    destruct (nth_error X k) as [x|] eqn:Ex; [|apply nth_error_None in Ex; lia].
    destruct (nth_error U k) as [u|] eqn:Eu; [|apply nth_error_None in Eu; lia].
    destruct (nth_error times k) as [t|] eqn:Et; [|apply nth_error_None in Et; lia].
    destruct (nth_error times (S k)) as [t'|] eqn:Et'; [|apply nth_error_None in Et'; lia].
    rewrite (HK k x u t t' Ex Eu Et Et') in H1. injection H1 as <-. cbn [z_h z_t].
    assert (Hz' : z_t z' = t').
    { destruct (Nat.eq_dec (S k) (length U)) as [e|ne].
      - rewrite e, HL in H2. injection H2 as <-. unfold last. cbn [z_t]. rewrite <- e. apply nth_error_nth. exact Et'.
      - destruct (nth_error X (S k)) as [x2|] eqn:Ex2; [|apply nth_error_None in Ex2; lia].
        destruct (nth_error U (S k)) as [u2|] eqn:Eu2; [|apply nth_error_None in Eu2; lia].
        destruct (nth_error times (S (S k))) as [t2|] eqn:Et2; [|apply nth_error_None in Et2; lia].
        rewrite (HK (S k) x2 u2 t' t2 Ex2 Eu2 Et' Et2) in H2. injection H2 as <-. reflexivity. }
    rewrite Hz'. replace (t' - t - (t' - t))%R with 0%R by ring. rewrite Rabs_R0. exact He.
Qed.
Example C47_example :
  let Z := traj_set_uniform_step (F:=QS) (lit (F:=QS) 1 10) (traj_zero (F:=QS) 3) in
  map z_t Z = [0; 1 # 10; 1 # 5; 3 # 10]%Q /\ map z_h Z = [1 # 10; 1 # 10; 1 # 10; 0]%Q /\ traj_check_times (F:=QS) (0%Q : QS) Z = true.
Proof. vm_compute. auto. Qed.
Example C47_example_times : exists Z, traj_make (F:=RS) true [fun _ => 1%R; fun _ => 2%R] [fun _ => 3%R] [0%R; 5%R] = Ok Z /\ length Z = 2 /\
  traj_check_times (F:=RS) 0%R Z = true.
Proof.
  destruct (C47_from_times true [fun _ => 1%R; fun _ => 2%R] [fun _ => 3%R] [0%R; 5%R] ltac:(discriminate) eq_refl eq_refl) as (Z & E & Hl & _ & _ & Hc).
  exists Z. split; [exact E|]. split; [exact Hl|]. apply Hc. lra.
Qed.

(** FINDING: in IEEE arithmetic the rounding of k*h to single precision makes the test fail at its default tolerance 1e-6
    on the trajectory produced by SetUniformStep(0.1f) itself. *)
Theorem C47_float_refuted : exists (N : nat) (h : FS), (N <= 200)%nat /\
  traj_check_times (F:=FS) (lit (F:=FS) 1 1000000) (traj_set_uniform_step (F:=FS) h (traj_zero (F:=FS) N)) = false.
Proof. exists 170%nat, (lit (F:=FS) 1 10). split; [lia|]. vm_compute. reflexivity. Qed.
(** ... while short horizons pass *)
Example C47_float_short : traj_check_times (F:=FS) (lit (F:=FS) 1 1000000) (traj_set_uniform_step (F:=FS) (lit (F:=FS) 1 10) (traj_zero (F:=FS) 80)) = true.
Proof. vm_compute. reflexivity. Qed.
(** FINDING: "true if t[k+1]-t[k] == h[k] for all k": a NaN time is accepted. *)
Theorem C47_nan_refuted : exists Z : Traj FS, traj_check_times (F:=FS) (lit (F:=FS) 1 1000000) Z = true /\
  exists z z', nth_error Z 0 = Some z /\ nth_error Z 1 = Some z' /\ eqb (sub (z_t z') (z_t z)) (z_h z) = false.
Proof.
  exists [mkKP (F:=FS) vzero vzero (S754_nan : FS) (one : FS); mkKP (F:=FS) vzero vzero (one : FS) (zero : FS)].
  split; [vm_compute; reflexivity|]. eexists. eexists. repeat split.
Qed.
(** FINDING: a problem with no segments cannot be built from states and times (reads U[-1]). *)
Theorem C47_no_segments_refuted : forall (F : Scalar) (debug : bool) (x : vec F) (t : F), traj_make debug [x] [] [t] = UB.
Proof. intros F [] x t; reflexivity. Qed.

Print Assumptions C47_uniform_step.
Print Assumptions C47_set_zero.
Print Assumptions C47_check_exact.
Print Assumptions C47_exact_consistent.
Print Assumptions C47_from_times.
