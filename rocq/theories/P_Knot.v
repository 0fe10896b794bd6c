(** Property C73: knot points (knotpoint.hpp, state_control_sized.hpp). *)
From Coq Require Import ZArith QArith Reals List Bool Lia.
From Coq Require Import Floats.SpecFloat.
From Verif Require Import Base Lin TrajModel KnotModel.
Import ListNotations.
Local Open Scope Z_scope.

(** The stored dimensions are the lengths of the two vectors, and agree with the compile-time sizes where those are given. *)
Definition well_sized {F} (k : Knot F) : Prop :=
  k_xs k = k_n k /\ k_us k = k_m k /\ (k_ns k <> -1 -> k_ns k = k_n k) /\ (k_ms k <> -1 -> k_ms k = k_m k).
Lemma scs_ok debug ns ms n m p : scs debug ns ms n m = Ok p -> p = (n, m) /\ (debug = true -> 0 < ns -> ns = n) /\ (debug = true -> 0 < ms -> ms = m).
Proof.
  unfold scs, altro_assert. destruct debug; cbn [andb]; destruct (Z.ltb_spec 0 ns); cbn [andb]; destruct (Z.eqb_spec ns n); cbn [negb bind]; try discriminate;
    destruct (Z.ltb_spec 0 ms); cbn [andb]; destruct (Z.eqb_spec ms m); cbn [negb bind]; try discriminate; intros E; inversion E; repeat split; intros; try lia; try discriminate.
Qed.

(** Construction in a debug build: whatever is built is well sized and holds what was given; times and steps rounded to float. *)
(** Without run-time dimensions (the base-class constructor) both compile-time sizes must be positive, which is checked in debug builds only. *)
Theorem C73_default : forall ns ms, (forall debug p, scs_default debug ns ms = Ok p -> p = (ns, ms)) /\
  (scs_default true ns ms = Ok (ns, ms) <-> 0 < ns /\ 0 < ms) /\ (scs_default true ns ms = Abort <-> ns <= 0 \/ ms <= 0) /\ scs_default false ns ms = Ok (ns, ms).
Proof.
  intros ns ms. unfold scs_default, altro_assert. cbn [andb].
  destruct (Z.ltb_spec 0 ns); destruct (Z.ltb_spec 0 ms); cbn [negb bind]; (split; [intros [] p; cbn; intros E; inversion E; reflexivity|]);
    repeat split; intros; try discriminate; try reflexivity; try lia; exfalso; lia.
Qed.
Theorem C73_construct : forall (F : Scalar) (ns ms xs us : Z) (x u : vec F) (t h : F) (k : Knot F),
  (ns = -1 \/ 0 < ns) -> (ms = -1 \/ 0 < ms) ->
  knot_make true ns ms xs us x u t h = Ok k ->
  well_sized k /\ k_n k = xs /\ k_m k = us /\ k_z k = mkKP x u (tof32 t) (tof32 h).
Proof.
  intros F ns ms xs us x u t h k Hn Hm E. unfold knot_make in E. destruct (scs true ns ms xs us) as [p| | | | |] eqn:Es; cbn [bind] in E; try discriminate.
  destruct (scs_ok _ _ _ _ _ _ Es) as (-> & A & B). inversion E; subst. unfold well_sized. cbn. repeat split; intros; (apply A || apply B || idtac); auto; lia.
Qed.
(** ... and it is refused exactly when a given compile-time size differs. *)
Theorem C73_construct_refuses : forall (F : Scalar) (ns ms xs us : Z) (x u : vec F) (t h : F),
  (ns = -1 \/ 0 < ns) -> (ms = -1 \/ 0 < ms) ->
  (knot_make true ns ms xs us x u t h = Abort <-> (ns <> -1 /\ ns <> xs) \/ (ms <> -1 /\ ms <> us)).
Proof.
  intros F ns ms xs us x u t h Hn Hm. unfold knot_make, scs, altro_assert. cbn [andb].
  destruct (Z.ltb_spec 0 ns); cbn [andb]; destruct (Z.eqb_spec ns xs); cbn [negb bind];
    destruct (Z.ltb_spec 0 ms); cbn [andb]; destruct (Z.eqb_spec ms us); cbn [negb bind]; split; intros E; try discriminate; try reflexivity; lia.
Qed.
Theorem C73_sized : forall (F : Scalar) (ns ms n m : Z) (k : Knot F),
  (ns = -1 \/ 0 < ns) -> (ms = -1 \/ 0 < ms) -> knot_sized true ns ms n m = Ok k ->
  well_sized k /\ k_n k = n /\ k_m k = m /\ (forall i, z_x (k_z k) i = zero) /\ (forall i, z_u (k_z k) i = zero) /\ z_t (k_z k) = zero /\ z_h (k_z k) = zero.
Proof.
  intros F ns ms n m k Hn Hm E. unfold knot_sized in E. destruct (scs true ns ms n m) as [p| | | | |] eqn:Es; cbn [bind] in E; try discriminate.
  destruct (scs_ok _ _ _ _ _ _ Es) as (-> & A & B). destruct ((n <? 0) || (m <? 0)); [discriminate|]. inversion E; subst. unfold well_sized, vsize. cbn.
  assert (ns <> -1 -> ns = n) by (intros; apply A; auto; lia). assert (ms <> -1 -> ms = m) by (intros; apply B; auto; lia).
  destruct (Z.eqb_spec ns (-1)), (Z.eqb_spec ms (-1)); repeat split; intros; auto; lia.
Qed.
(** Copying, converting to other template sizes and assigning keep dimensions, lengths and content.  Narrowing a time that is a float
    already changes nothing. *)
Theorem C73_copy : forall (F : Scalar) (debug : bool) (k : Knot F), well_sized k -> (k_ns k = -1 \/ 0 < k_ns k) -> (k_ms k = -1 \/ 0 < k_ms k) ->
  knot_copy debug k = Ok k.
Proof.
  intros F debug k (A & B & C & D) Hn Hm. unfold knot_copy, scs, altro_assert.
  assert ((debug && (0 <? k_ns k)) && negb (k_ns k =? k_n k) = false) as ->.
  { destruct (Z.ltb_spec 0 (k_ns k)); [|now rewrite andb_false_r]. rewrite C by lia. rewrite Z.eqb_refl. now rewrite andb_false_r. }
  assert ((debug && (0 <? k_ms k)) && negb (k_ms k =? k_m k) = false) as ->.
  { destruct (Z.ltb_spec 0 (k_ms k)); [|now rewrite andb_false_r]. rewrite D by lia. rewrite Z.eqb_refl. now rewrite andb_false_r. }
  cbn [bind]. destruct k; reflexivity.
Qed.
Theorem C73_convert : forall (F : Scalar) (debug : bool) (ns ms : Z) (k : Knot F), well_sized k ->
  (ns = -1 \/ ns = k_n k) -> (ms = -1 \/ ms = k_m k) ->
  exists k', knot_convert debug ns ms k = Ok k' /\ well_sized k' /\ k_n k' = k_n k /\ k_m k' = k_m k /\ k_ns k' = ns /\ k_ms k' = ms /\
    z_x (k_z k') = z_x (k_z k) /\ z_u (k_z k') = z_u (k_z k) /\ z_t (k_z k') = tof32 (z_t (k_z k)) /\ z_h (k_z k') = tof32 (z_h (k_z k)).
Proof.
  intros F debug ns ms k (A & B & C & D) Hn Hm. unfold knot_convert, scs, altro_assert.
  assert ((debug && (0 <? ns)) && negb (ns =? k_n k) = false) as ->.
  { destruct Hn as [->| ->]; [now rewrite andb_false_r|]. rewrite Z.eqb_refl. now rewrite andb_false_r. }
  assert ((debug && (0 <? ms)) && negb (ms =? k_m k) = false) as ->.
  { destruct Hm as [->| ->]; [now rewrite andb_false_r|]. rewrite Z.eqb_refl. now rewrite andb_false_r. }
  cbn [bind]. rewrite A, B.
  assert (((ns =? -1) || (ns =? k_n k)) && ((ms =? -1) || (ms =? k_m k)) = true) as ->.
  { destruct Hn as [->| ->], Hm as [->| ->]; rewrite ?Z.eqb_refl, ?orb_true_r; reflexivity. }
  eexists. split; [reflexivity|]. unfold well_sized. cbn. repeat split; intros; auto; lia.
Qed.
Theorem C73_assign : forall (F : Scalar) (dst src : Knot F), well_sized src -> k_ns dst = k_ns src -> k_ms dst = k_ms src -> knot_assign dst src = src.
Proof. intros F dst src _ E1 E2. unfold knot_assign. rewrite E1, E2. destruct src; reflexivity. Qed.
(** Moving: the new point equals the old one, and after a move assignment both points are well sized. *)
Theorem C73_move : forall (F : Scalar) (debug : bool) (k : Knot F), well_sized k -> (k_ns k = -1 \/ 0 < k_ns k) -> (k_ms k = -1 \/ 0 < k_ms k) ->
  exists old, knot_move debug k = Ok (k, old) /\ (k_ns k <> -1 -> k_ms k <> -1 -> old = k).
Proof.
  intros F debug k W Hn Hm. pose proof (C73_copy F debug k W Hn Hm) as E. unfold knot_copy in E. unfold knot_move.
  destruct (scs debug (k_ns k) (k_ms k) (k_n k) (k_m k)) as [[n m]| | | | |]; cbn [bind] in E |- *; try discriminate. inversion E as [E'].
  eexists. split; [rewrite !E'; reflexivity|]. intros N M. destruct W as (A & B & C & D). unfold vsize.
  destruct (Z.eqb_spec (k_ns k) (-1)); [easy|]. destruct (Z.eqb_spec (k_ms k) (-1)); [easy|]. specialize (C N). specialize (D M). destruct k; cbn in *. congruence.
Qed.
(** A moved-from point with run-time sizes still reports its old dimensions but its vectors are empty (finding). *)
Theorem C73_moved_from_refuted : exists k k' old : Knot QS, well_sized k /\ knot_move true k = Ok (k', old) /\ ~ well_sized old /\ k_n old = 2 /\ k_xs old = 0.
Proof.
  eexists (mkKnot (-1) (-1) 2 1 2 1 kp_zero), _, _. split; [unfold well_sized; cbn; repeat split; intros; lia|]. split; [reflexivity|].
  split; [|split; reflexivity]. intros (A & _). discriminate.
Qed.
(** A move assignment leaves the moved-from run-time sized point with the target's old vectors but its own dimensions (finding). *)
Theorem C73_move_assign_refuted : exists dst src : Knot QS, well_sized dst /\ well_sized src /\ k_ns dst = k_ns src /\ k_ms dst = k_ms src /\
  fst (knot_move_assign dst src) = src /\ ~ well_sized (snd (knot_move_assign dst src)).
Proof.
  exists (mkKnot (-1) (-1) 3 1 3 1 kp_zero), (mkKnot (-1) (-1) 2 1 2 1 kp_zero). unfold well_sized. cbn. repeat split; intros; try lia.
Qed.
Theorem C73_move_assign : forall (F : Scalar) (dst src : Knot F), well_sized dst -> well_sized src -> k_ns dst = k_ns src -> k_ms dst = k_ms src ->
  fst (knot_move_assign dst src) = src /\
  (k_n dst = k_n src -> k_m dst = k_m src -> well_sized (snd (knot_move_assign dst src))).
Proof.
  intros F dst src (A1 & B1 & C1 & D1) (A2 & B2 & C2 & D2) E1 E2. split; [apply C73_assign; unfold well_sized; auto|].
  intros N M. unfold well_sized. cbn. destruct (Z.eqb_spec (k_ns src) (-1)), (Z.eqb_spec (k_ms src) (-1)); repeat split; intros; auto; try lia; congruence.
Qed.

(** Setters: each changes its own component and nothing else. *)
Theorem C73_setters : forall (F : Scalar) (debug : bool) (k : Knot F) t h,
  (exists k', knot_op debug (KTime t) k = Ok k' /\ k_z k' = mkKP (z_x (k_z k)) (z_u (k_z k)) (tof32 t) (z_h (k_z k)) /\ k_n k' = k_n k /\ k_m k' = k_m k /\ k_xs k' = k_xs k /\ k_us k' = k_us k) /\
  (exists k', knot_op debug (KStep h) k = Ok k' /\ k_z k' = mkKP (z_x (k_z k)) (z_u (k_z k)) (z_t (k_z k)) (tof32 h) /\ k_n k' = k_n k /\ k_m k' = k_m k /\ k_xs k' = k_xs k /\ k_us k' = k_us k) /\
  (exists k', knot_op debug KTerminal k = Ok k' /\ z_x (k_z k') = z_x (k_z k) /\ (forall i, z_u (k_z k') i = zero) /\ z_t (k_z k') = z_t (k_z k) /\ z_h (k_z k') = zero /\
     k_n k' = k_n k /\ k_m k' = k_m k /\ k_xs k' = k_xs k /\ k_us k' = k_us k).
Proof. intros. repeat split; eexists; repeat split. Qed.
(** IsTerminal reports a zero step, exactly. *)
Theorem C73_terminal : forall (F : Scalar) (debug : bool) (k k' : Knot F), (eqb (zero : F) zero = true) -> knot_op debug KTerminal k = Ok k' -> kp_is_terminal (k_z k') = true.
Proof. intros F debug k k' H E. inversion E; subst. exact H. Qed.
Theorem C73_is_terminal : forall z : KP RS, kp_is_terminal z = true <-> (z_h z = 0)%R.
Proof. intros z. unfold kp_is_terminal. apply (Reqb_true (z_h z) 0). Qed.
Theorem C73_step_terminal : forall (debug : bool) (k k' : Knot RS) (h : R), knot_op debug (KStep (F:=RS) h) k = Ok k' -> (kp_is_terminal (k_z k') = true <-> h = 0%R).
Proof. intros debug k k' h E. inversion E; subst. apply C73_is_terminal. Qed.
(** With doubles narrowed to floats a positive step can make a knot point terminal (finding). *)
Theorem C73_small_step_refuted : exists (h : FS) (k k' : Knot FS), ltb zero h = true /\ knot_op true (KStep h) k = Ok k' /\ kp_is_terminal (k_z k') = true.
Proof.
  exists (S754_finite false 4503599627370496 (-212)), (mkKnot (-1) (-1) 0 0 0 0 (mkKP (F:=FS) vzero vzero zero zero)). eexists.
  split; [vm_compute; reflexivity|]. split; [reflexivity|]. vm_compute. reflexivity.
Qed.
(** Any sequence of setter calls whose assigned vectors have the point's dimensions keeps it well sized and succeeds. *)
Definition fits {F} (k : Knot F) (o : kop F) : Prop := match o with KState xs _ => xs = k_n k | KControl us _ => us = k_m k | _ => True end.
Theorem C73_run : forall (F : Scalar) (debug : bool) (os : list (kop F)) (k : Knot F), well_sized k -> Forall (fits k) os ->
  exists k', knot_run debug os k = Ok k' /\ well_sized k' /\ k_n k' = k_n k /\ k_m k' = k_m k /\ k_ns k' = k_ns k /\ k_ms k' = k_ms k.
Proof.
  intros F debug os. induction os as [|o os IH]; intros k W Ha; [exists k; repeat split; try apply W; auto|].
  inversion Ha as [|? ? H1 H2]; subst.
  assert (exists k1, knot_op debug o k = Ok k1 /\ well_sized k1 /\ k_n k1 = k_n k /\ k_m k1 = k_m k /\ k_ns k1 = k_ns k /\ k_ms k1 = k_ms k) as (k1 & E & W1 & A & B & C & D).
  { destruct W as (A & B & C & D). destruct o; cbn in H1 |- *; try (eexists; split; [reflexivity|]; unfold well_sized; cbn; repeat split; auto).
    - subst xs. rewrite A, Z.eqb_refl, orb_true_r. eexists. split; [reflexivity|]. unfold well_sized. cbn. repeat split; auto.
    - subst us. rewrite B, Z.eqb_refl, orb_true_r. eexists. split; [reflexivity|]. unfold well_sized. cbn. repeat split; auto. }
  cbn [knot_run]. rewrite E. cbn [bind]. destruct (IH k1 W1) as (k' & E' & W' & P).
  { eapply Forall_impl; [|exact H2]. intros o' Ho. destruct o'; cbn in *; congruence. }
  exists k'. split; [exact E'|]. split; [exact W'|]. destruct P as (P1 & P2 & P3 & P4). repeat split; congruence.
Qed.
(** GetStateControl: for compile-time sizes the states followed by the controls. *)
Theorem C73_state_control : forall (F : Scalar) (debug : bool) (k : Knot F), well_sized k -> 0 <= k_ns k -> 0 <= k_ms k ->
  exists l, knot_state_control debug k = Ok l /\ Z.of_nat (length l) = k_n k + k_m k /\
    (forall i, (Z.of_nat i < k_n k) -> nth_error l i = Some (z_x (k_z k) i)) /\
    (forall i, (Z.of_nat i < k_m k) -> nth_error l (Z.to_nat (k_n k) + i) = Some (z_u (k_z k) i)).
Proof.
  intros F debug k (A & B & C & D) Hn Hm. unfold knot_state_control, add_sizes.
  destruct (Z.eqb_spec (k_ns k) (-1)); [lia|]. destruct (Z.eqb_spec (k_ms k) (-1)); [lia|]. cbn [orb]. destruct (Z.eqb_spec (k_ns k + k_ms k) (-1)); [lia|].
  pose proof (C ltac:(lia)) as C'. pose proof (D ltac:(lia)) as D'. rewrite A, B. eexists. split; [reflexivity|].
  rewrite app_length, !map_length, !seq_length. split; [lia|]. split; intros i Hi.
  - rewrite nth_error_app1 by (rewrite map_length, seq_length; lia). rewrite (map_nth_error _ i (seq 0 (Z.to_nat (k_n k))) (d := i)); [reflexivity|].
    rewrite (nth_error_nth' _ 0%nat) by (rewrite seq_length; lia). rewrite seq_nth by lia. reflexivity.
  - rewrite nth_error_app2; rewrite map_length, seq_length; [|lia]. replace (Z.to_nat (k_n k) + i - Z.to_nat (k_n k))%nat with i by lia.
    rewrite (map_nth_error _ i (seq 0 (Z.to_nat (k_m k))) (d := i)); [reflexivity|].
    rewrite (nth_error_nth' _ 0%nat) by (rewrite seq_length; lia). rewrite seq_nth by lia. reflexivity.
Qed.
(** For run-time sizes it fails for every non-empty knot point (finding). *)
Theorem C73_state_control_refuted : forall (F : Scalar) (k : Knot F), well_sized k -> 0 <= k_n k -> 0 <= k_m k -> 0 < k_n k + k_m k ->
  (k_ns k = -1 \/ k_ms k = -1) -> knot_state_control true k = Abort /\ knot_state_control false k = UB.
Proof.
  intros F k (A & B & C & D) Hn Hm Hp Hd. unfold knot_state_control, add_sizes.
  assert ((k_ns k =? -1) || (k_ms k =? -1) = true) as ->. { destruct Hd as [->| ->]; rewrite ?orb_true_r; reflexivity. }
  cbn [Z.eqb]. rewrite A, B. change (-1 =? -1) with true. cbn iota.
  destruct (_ ++ _) as [|y l] eqn:E; [|split; reflexivity].
  exfalso. apply (f_equal (@length _)) in E. rewrite app_length, !map_length, !seq_length in E. cbn in E. lia.
Qed.
(** In a build without checks a run-time length that differs from the compile-time size is stored as the dimension (finding). *)
Theorem C73_release_sizes_refuted : exists k : Knot QS, knot_sized false 3 2 5 2 = Ok k /\ ~ well_sized k /\ knot_sized true 3 2 5 2 = (Abort : res (Knot QS)).
Proof. eexists. split; [reflexivity|]. split; [|reflexivity]. intros (A & _). discriminate. Qed.

Example C73_example : exists k k' : Knot QS,
  knot_make (F:=QS) true 2 (-1) 2 1 (fun i => match i with O => 5%Q | _ => 7%Q end) (fun _ => 9%Q) (1%Q : T QS) (2%Q : T QS) = Ok k /\ well_sized k /\
  knot_convert true (-1) 1 k = Ok k' /\ k_n k' = 2 /\ well_sized k' /\
  knot_state_control true k' = Abort /\ knot_state_control true (mkKnot 2 1 2 1 2 1 (k_z k)) = Ok [5%Q; 7%Q; 9%Q] /\
  Forall (fits k) [KTime (1%Q : T QS); KState (F:=QS) 2 vzero; KTerminal].
Proof.
  eexists _, _. split; [reflexivity|]. split; [unfold well_sized; cbn; repeat split; intros; lia|]. split; [reflexivity|]. split; [reflexivity|].
  split; [unfold well_sized; cbn; repeat split; intros; lia|]. split; [reflexivity|]. split; [reflexivity|]. repeat constructor.
Qed.
Print Assumptions C73_construct.
Print Assumptions C73_construct_refuses.
Print Assumptions C73_sized.
Print Assumptions C73_copy.
Print Assumptions C73_convert.
Print Assumptions C73_assign.
Print Assumptions C73_move.
Print Assumptions C73_moved_from_refuted.
Print Assumptions C73_move_assign_refuted.
Print Assumptions C73_move_assign.
Print Assumptions C73_setters.
Print Assumptions C73_terminal.
Print Assumptions C73_is_terminal.
Print Assumptions C73_step_terminal.
Print Assumptions C73_small_step_refuted.
Print Assumptions C73_run.
Print Assumptions C73_state_control.
Print Assumptions C73_state_control_refuted.
Print Assumptions C73_release_sizes_refuted.
Print Assumptions C73_default.
