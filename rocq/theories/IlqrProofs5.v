(** Order facts about the arithmetics; regularisation; termination of the backward pass; expected decrease. *)
From Coq Require Import ZArith Reals Lra Lia String List Bool Psatz.
From Coq Require Import Floats.SpecFloat.
From Verif Require Import Base Lin RLin LogModel StatsModel TrajModel IlqrModel IlqrSpec IlqrFrame.
Import ListNotations.

(** ** [<] of the three arithmetics *)
Definition lt_order (F : Scalar) : Prop :=
  (forall a : F, ltb a a = false) /\ (forall a b : F, ltb a b = true -> ltb b a = false) /\
  (forall a b c : F, ltb a b = true -> ltb b c = true -> ltb a c = true).
Lemma RS_lt_order : lt_order RS.
Proof.
  split; [|split].
  - intros a. apply Rltb_false. simpl; lra.
  - intros a b H. apply Rltb_true in H. apply Rltb_false. simpl in *; lra.
  - intros a b c H1 H2. apply Rltb_true in H1, H2. apply Rltb_true. simpl in *; lra.
Qed.
Lemma pos_cmp_irr m : Pos.compare_cont Eq m m = Eq.
Proof. apply Pos.compare_cont_refl. Qed.
Lemma FS_ltb_lt a b : @ltb FS a b = true <-> SFcompare a b = Some Lt.
Proof. cbn. unfold SFltb. destruct (SFcompare a b) as [[]|]; split; congruence. Qed.
(** the comparison as a lexicographic order on a key *)
Definition fkey (x : spec_float) : option (Z * Z * Z) :=
  match x with
  | S754_nan => None
  | S754_infinity true => Some (-2, 0, 0)%Z
  | S754_finite true m e => Some (-1, -e, Z.neg m)%Z
  | S754_zero _ => Some (0, 0, 0)%Z
  | S754_finite false m e => Some (1, e, Z.pos m)%Z
  | S754_infinity false => Some (2, 0, 0)%Z
  end.
Definition klt (a b : Z * Z * Z) : Prop :=
  let '(a1, a2, a3) := a in let '(b1, b2, b3) := b in
  (a1 < b1 \/ (a1 = b1 /\ (a2 < b2 \/ (a2 = b2 /\ a3 < b3))))%Z.
Lemma FS_lt_key a b : @ltb FS a b = true <-> match fkey a, fkey b with Some x, Some y => klt x y | _, _ => False end.
Proof.
  rewrite FS_ltb_lt.
  assert (Hc : forall p q, Pos.compare_cont Eq p q = Lt <-> (p < q)%positive) by (intros; rewrite <- Pos.compare_lt_iff; reflexivity).
  destruct a as [[]|[]| |[] ma ea], b as [[]|[]| |[] mb eb]; cbn [SFcompare fkey klt]; split; try discriminate; try lia; try (intros; reflexivity).
  - destruct (Z.compare_spec ea eb); try discriminate; try lia.
    change (Pos.compare_cont Eq ma mb) with (Pos.compare ma mb). destruct (Pos.compare_spec ma mb); try discriminate; simpl; try lia.
  - destruct (Z.compare_spec ea eb); try lia; try reflexivity.
    change (Pos.compare_cont Eq ma mb) with (Pos.compare ma mb). destruct (Pos.compare_spec ma mb); simpl; try lia; reflexivity.
  - destruct (Z.compare_spec ea eb); try discriminate; try lia.
    change (Pos.compare_cont Eq ma mb) with (Pos.compare ma mb). destruct (Pos.compare_spec ma mb); try discriminate; simpl; try lia.
  - destruct (Z.compare_spec ea eb); try lia; try reflexivity.
    change (Pos.compare_cont Eq ma mb) with (Pos.compare ma mb). destruct (Pos.compare_spec ma mb); simpl; try lia; reflexivity.
Qed.
Lemma klt_irr a : ~ klt a a. Proof. destruct a as [[? ?] ?]; unfold klt; lia. Qed.
Lemma klt_trans a b c : klt a b -> klt b c -> klt a c.
Proof. destruct a as [[? ?] ?], b as [[? ?] ?], c as [[? ?] ?]; unfold klt; lia. Qed.
Lemma FS_lt_order : lt_order FS.
Proof.
  assert (Ht : forall a b c : FS, ltb a b = true -> ltb b c = true -> ltb a c = true).
  { intros a b c H1 H2. apply FS_lt_key in H1, H2. apply FS_lt_key. destruct (fkey a), (fkey b), (fkey c); try easy. eapply klt_trans; eauto. }
  assert (Hi : forall a : FS, ltb a a = false).
  { intros a. destruct (ltb a a) eqn:E; auto. apply FS_lt_key in E. destruct (fkey a); [|easy]. now apply klt_irr in E. }
  split; [exact Hi|]. split; [|exact Ht]. intros a b H. destruct (ltb b a) eqn:E; auto.
  pose proof (Ht _ _ _ H E) as H'. rewrite Hi in H'. discriminate.
Qed.
Lemma FS_lt_not_nan (a b : FS) : ltb a b = true -> is_nan a = false /\ is_nan b = false.
Proof. intros H. apply FS_lt_key in H. destruct a as [[]|[]| |[] ? ?], b as [[]|[]| |[] ? ?]; simpl in *; try contradiction; auto. Qed.

(** ** regularisation (real arithmetic) *)
Section Reg.
Local Open Scope R_scope.
Context {CS : Type}.
Notation ILQR := (ILQR RS CS).
Definition reg_ok (o : Opts RS) : Prop := (1 < o_reg_factor o)%R /\ (o_reg_min o <= o_reg_max o)%R.

Lemma increase_range (s : ILQR) : reg_ok (il_opts s) ->
  (o_reg_min (il_opts s) <= il_rho (il_increase_reg s) <= o_reg_max (il_opts s))%R /\
  (o_reg_factor (il_opts s) <= il_drho (il_increase_reg s))%R /\
  il_opts (il_increase_reg s) = il_opts s.
Proof.
  intros [H1 H2]. cbn. rewrite !smin_RS, !smax_RS. unfold Rmin, Rmax. rs.
  repeat destruct (Rle_dec _ _); repeat split; lra.
Qed.
Lemma decrease_range (s : ILQR) : reg_ok (il_opts s) ->
  (o_reg_min (il_opts s) <= il_rho (il_decrease_reg s) <= o_reg_max (il_opts s))%R /\
  (il_drho (il_decrease_reg s) <= / o_reg_factor (il_opts s))%R /\
  il_opts (il_decrease_reg s) = il_opts s.
Proof.
  intros [H1 H2]. cbn. rewrite !smin_RS, !smax_RS. unfold Rmin, Rmax. rs. unfold Rdiv.
  repeat destruct (Rle_dec _ _); repeat split; lra.
Qed.
Lemma increase_mono (s : ILQR) : reg_ok (il_opts s) -> (0 <= il_rho s <= o_reg_max (il_opts s))%R ->
  (il_rho s <= il_rho (il_increase_reg s))%R /\
  (Rmin (il_rho s * o_reg_factor (il_opts s)) (o_reg_max (il_opts s)) <= il_rho (il_increase_reg s))%R.
Proof.
  intros [H1 H2] H3. cbn. rewrite !smin_RS, !smax_RS. rs.
  set (f := o_reg_factor (il_opts s)) in *. set (d := Rmax (il_drho s * f) f).
  assert (Hd : f <= d) by apply Rmax_r. set (r := il_rho s) in *.
  assert (r * f <= r * d) by (apply Rmult_le_compat_l; lra). assert (r <= r * f) by nra.
  unfold Rmin, Rmax. repeat destruct (Rle_dec _ _); split; lra.
Qed.
Lemma decrease_mono (s : ILQR) : reg_ok (il_opts s) -> (0 <= il_rho s)%R ->
  (il_rho (il_decrease_reg s) <= Rmax (il_rho s) (o_reg_min (il_opts s)))%R.
Proof.
  intros [H1 H2] H3. cbn. rewrite !smin_RS, !smax_RS. rs.
  set (f := o_reg_factor (il_opts s)) in *. set (d := Rmin (il_drho s / f) (1 / f)).
  assert (Hd : d <= 1).
  { unfold d. eapply Rle_trans; [apply Rmin_r|]. unfold Rdiv. rewrite Rmult_1_l. rewrite <- Rinv_1. apply Rinv_le_contravar; lra. }
  set (r := il_rho s) in *. assert (r * d <= r) by nra.
  unfold Rmin, Rmax. repeat destruct (Rle_dec _ _); lra.
Qed.

(** any history of increases and decreases *)
Fixpoint reg_history (h : list bool) (s : ILQR) : ILQR :=
  match h with [] => s | b :: r => reg_history r (if b then il_increase_reg s else il_decrease_reg s) end.
Lemma history_opts h : forall s : ILQR, il_opts (reg_history h s) = il_opts s.
Proof. induction h as [|[] h IH]; intros s; simpl; auto; now rewrite IH. Qed.
Lemma history_snoc h b : forall s : ILQR, reg_history (h ++ [b]) s = (if b then il_increase_reg (reg_history h s) else il_decrease_reg (reg_history h s)).
Proof. induction h as [|c h IH]; intros s; simpl; auto. Qed.
Lemma history_range h (s : ILQR) : reg_ok (il_opts s) -> h <> [] ->
  (o_reg_min (il_opts s) <= il_rho (reg_history h s) <= o_reg_max (il_opts s))%R.
Proof.
  intros Ho Hh. destruct h as [|b h] using rev_ind; [easy|]. rewrite history_snoc. rewrite <- (history_opts h s) in *.
  destruct b; [apply increase_range|apply decrease_range]; auto.
Qed.

(** ** the backward pass terminates *)
Context (n m : nat).
Lemma loop_at_max kN : forall c fuel cnt (s : ILQR), reg_ok (il_opts s) -> (0 < o_reg_min (il_opts s))%R -> (1 <= il_N s)%nat ->
  il_rho s = o_reg_max (il_opts s) -> (o_reg_fail (il_opts s) - cnt <= Z.of_nat c)%Z -> (c < fuel)%nat ->
  exists s', bp_loop n m fuel kN cnt s = Ok s'.
Proof.
  induction c as [|c IH]; intros fuel cnt s Ho Hm HN Hr Hc Hf; destruct fuel as [|fuel]; try lia; cbn [bp_loop].
  - set (w := bp_sweep _ _ _ _ _ _ _ _). destruct (sw_ok w); [destruct (il_N s); [lia|eauto]|].
    set (s1 := il_set_dV _ _ _). assert (Ho1 : il_opts s1 = il_opts s) by reflexivity.
    destruct (increase_range s1 ltac:(rewrite Ho1; exact Ho)) as (A & B & C). rewrite Ho1 in *.
    destruct (increase_mono s1) as [D _]; [rewrite Ho1; exact Ho|rewrite Ho1; change (il_rho s1) with (il_rho s); rewrite Hr; destruct Ho; lra|].
    change (il_rho s1) with (il_rho s) in D. rewrite C.
    assert (E : leb (o_reg_max (il_opts s)) (il_rho (il_increase_reg s1)) = true) by (apply Rleb_true; lra).
    rewrite E. destruct (Z.leb_spec (o_reg_fail (il_opts s)) (cnt + 1)); [eauto|lia].
  - set (w := bp_sweep _ _ _ _ _ _ _ _). destruct (sw_ok w); [destruct (il_N s); [lia|eauto]|].
    set (s1 := il_set_dV _ _ _). assert (Ho1 : il_opts s1 = il_opts s) by reflexivity.
    destruct (increase_range s1 ltac:(rewrite Ho1; exact Ho)) as (A & B & C). rewrite Ho1 in *.
    destruct (increase_mono s1) as [D _]; [rewrite Ho1; exact Ho|rewrite Ho1; change (il_rho s1) with (il_rho s); rewrite Hr; destruct Ho; lra|].
    change (il_rho s1) with (il_rho s) in D. rewrite C.
    assert (E : leb (o_reg_max (il_opts s)) (il_rho (il_increase_reg s1)) = true) by (apply Rleb_true; lra).
    rewrite E. destruct (Z.leb_spec (o_reg_fail (il_opts s)) (cnt + 1)); [eauto|].
    apply IH; rewrite ?C; auto; try lia; try lra.
Qed.
Lemma loop_below kN : forall k c fuel cnt (s : ILQR), reg_ok (il_opts s) -> (0 < o_reg_min (il_opts s))%R -> (1 <= il_N s)%nat ->
  (o_reg_min (il_opts s) <= il_rho s <= o_reg_max (il_opts s))%R -> (o_reg_max (il_opts s) <= il_rho s * o_reg_factor (il_opts s) ^ k)%R ->
  (o_reg_fail (il_opts s) - cnt <= Z.of_nat c)%Z -> (c + k < fuel)%nat ->
  exists s', bp_loop n m fuel kN cnt s = Ok s'.
Proof.
  induction k as [|k IH]; intros c fuel cnt s Ho Hm HN Hr Hk Hc Hf.
  - simpl in Hk. apply (loop_at_max kN c); auto; try lia. lra.
  - destruct fuel as [|fuel]; [lia|]. cbn [bp_loop].
    set (w := bp_sweep _ _ _ _ _ _ _ _). destruct (sw_ok w); [destruct (il_N s); [lia|eauto]|].
    set (s1 := il_set_dV _ _ _). assert (Ho1 : il_opts s1 = il_opts s) by reflexivity.
    destruct (increase_range s1 ltac:(rewrite Ho1; exact Ho)) as (A & B & C). rewrite Ho1 in *.
    destruct (increase_mono s1) as [D D']; [rewrite Ho1; exact Ho|rewrite Ho1; change (il_rho s1) with (il_rho s); lra|].
    change (il_rho s1) with (il_rho s) in D, D'. rewrite Ho1 in D'. rewrite C.
    set (cnt' := if leb _ _ then _ else _).
    assert (Hcnt : (cnt <= cnt')%Z) by (unfold cnt'; destruct (leb _ _); lia).
    destruct (Z.leb_spec (o_reg_fail (il_opts s)) cnt'); [eauto|].
    apply (IH c); rewrite ?C; auto; try lia; try lra.
    unfold Rmin in D'. set (f := o_reg_factor (il_opts s)) in *.
    assert (Hf1 : 1 <= f ^ k) by (apply pow_R1_Rle; destruct Ho; unfold f; lra).
    destruct (Rle_dec (il_rho s * f) (o_reg_max (il_opts s))).
    + simpl in Hk. nra.
    + nra.
Qed.
Lemma loop_terminates kN (s : ILQR) cnt : reg_ok (il_opts s) -> (0 < o_reg_min (il_opts s))%R -> (1 <= il_N s)%nat ->
  exists fuel, forall fuel', (fuel <= fuel')%nat -> exists s', bp_loop n m fuel' kN cnt s = Ok s'.
Proof.
  intros Ho Hm HN.
  set (o := il_opts s) in *.
  assert (Hk : exists k, (o_reg_max o <= o_reg_min o * o_reg_factor o ^ k)%R).
  { destruct (Pow_x_infinity (o_reg_factor o)) with (b := (o_reg_max o / o_reg_min o)%R) as [N HNN].
    - destruct Ho. rewrite Rabs_right; lra.
    - exists N. specialize (HNN N (le_n _)). destruct Ho as [Ho1 Ho2].
      rewrite Rabs_right in HNN; [|apply Rle_ge; apply pow_le; lra].
      apply Rmult_le_reg_l with (r := (/ o_reg_min o)%R); [apply Rinv_0_lt_compat; lra|].
      rewrite <- Rmult_assoc, Rinv_l by lra. rewrite Rmult_1_l. unfold Rdiv in HNN. rewrite Rmult_comm. lra. }
  destruct Hk as [k Hk]. exists (S (S (Z.to_nat (o_reg_fail o - cnt) + k)))%nat.
  intros [|fuel] Hf; [lia|]. cbn [bp_loop].
  set (w := bp_sweep _ _ _ _ _ _ _ _). destruct (sw_ok w); [destruct (il_N s); [lia|eauto]|].
  set (s1 := il_set_dV _ _ _). assert (Ho1 : il_opts s1 = il_opts s) by reflexivity.
  destruct (increase_range s1 ltac:(rewrite Ho1; exact Ho)) as (A & B & C). rewrite Ho1 in *.
  rewrite C. set (cnt' := if leb _ _ then _ else _).
  assert (Hcnt : (cnt <= cnt')%Z) by (unfold cnt'; destruct (leb _ _); lia).
  destruct (Z.leb_spec (o_reg_fail (il_opts s)) cnt'); [eauto|].
  apply (loop_below kN k (Z.to_nat (o_reg_fail o - cnt'))); rewrite ?C; auto; fold o in A |- *; try lia; try lra.
  assert (0 < o_reg_factor o ^ k) by (apply pow_lt; destruct Ho; lra). nra.
Qed.
Theorem backward_terminates (s : ILQR) : reg_ok (il_opts s) -> (0 < o_reg_min (il_opts s))%R -> (1 <= il_N s)%nat ->
  length (il_kps s) = S (il_N s) ->
  exists fuel, forall fuel', (fuel <= fuel')%nat -> exists s', il_backward_pass n m fuel' s = Ok s'.
Proof.
  intros Ho Hm HN Hl. unfold il_backward_pass.
  destruct (nth_error (il_kps s) (il_N s)) as [k0|] eqn:E; [|apply nth_error_None in E; lia].
  set (s1 := il_set_dV _ _ _). destruct (loop_terminates (kpf_terminal k0) s1 0%Z) as [fuel Hf]; auto.
  exists fuel. intros fuel' H. destruct (Hf fuel' H) as [s2 E2]. exists (il_decrease_reg (il_set_stats s2 (st_logF "reg" (il_rho s2) (il_stats s2)))).
  rewrite E2. reflexivity.
Qed.
End Reg.

(** with no segments the loop never ends *)
Lemma backward_empty {F : Scalar} {CS} n m fuel (s : ILQR F CS) : il_N s = 0%nat -> length (il_kps s) = 1%nat ->
  il_backward_pass n m fuel s = Fuel.
Proof.
  intros HN Hl. unfold il_backward_pass. rewrite HN.
  destruct (il_kps s) as [|k0 l]; [discriminate|]. cbn [nth_error].
  set (s1 := il_set_dV _ _ _).
  assert (H : forall f cnt (s : ILQR F CS), il_N s = 0%nat -> bp_loop n m f (kpf_terminal k0) cnt s = Fuel).
  { clear. induction f as [|f IH]; intros cnt s HN; [reflexivity|]. cbn [bp_loop]. rewrite HN. cbn [firstn bp_sweep sw_ok].
    apply IH. exact HN. }
  rewrite H; auto.
Qed.

(** ** expected decrease *)
Section Expected.
Context {F : Scalar} {CS : Type} (n m : nat).
Lemma sweep_dv rho (kps : list (KPF F CS)) : forall S s v0 v1, sw_ok (bp_sweep n m rho kps S s v0 v1) = true ->
  let w := bp_sweep n m rho kps S s v0 v1 in
  sw_v0 w = fold_right (fun k a => add a (kp_dv0 k)) v0 (sw_kps w) /\
  sw_v1 w = fold_right (fun k a => add a (kp_dv1 k)) v1 (sw_kps w).
Proof.
  induction kps as [|k kps IH]; intros S s v0 v1; cbn [bp_sweep]; cbv zeta; [auto|].
  specialize (IH S s v0 v1). cbv zeta in IH. destruct (bp_sweep n m rho kps S s v0 v1) as [ok ks S' s' w0 w1]. cbn [sw_ok sw_S sw_s sw_kps sw_v0 sw_v1] in *.
  destruct ok; [|discriminate]. specialize (IH eq_refl). destruct IH as [-> ->].
  destruct (kpf_gains n m _) as [k2|]; cbn [sw_ok]; [|discriminate]. intros _. cbn [sw_v0 sw_v1 sw_kps fold_right]. auto.
Qed.
Lemma sweep_len rho (kps : list (KPF F CS)) : forall S s v0 v1, length (sw_kps (bp_sweep n m rho kps S s v0 v1)) = length kps.
Proof.
  induction kps as [|k kps IH]; intros S s v0 v1; cbn [bp_sweep]; [auto|]. specialize (IH S s v0 v1).
  destruct (bp_sweep n m rho kps S s v0 v1) as [ok ks S' s' w0 w1]. cbn [sw_ok sw_S sw_s sw_kps sw_v0 sw_v1] in *.
  destruct ok; [|simpl; lia]. destruct (kpf_gains n m _); simpl; lia.
Qed.
Theorem expected_no_restart (s s' : ILQR F CS) : length (il_kps s) = S (il_N s) ->
  il_backward_pass n m 1 s = Ok s' -> il_status s' <> kBackwardPassRegularizationFailed ->
  let ks := firstn (il_N s') (il_kps s') in
  il_dV0 s' = fold_right (fun k a => add a (kp_dv0 k)) zero ks /\
  il_dV1 s' = fold_right (fun k a => add a (kp_dv1 k)) zero ks.
Proof.
  intros Hl E Hs. unfold il_backward_pass in E. destruct (nth_error (il_kps s) (il_N s)) as [k0|] eqn:Ek; [|discriminate].
  set (s1 := il_set_dV _ _ _) in E. cbn [bp_loop] in E.
  set (w := bp_sweep n m (il_rho s1) (firstn (il_N s1) (il_kps s1)) (kp_S (kpf_terminal k0)) (kp_s (kpf_terminal k0)) (il_dV0 s1) (il_dV1 s1)) in E.
  assert (Hlw : length (sw_kps w) = il_N s).
  { unfold w. rewrite sweep_len. cbn [s1 il_set_dV il_set_kps il_N il_kps]. rewrite firstn_length_le; auto.
    rewrite app_length, firstn_length_le by lia. simpl; lia. }
  destruct (sw_ok w) eqn:Ew.
  - change (il_N s1) with (il_N s) in E. destruct (il_N s) eqn:EN; [discriminate|]. cbn [bind] in E. inversion E; subst s'; clear E.
    cbv zeta. cbn [il_decrease_reg il_set_reg il_set_stats il_set_dV il_set_kps il_N il_kps il_dV0 il_dV1].
    change (il_N s1) with (il_N s). rewrite EN. rewrite <- Hlw. rewrite firstn_app, Nat.sub_diag, firstn_all, app_nil_r.
    apply (sweep_dv _ _ _ _ _ _ Ew).
  - destruct (o_reg_fail _ <=? _)%Z in E; cbn [bind] in E; [|discriminate]. inversion E; subst s'. exfalso. apply Hs. reflexivity.
Qed.
End Expected.
