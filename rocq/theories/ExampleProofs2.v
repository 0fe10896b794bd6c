(** ControlBound, goal and circle constraints. *)
From Coq Require Import Reals Lra Lia List Bool ZArith Permutation.
From Coquelicot Require Import Coquelicot.
From Verif Require Import Base Lin RLin RDer ConModel ConSpec ConProofs IlqrModel DynModel DynSpec ExampleModel ExampleSpec.
Import List ListNotations.
Local Open Scope nat_scope.

Section CB.
Context {F : Scalar} (dmax inf : F).
Notation fin := (fun v => ltb (sabs v) dmax).
Lemma finite_from_in b : forall i j, In j (finite_from dmax i b) <-> i <= j /\ exists v, nth_error b (j - i) = Some v /\ fin v = true.
Proof.
  induction b as [|v b IH]; intros i j.
  - split; [intros []|]. intros (_ & v & H & _). destruct (j - i); discriminate.
  - cbn [finite_from].
    assert (E : In j (finite_from dmax (S i) b) <-> i < j /\ exists w, nth_error (v :: b) (j - i) = Some w /\ fin w = true).
    { rewrite IH. split; intros (H & w & Hw); (split; [lia|]); exists w; destruct (j - i) as [|k] eqn:Ek; try lia; cbn [nth_error];
        [replace (j - S i) with k in Hw by lia; exact Hw|replace (j - S i) with k by lia; exact Hw]. }
    destruct (ltb (sabs v) dmax) eqn:Ev.
    + cbn [In]. rewrite E. split.
      * intros [<-|H]; [|destruct H as (H & w); split; [lia|exact w]]. split; [lia|]. exists v. rewrite Nat.sub_diag. auto.
      * intros (H & w & Hw & Hf). destruct (Nat.eq_dec i j) as [->|Hne]; [auto|]. right. split; [lia|]. exists w. auto.
    + rewrite E. split; [intros (H & w); split; [lia|exact w]|]. intros (H & w & Hw & Hf). split; [|exists w; auto].
      destruct (Nat.eq_dec i j) as [->|Hne]; [|lia]. rewrite Nat.sub_diag in Hw. injection Hw as <-. congruence.
Qed.
Lemma finite_in b j : In j (finite_indices dmax b) <-> exists v, counts dmax b j v.
Proof. unfold finite_indices. rewrite finite_from_in, Nat.sub_0_r. split; [intros (_ & H); exact H|intros H; split; [lia|exact H]]. Qed.
Lemma finite_length b : forall i, length (finite_from dmax i b) = length (filter fin b).
Proof. induction b as [|v b IH]; intros i; [reflexivity|]. cbn [finite_from filter]. destruct (ltb (sabs v) dmax); cbn [length]; rewrite IH; reflexivity. Qed.
Lemma finite_nodup b : forall i, NoDup (finite_from dmax i b).
Proof.
  induction b as [|v b IH]; intros i; [constructor|]. cbn [finite_from]. destruct (ltb (sabs v) dmax); [|apply IH].
  constructor; [|apply IH]. rewrite finite_from_in. lia.
Qed.
Lemma finite_bound b j : In j (finite_indices dmax b) -> j < length b.
Proof. rewrite finite_in. intros (v & H & _). apply nth_error_Some. congruence. Qed.

(** the invariant of every reachable object *)
Record cb_inv (s : CB F) : Prop := {
  ci_lo : length (cb_lo s) = cb_m s; ci_hi : length (cb_hi s) = cb_m s;
  ci_il : cb_il s = finite_indices dmax (cb_lo s); ci_iu : cb_iu s = finite_indices dmax (cb_hi s) }.
Lemma finite_repeat v n : fin v = false -> finite_indices dmax (repeat v n) = [].
Proof. intros H. unfold finite_indices. generalize 0. induction n as [|n IH]; intros i; [reflexivity|]. cbn [repeat finite_from]. rewrite H. apply IH. Qed.
Lemma cb_reach_inv debug s : fin inf = false -> fin (opp inf) = false -> cb_reach dmax inf debug s -> cb_inv s.
Proof.
  intros Hi Hni H.
  assert (HA : forall (A : Type) c (k : res A) r, bind (altro_assert debug c) (fun _ => k) = Ok r -> (debug = true -> c = true) /\ k = Ok r).
  { intros A c k r E. unfold altro_assert in E. destruct debug, c; cbn in E; try discriminate E; (split; [intros; try discriminate; reflexivity|exact E]). }
  induction H as [m|lb ub s Hd E|ub s s' H IH Hd E|lb s s' H IH Hd E].
  - split; cbn [cb_free cb_lo cb_hi cb_m cb_il cb_iu]; rewrite ?repeat_length; auto; symmetry; apply finite_repeat; auto.
  - unfold cb_make, cb_validate in E. apply HA in E. destruct E as [E1 E]. apply HA in E. destruct E as [_ E]. apply HA in E. destruct E as [_ E].
    injection E as <-. split; cbn [cb_lo cb_hi cb_m cb_il cb_iu]; auto. destruct Hd as [Hd|Hd]; [|auto]. apply E1 in Hd. apply Nat.eqb_eq in Hd. auto.
  - unfold cb_set_upper, cb_validate in E. apply HA in E. destruct E as [E1 E]. apply HA in E. destruct E as [_ E]. injection E as <-.
    destruct IH as [H1 H2 H3 H4]. split; cbn [cb_lo cb_hi cb_m cb_il cb_iu]; auto. destruct Hd as [Hd|Hd]; [|auto]. apply E1 in Hd. apply Nat.eqb_eq in Hd. auto.
  - unfold cb_set_lower, cb_validate in E. apply HA in E. destruct E as [E1 E]. apply HA in E. destruct E as [_ E]. injection E as <-.
    destruct IH as [H1 H2 H3 H4]. split; cbn [cb_lo cb_hi cb_m cb_il cb_iu]; auto. destruct Hd as [Hd|Hd]; [|auto]. apply E1 in Hd. apply Nat.eqb_eq in Hd. auto.
Qed.

(** Evaluate *)
Lemma eval_lo_spec lo (u : vec F) idx : (forall j, In j idx -> j < length lo) -> forall i c, exists c', cb_eval_lo lo u i idx c = Ok c' /\
  forall k, c' k = if (Nat.leb i k && Nat.ltb k (i + length idx))%bool then sub (nth (nth (k - i) idx 0) lo zero) (u (nth (k - i) idx 0)) else c k.
Proof.
  induction idx as [|j idx IH]; intros H i c.
  - exists c. split; [reflexivity|]. intros k. cbn [length]. replace (Nat.leb i k && Nat.ltb k (i + 0))%bool with false; [reflexivity|].
    symmetry. apply andb_false_iff. destruct (Nat.leb_spec i k); auto. right. apply Nat.ltb_ge. lia.
  - cbn [cb_eval_lo]. destruct (nth_error lo j) as [l|] eqn:El; [|apply nth_error_None in El; specialize (H j (or_introl eq_refl)); lia].
    destruct (IH (fun j' Hj => H j' (or_intror Hj)) (S i) (vset c i (sub l (u j)))) as (c' & E & Ec). exists c'. split; [exact E|].
    intros k. rewrite Ec. unfold vset. cbn [length].
    destruct (Nat.leb_spec (S i) k), (Nat.ltb_spec k (S i + length idx)), (Nat.leb_spec i k), (Nat.ltb_spec k (i + S (length idx))); try lia; cbn [andb];
      destruct (Nat.eqb_spec k i); try lia; auto.
    + replace (k - i) with (S (k - S i)) by lia. reflexivity.
    + subst k. rewrite Nat.sub_diag. cbn [nth]. rewrite (nth_error_nth lo j zero El). reflexivity.
Qed.
Lemma eval_hi_spec hi (u : vec F) idx : (forall j, In j idx -> j < length hi) -> forall i c, exists c', cb_eval_hi hi u i idx c = Ok c' /\
  forall k, c' k = if (Nat.leb i k && Nat.ltb k (i + length idx))%bool then sub (u (nth (k - i) idx 0)) (nth (nth (k - i) idx 0) hi zero) else c k.
Proof.
  induction idx as [|j idx IH]; intros H i c.
  - exists c. split; [reflexivity|]. intros k. cbn [length]. replace (Nat.leb i k && Nat.ltb k (i + 0))%bool with false; [reflexivity|].
    symmetry. apply andb_false_iff. destruct (Nat.leb_spec i k); auto. right. apply Nat.ltb_ge. lia.
  - cbn [cb_eval_hi]. destruct (nth_error hi j) as [l|] eqn:El; [|apply nth_error_None in El; specialize (H j (or_introl eq_refl)); lia].
    destruct (IH (fun j' Hj => H j' (or_intror Hj)) (S i) (vset c i (sub (u j) l))) as (c' & E & Ec). exists c'. split; [exact E|].
    intros k. rewrite Ec. unfold vset. cbn [length].
    destruct (Nat.leb_spec (S i) k), (Nat.ltb_spec k (S i + length idx)), (Nat.leb_spec i k), (Nat.ltb_spec k (i + S (length idx))); try lia; cbn [andb];
      destruct (Nat.eqb_spec k i); try lia; auto.
    + replace (k - i) with (S (k - S i)) by lia. reflexivity.
    + subst k. rewrite Nat.sub_diag. cbn [nth]. rewrite (nth_error_nth hi j zero El). reflexivity.
Qed.
Definition cb_val (s : CB F) (u : vec F) (k : nat) : F :=
  if Nat.ltb k (length (cb_il s)) then sub (nth (nth k (cb_il s) 0) (cb_lo s) zero) (u (nth k (cb_il s) 0))
  else let j := nth (k - length (cb_il s)) (cb_iu s) 0 in sub (u j) (nth j (cb_hi s) zero).
Lemma cb_eval_spec s u c : cb_inv s -> exists c', cb_eval s u c = Ok c' /\ forall k, k < cb_dim s -> c' k = cb_val s u k.
Proof.
  intros [H1 H2 H3 H4].
  destruct (eval_lo_spec (cb_lo s) u (cb_il s)) with (i := 0) (c := c) as (c1 & E1 & V1).
  { intros j Hj. rewrite H3 in Hj. apply finite_bound in Hj. auto. }
  destruct (eval_hi_spec (cb_hi s) u (cb_iu s)) with (i := length (cb_il s)) (c := c1) as (c2 & E2 & V2).
  { intros j Hj. rewrite H4 in Hj. apply finite_bound in Hj. auto. }
  exists c2. split; [unfold cb_eval; rewrite E1; exact E2|]. intros k Hk. rewrite V2, V1. unfold cb_val, cb_dim in *. rewrite Nat.sub_0_r.
  destruct (Nat.leb_spec (length (cb_il s)) k), (Nat.ltb_spec k (length (cb_il s) + length (cb_iu s))), (Nat.ltb_spec k (length (cb_il s))); try lia; cbn [andb]; auto.
  cbn [Nat.leb andb]. destruct (Nat.ltb_spec k (0 + length (cb_il s))); [reflexivity|lia].
Qed.
(** Jacobian *)
Lemma jac_rows_spec n (a : F) idx : forall i jac r c, cb_jac_rows n a i idx jac r c =
  if (Nat.leb i r && Nat.ltb r (i + length idx) && Nat.eqb c (n + nth (r - i) idx 0))%bool then a else jac r c.
Proof.
  induction idx as [|j idx IH]; intros i jac r c.
  - cbn [length]. replace (Nat.leb i r && Nat.ltb r (i + 0))%bool with false; [reflexivity|].
    symmetry. apply andb_false_iff. destruct (Nat.leb_spec i r); auto. right. apply Nat.ltb_ge. lia.
  - cbn [cb_jac_rows]. rewrite IH. unfold mset. cbn [length].
    destruct (Nat.leb_spec (S i) r), (Nat.ltb_spec r (S i + length idx)), (Nat.leb_spec i r), (Nat.ltb_spec r (i + S (length idx))); try lia; cbn [andb];
      destruct (Nat.eqb_spec r i); try lia; auto.
    + replace (r - i) with (S (r - S i)) by lia. reflexivity.
    + subst r. rewrite Nat.sub_diag. cbn [nth andb]. reflexivity.
Qed.
Lemma cb_jac_spec n (s : CB F) jac r c : r < cb_dim s -> cb_jac n s jac r c =
  if Nat.ltb r (length (cb_il s)) then (if Nat.eqb c (n + nth r (cb_il s) 0) then opp one else zero)
  else (if Nat.eqb c (n + nth (r - length (cb_il s)) (cb_iu s) 0) then one else zero).
Proof.
  intros H. unfold cb_jac, cb_dim in *. rewrite !jac_rows_spec, Nat.sub_0_r.
  destruct (Nat.leb_spec (length (cb_il s)) r), (Nat.ltb_spec r (length (cb_il s))); try lia; cbn [andb].
  - destruct (Nat.ltb_spec r (length (cb_il s) + length (cb_iu s))); [|lia]. cbn [andb Nat.leb].
    destruct (Nat.eqb _ _); [reflexivity|]. destruct (Nat.ltb_spec r (0 + length (cb_il s))); [lia|]. reflexivity.
  - destruct (Nat.ltb_spec r (0 + length (cb_il s))); [|lia]. cbn [Nat.leb andb]. reflexivity.
Qed.
End CB.

Local Open Scope R_scope.
(** exact arithmetic *)
Lemma cb_feasible dmax (s : CB RS) u : cb_inv dmax s ->
  (forall k, (k < cb_dim s)%nat -> cb_val s u k <= 0) <-> within dmax (cb_lo s) (cb_hi s) u.
Proof.
  intros [H1 H2 H3 H4]. unfold cb_val, cb_dim. split.
  - intros H. split; intros j v Hj Hv.
    + assert (Hin : In j (cb_il s)). { rewrite H3. apply (finite_in (F:=RS)). exists v. split; [exact Hj|]. rs. apply Rltb_true. exact Hv. }
      apply (In_nth _ _ 0%nat) in Hin. destruct Hin as (k & Hk & Ek). specialize (H k ltac:(lia)).
      replace (Nat.ltb k (length (cb_il s))) with true in H by (symmetry; apply Nat.ltb_lt; auto).
      rewrite Ek in H. rewrite (nth_error_nth (cb_lo s) j (zero : RS) Hj) in H. rs. lra.
    + assert (Hin : In j (cb_iu s)). { rewrite H4. apply (finite_in (F:=RS)). exists v. split; [exact Hj|]. rs. apply Rltb_true. exact Hv. }
      apply (In_nth _ _ 0%nat) in Hin. destruct Hin as (k & Hk & Ek). specialize (H (length (cb_il s) + k)%nat ltac:(lia)).
      replace (Nat.ltb (length (cb_il s) + k) (length (cb_il s))) with false in H by (symmetry; apply Nat.ltb_ge; lia).
      replace (length (cb_il s) + k - length (cb_il s))%nat with k in H by lia. cbv zeta in H.
      rewrite Ek in H. rewrite (nth_error_nth (cb_hi s) j (zero : RS) Hj) in H. rs. lra.
  - intros [Hl Hu] k Hk. destruct (Nat.ltb_spec k (length (cb_il s))).
    + assert (Hin : In (nth k (cb_il s) 0%nat) (cb_il s)) by (apply nth_In; auto). rewrite H3 in Hin at 2. apply (finite_in (F:=RS)) in Hin.
      destruct Hin as (v & Hv & Hf). rewrite (nth_error_nth (cb_lo s) _ (zero : RS) Hv). rs. apply Rltb_true in Hf. specialize (Hl _ _ Hv Hf). lra.
    + set (j := nth (k - length (cb_il s)) (cb_iu s) 0%nat). assert (Hin : In j (cb_iu s)) by (apply nth_In; lia). rewrite H4 in Hin. apply (finite_in (F:=RS)) in Hin.
      destruct Hin as (v & Hv & Hf). cbv zeta. rewrite (nth_error_nth (cb_hi s) _ (zero : RS) Hv). rs. apply Rltb_true in Hf. specialize (Hu _ _ Hv Hf). lra.
Qed.
Lemma cb_con_true dmax n (s : CB RS) : cb_inv dmax s ->
  con_true n (cb_m s) (cb_con n s) (fun x u => cb_val s u)
    (fun x u r c => if Nat.ltb r (length (cb_il s)) then (if Nat.eqb c (n + nth r (cb_il s) 0%nat) then -1 else 0)
       else (if Nat.eqb c (n + nth (r - length (cb_il s)) (cb_iu s) 0%nat) then 1 else 0)) (fun _ _ => true).
Proof.
  intros Hinv. split.
  - intros x u buf i Hi. cbn [cb_con con_eval]. destruct (cb_eval_spec (F:=RS) dmax s u buf Hinv) as (c' & E & V). rewrite E. apply V. exact Hi.
  - intros x u buf i j Hi Hj. cbn [cb_con con_jac]. rewrite cb_jac_spec by exact Hi. rs. reflexivity.
  - discriminate.
  - intros X U v w HX HU i Hi. cbn [cb_con con_dim] in Hi. rewrite !fsum_rsum. unfold cb_val, cb_dim in *. destruct Hinv as [H1 H2 H3 H4].
    destruct (Nat.ltb_spec i (length (cb_il s))) as [Hl|Hl].
    + set (j := nth i (cb_il s) 0%nat). assert (Hj : (j < cb_m s)%nat).
      { rewrite <- H1. apply (finite_bound (F:=RS) dmax). rewrite <- H3. apply nth_In. auto. }
      eapply d_eq; [apply d_minus; [apply d_const|apply HU]|].
      rewrite (rsum_zero' n) by (intros k Hk; replace (Nat.eqb k (n + j)) with false by (symmetry; apply Nat.eqb_neq; lia); lra).
      rewrite (rsum_single (cb_m s) j) by (auto; intros k Hk Hne; replace (Nat.eqb (n + k) (n + j)) with false by (symmetry; apply Nat.eqb_neq; lia); lra).
      rewrite Nat.eqb_refl. lra.
    + set (j := nth (i - length (cb_il s)) (cb_iu s) 0%nat). assert (Hj : (j < cb_m s)%nat).
      { rewrite <- H2. apply (finite_bound (F:=RS) dmax). rewrite <- H4. apply nth_In. lia. }
      cbv zeta. eapply d_eq; [apply d_minus; [apply HU|apply d_const]|].
      rewrite (rsum_zero' n) by (intros k Hk; replace (Nat.eqb k (n + j)) with false by (symmetry; apply Nat.eqb_neq; lia); lra).
      rewrite (rsum_single (cb_m s) j) by (auto; intros k Hk Hne; replace (Nat.eqb (n + k) (n + j)) with false by (symmetry; apply Nat.eqb_neq; lia); lra).
      rewrite Nat.eqb_refl. lra.
Qed.

(** goal *)
Lemma goal_con_true n m xf : con_true n m (goal_con n xf) (fun x u i => x i - xf i) (fun x u i j => if Nat.eqb i j then 1 else 0) (fun _ _ => true).
Proof.
  split; try reflexivity; [discriminate|]. intros X U v w HX HU i Hi. cbn [goal_con con_dim] in Hi. rewrite !fsum_rsum.
  eapply d_eq; [apply d_minus; [apply HX|apply d_const]|].
  rewrite (rsum_zero' m) by (intros k Hk; replace (Nat.eqb i (n + k)) with false by (symmetry; apply Nat.eqb_neq; lia); lra).
  rewrite (rsum_single n i) by (auto; intros k Hk Hne; replace (Nat.eqb i k) with false by (symmetry; apply Nat.eqb_neq; lia); lra).
  rewrite Nat.eqb_refl. lra.
Qed.

(** circles *)
Section CC.
Context {F : Scalar}.
Lemma cc_eval_loop_spec (px py : F) o0 obs : forall i c k, cc_eval_loop px py i obs c k =
  if (Nat.leb i k && Nat.ltb k (i + length obs))%bool then opp (circle_dist2 (nth (k - i) obs o0) px py) else c k.
Proof.
  induction obs as [|o obs IH]; intros i c k.
  - cbn [length]. replace (Nat.leb i k && Nat.ltb k (i + 0))%bool with false; [reflexivity|].
    symmetry. apply andb_false_iff. destruct (Nat.leb_spec i k); auto. right. apply Nat.ltb_ge. lia.
  - cbn [cc_eval_loop]. rewrite IH. unfold vset. cbn [length].
    destruct (Nat.leb_spec (S i) k), (Nat.ltb_spec k (S i + length obs)), (Nat.leb_spec i k), (Nat.ltb_spec k (i + S (length obs))); try lia; cbn [andb];
      destruct (Nat.eqb_spec k i); try lia; auto.
    + replace (k - i)%nat with (S (k - S i)) by lia. reflexivity.
    + subst k. rewrite Nat.sub_diag. reflexivity.
Qed.
Lemma cc_jac_loop_spec (px py : F) o0 obs : forall i jac r c, cc_jac_loop px py i obs jac r c =
  if (Nat.leb i r && Nat.ltb r (i + length obs) && Nat.eqb c 1)%bool then mul two (sub (ci_y (nth (r - i) obs o0)) py)
  else if (Nat.leb i r && Nat.ltb r (i + length obs) && Nat.eqb c 0)%bool then mul two (sub (ci_x (nth (r - i) obs o0)) px) else jac r c.
Proof.
  induction obs as [|o obs IH]; intros i jac r c.
  - cbn [length]. replace (Nat.leb i r && Nat.ltb r (i + 0))%bool with false; [reflexivity|].
    symmetry. apply andb_false_iff. destruct (Nat.leb_spec i r); auto. right. apply Nat.ltb_ge. lia.
  - cbn [cc_jac_loop]. rewrite IH. unfold mset. cbn [length].
    destruct (Nat.leb_spec (S i) r), (Nat.ltb_spec r (S i + length obs)), (Nat.leb_spec i r), (Nat.ltb_spec r (i + S (length obs))); try lia; cbn [andb];
      destruct (Nat.eqb_spec r i); try lia; auto.
    + replace (r - i)%nat with (S (r - S i)) by lia. reflexivity.
    + subst r. rewrite Nat.sub_diag. cbn [nth andb]. reflexivity.
Qed.
End CC.
Definition o0 : Circle RS := mkCircle (F:=RS) 0 0 0.
Definition cc_val (s : CC RS) (x : nat -> R) (k : nat) : R :=
  let o := nth k (cc_obs s) o0 in
  (ci_r o) ^ 2 - ((x (cc_xi s) - ci_x o) ^ 2 + (x (cc_yi s) - ci_y o) ^ 2).
Lemma cc_eval_val (s : CC RS) x c k : (k < length (cc_obs s))%nat -> cc_eval s x c k = cc_val s x k.
Proof.
  intros H. unfold cc_eval. rewrite (cc_eval_loop_spec _ _ o0). rewrite Nat.sub_0_r.
  replace (Nat.leb 0 k && Nat.ltb k (0 + length (cc_obs s)))%bool with true by (symmetry; apply andb_true_iff; split; [apply Nat.leb_le; lia|apply Nat.ltb_lt; auto]).
  unfold cc_val, circle_dist2, sq. cbv zeta. rs. ring.
Qed.
Lemma cc_outside r px py cx cy : 0 <= r -> (r ^ 2 - ((px - cx) ^ 2 + (py - cy) ^ 2) <= 0 <-> r <= dist px py cx cy).
Proof.
  intros Hr. unfold dist. set (q := (px - cx) ^ 2 + (py - cy) ^ 2). assert (Hq : 0 <= q) by (unfold q; pose proof (pow2_ge_0 (px - cx)); pose proof (pow2_ge_0 (py - cy)); lra).
  split; intros H.
  - rewrite <- (sqrt_pow2 r Hr). apply sqrt_le_1_alt. lra.
  - pose proof (sqrt_sqrt q Hq) as E. pose proof (sqrt_pos q). nra.
Qed.
Lemma cc_con_true n m (s : CC RS) : (2 <= n)%nat -> cc_xi s = 0%nat -> cc_yi s = 1%nat ->
  con_true n m (cc_con s) (fun x u => cc_val s x)
    (fun x u r c => if Nat.eqb c 1 then 2 * (ci_y (nth r (cc_obs s) o0) - x 1%nat) else if Nat.eqb c 0 then 2 * (ci_x (nth r (cc_obs s) o0) - x 0%nat) else 0)
    (fun r c => Nat.eqb c 1 || Nat.eqb c 0)%bool.
Proof.
  intros Hn Hx Hy. split.
  - intros x u buf i Hi. cbn [cc_con con_eval con_dim] in *. apply cc_eval_val; auto.
  - intros x u buf i j Hi Hj. cbn [cc_con con_jac con_dim] in *. unfold cc_jac. rewrite (cc_jac_loop_spec _ _ o0), Nat.sub_0_r, Hx, Hy.
    replace (Nat.leb 0 i && Nat.ltb i (0 + length (cc_obs s)))%bool with true by (symmetry; apply andb_true_iff; split; [apply Nat.leb_le; lia|apply Nat.ltb_lt; auto]).
    cbn [andb]. destruct (Nat.eqb j 1), (Nat.eqb j 0); cbn [orb]; rs; reflexivity.
  - intros x u i j H. apply orb_false_iff in H. destruct H as [-> ->]. reflexivity.
  - intros X U v w HX HU i Hi. cbn [cc_con con_dim] in *. unfold cc_val. rewrite Hx, Hy. cbv zeta. set (o := nth i (cc_obs s) o0). rewrite !fsum_rsum.
    rewrite (rsum_zero' m).
    2: { intros k Hk. replace (Nat.eqb (n + k) 1) with false by (symmetry; apply Nat.eqb_neq; lia). replace (Nat.eqb (n + k) 0) with false by (symmetry; apply Nat.eqb_neq; lia). lra. }
    replace n with (2 + (n - 2))%nat by lia. rewrite rsum_split, !rsum_S, rsum_0. cbn [Nat.eqb].
    rewrite (rsum_zero' (n - 2)) by (intros k Hk; cbn [Nat.eqb Nat.add]; lra).
    apply (d_ext (fun s => ci_r o * ci_r o - ((X s 0%nat - ci_x o) * (X s 0%nat - ci_x o) + (X s 1%nat - ci_y o) * (X s 1%nat - ci_y o)))); [intros; ring|].
    assert (Q : forall a c, is_derive (fun s => (X s a - c) * (X s a - c)) 0 ((v a - 0) * (X 0 a - c) + (X 0 a - c) * (v a - 0))).
    { intros a c. apply (d_mult (fun s => X s a - c) (fun s => X s a - c)); (apply d_minus; [apply HX|apply d_const]). }
    eapply d_eq; [apply d_minus; [apply d_const|apply d_plus; apply Q]|]. ring.
Qed.
