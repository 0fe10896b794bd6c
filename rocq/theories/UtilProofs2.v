(** Derivative checks on affine constraints and quadratic costs; benchmark statistics. *)
From Coq Require Import Reals Lra Lia List Bool ZArith Permutation Sorted.
From Coquelicot Require Import Coquelicot.
From Verif Require Import Base Lin RLin RDer ConModel ConSpec ConProofs IlqrModel DynModel DynSpec DynProofs ExampleModel ExampleSpec ExampleProofs3 UtilModel UtilSpec UtilProofs.
Import List ListNotations.
Local Open Scope R_scope.

(** * matrix comparison *)
Lemma fro2_RS r c A : fro2 (F:=RS) r c A = rsum r (fun i => rsum c (fun j => A i j * A i j)).
Proof. reflexivity. Qed.
Lemma compare_RS r c A B eps : mat_compare (F:=RS) r c A B eps = true <-> sqrt (rsum r (fun i => rsum c (fun j => (A i j - B i j) ^ 2))) < eps.
Proof.
  unfold mat_compare. rewrite fro2_RS. rewrite (rsum_ext r _ (fun i => rsum c (fun j => (A i j - B i j) ^ 2))).
  - apply Rltb_true.
  - intros i Hi. apply rsum_ext. intros j Hj. rs. ring.
Qed.

(** * affine constraints *)
Definition affine_con (n m : nat) (con : Con RS) (c : nat -> R) (A : nat -> nat -> R) : Prop :=
  forall x u buf i, (i < con_dim con)%nat -> con_eval con x u buf i = c i + fsum n (fun j => A i j * x j) + fsum m (fun j => A i (n + j)%nat * u j).
Lemma joint_split n m (A z : nat -> R) : rsum (n + m) (fun j => A j * z j) = rsum n (fun j => A j * zhead (F:=RS) n z j) + rsum m (fun j => A (n + j)%nat * ztail (F:=RS) n m z j).
Proof.
  rewrite rsum_split. f_equal; apply rsum_ext; intros j Hj; unfold zhead, ztail; rewrite (vstore_lt (F:=RS)) by auto; reflexivity.
Qed.
Lemma affine_quad n m con c A junk i : affine_con n m con c A -> (i < con_dim con)%nat ->
  quad_fun (n + m) (c i) (A i) (fun _ _ => 0) (fun z => vstore (con_dim con) (con_eval con (zhead n z) (ztail n m z) junk) i).
Proof.
  intros H Hi z. rewrite vstore_lt by auto. rewrite H by auto. rewrite qform_qf, !fsum_rsum, joint_split.
  replace (qf (n + m) (n + m) (fun _ _ => 0) z z) with 0; [lra|]. symmetry. unfold qf. apply rsum_zero'. intros k Hk. rewrite rsum_zero'; [lra|]. intros; lra.
Qed.
Lemma slope_affine n l x b : quad_slope n l (fun _ _ => 0) x b = l b.
Proof. unfold quad_slope. rewrite rsum_zero'; [lra|]. intros; lra. Qed.
Lemma eps1_nz : (fd_eps1 : RS) <> 0. Proof. unfold fd_eps1. cbn. lra. Qed.
Lemma eps2_nz : (fd_eps2 : RS) <> 0. Proof. unfold fd_eps2. cbn. lra. Qed.
Lemma check_jacobian_affine n m con c A junk x u eps : affine_con n m con c A -> (n + m <> 0)%nat -> exists b, check_jacobian (F:=RS) n m con junk x u eps = Ok b /\
  (b = true <-> sqrt (rsum (con_dim con) (fun i => rsum (n + m) (fun j => (A i j - con_jac con x u mzero i j) ^ 2))) < eps).
Proof.
  intros H Hn. unfold check_jacobian. cbv zeta.
  match goal with |- context [fd_jac ?a ?b ?f ?z ?e ?cc] => destruct (fd_jac_spec (F:=RS) a b f z e cc Hn) as (J & E & V) end. rewrite E. cbn [bind]. eexists. split; [reflexivity|]. rewrite compare_RS.
  rewrite (rsum_ext (con_dim con) (fun i => rsum (n + m) (fun j => (J i j - _) ^ 2)) (fun i => rsum (n + m) (fun j => (A i j - con_jac con x u mzero i j) ^ 2))); [reflexivity|].
  intros i Hi. apply rsum_ext. intros j Hj. rewrite (mstore_lt (F:=RS)) by auto. f_equal. f_equal. rewrite V by auto.
  pose proof (quad_forward (n + m) (c i) (A i) (fun _ _ => 0) _ (joint n x u) j fd_eps1 (affine_quad n m con c A junk i H Hi) Hj eps1_nz) as Q. rewrite slope_affine in Q. rs. rewrite Q. lra.
Qed.

(** * quadratic costs *)
Definition blockB (s : QC RS) : nat -> nat -> R := fun i j => let n := qc_n s in
  if Nat.ltb i n then (if Nat.ltb j n then / 2 * qc_Q s i j else qc_H s i (j - n)%nat) else (if Nat.ltb j n then 0 else / 2 * qc_R s (i - n)%nat (j - n)%nat).
Lemma ltb_add n j : Nat.ltb (n + j) n = false. Proof. apply Nat.ltb_ge. lia. Qed.
Lemma qc_quad (s : QC RS) : let n := qc_n s in let m := qc_m s in
  quad_fun (n + m) (qc_c s) (fun j => if Nat.ltb j n then qc_q s j else qc_r s (j - n)%nat) (blockB s) (fun z => mul (uc_eval (qc_ucost s) (zhead n z) (ztail n m z)) one).
Proof.
  intros n m z. cbn [qc_ucost uc_eval]. rewrite qc_eval_eq. fold n m. rewrite qform_qf, fsum_rsum. set (x := zhead n z). set (u := ztail n m z).
  assert (Hx : forall i, (i < n)%nat -> x i = z i) by (intros; unfold x, zhead; apply (vstore_lt (F:=RS)); auto).
  assert (Hu : forall i, (i < m)%nat -> u i = z (n + i)%nat) by (intros; unfold u, ztail; rewrite (vstore_lt (F:=RS)) by auto; reflexivity).
  rewrite rsum_split. rewrite (rsum_ext n (fun j => (if Nat.ltb j n then qc_q s j else qc_r s (j - n)%nat) * z j) (fun i => qc_q s i * x i)) by (intros j Hj; rewrite (proj2 (Nat.ltb_lt j n) Hj), Hx by auto; reflexivity).
  rewrite (rsum_ext m (fun j => (if Nat.ltb (n + j) n then qc_q s (n + j)%nat else qc_r s (n + j - n)%nat) * z (n + j)%nat) (fun i => qc_r s i * u i)) by (intros j Hj; rewrite ltb_add, Hu by auto; replace (n + j - n)%nat with j by lia; reflexivity).
  assert (EB : qf (n + m) (n + m) (blockB s) z z = / 2 * qf n n (qc_Q s) x x + qf n m (qc_H s) x u + / 2 * qf m m (qc_R s) u u).
  { unfold qf at 1. rewrite rsum_split.
    rewrite (rsum_ext n _ (fun i => / 2 * (x i * rsum n (fun j => qc_Q s i j * x j)) + x i * rsum m (fun j => qc_H s i j * u j))).
    2:{ intros i Hi. rewrite rsum_split. rewrite (rsum_ext n (fun j => blockB s i j * z j) (fun j => / 2 * (qc_Q s i j * x j))) by (intros j Hj; unfold blockB; fold n; rewrite (proj2 (Nat.ltb_lt i n) Hi), (proj2 (Nat.ltb_lt j n) Hj), Hx by auto; ring).
        rewrite (rsum_ext m (fun j => blockB s i (n + j)%nat * z (n + j)%nat) (fun j => qc_H s i j * u j)) by (intros j Hj; unfold blockB; fold n; rewrite (proj2 (Nat.ltb_lt i n) Hi), ltb_add, Hu by auto; replace (n + j - n)%nat with j by lia; ring).
        rewrite rsum_scal, <- Hx by auto. ring. }
    rewrite (rsum_ext m _ (fun i => / 2 * (u i * rsum m (fun j => qc_R s i j * u j)))).
    2:{ intros i Hi. rewrite rsum_split. rewrite (rsum_zero' n) by (intros j Hj; unfold blockB; fold n; rewrite ltb_add, (proj2 (Nat.ltb_lt j n) Hj); ring).
        rewrite (rsum_ext m (fun j => blockB s (n + i)%nat (n + j)%nat * z (n + j)%nat) (fun j => / 2 * (qc_R s i j * u j))) by (intros j Hj; unfold blockB; fold n; rewrite !ltb_add, Hu by auto; replace (n + j - n)%nat with j by lia; replace (n + i - n)%nat with i by lia; ring).
        rewrite rsum_scal, <- Hu by auto. ring. }
    rewrite rsum_plus, !rsum_scal. unfold qf. lra. }
  rewrite EB. rs. ring.
Qed.
Lemma check_hessian_quad (s : QC RS) x u eps : let n := qc_n s in let m := qc_m s in (n + m <> 0)%nat -> symmetric n (qc_Q s) -> symmetric m (qc_R s) ->
  exists b, check_hessian (F:=RS) n m (qc_ucost s) x u eps = Ok b /\ (b = true <-> sqrt (rsum m (fun i => rsum n (fun j => (qc_H s j i) ^ 2))) < eps).
Proof.
  intros n m Hn HQ HR. unfold check_hessian. cbv zeta.
  match goal with |- context [fd_hess ?a ?f ?z ?e ?cc] => destruct (fd_hess_quad a _ _ _ f z e cc Hn (qc_quad s) eps2_nz) as (H & E & V) end. rewrite E. cbn [bind]. eexists. split; [reflexivity|]. rewrite compare_RS.
  match goal with |- sqrt ?a < _ <-> sqrt ?b < _ => replace a with b; [reflexivity|] end. symmetry.
  assert (HD : forall i j, (i < n + m)%nat -> (j < n + m)%nat -> H i j - mstore (F:=RS) (n + m) (n + m) (joint_hess n m (qc_ucost s) x u mzero) i j =
     if Nat.ltb i n then 0 else if Nat.ltb j n then qc_H s j (i - n)%nat else 0).
  { intros i j Hi Hj. rewrite V by auto. rewrite (mstore_lt (F:=RS)) by auto. unfold joint_hess. cbn [qc_ucost uc_hess qc_hess]. unfold blockB. fold n.
    destruct (Nat.ltb i n) eqn:Ei, (Nat.ltb j n) eqn:Ej; (match type of Ei with _ = true => apply Nat.ltb_lt in Ei | _ => apply Nat.ltb_ge in Ei end); (match type of Ej with _ = true => apply Nat.ltb_lt in Ej | _ => apply Nat.ltb_ge in Ej end).
    - rewrite (HQ j i Ej Ei). lra.
    - lra.
    - unfold mzero. rs. lra.
    - rewrite (HR (j - n)%nat (i - n)%nat) by lia. lra. }
  rewrite (rsum_ext (n + m) _ (fun i => rsum (n + m) (fun j => (if Nat.ltb i n then 0 else if Nat.ltb j n then qc_H s j (i - n)%nat else 0) ^ 2))) by (intros i Hi; apply rsum_ext; intros j Hj; rewrite HD by auto; reflexivity).
  rewrite rsum_split, (rsum_zero' n) by (intros i Hi; apply rsum_zero'; intros j Hj; rewrite (proj2 (Nat.ltb_lt i n) Hi); ring).
  rewrite Rplus_0_l. apply rsum_ext. intros i Hi. rewrite rsum_split, ltb_add. replace (n + i - n)%nat with i by lia.
  rewrite (rsum_zero' m) by (intros j Hj; rewrite ltb_add; ring). rewrite Rplus_0_r. apply rsum_ext. intros j Hj. rewrite (proj2 (Nat.ltb_lt j n) Hj). reflexivity.
Qed.

(** * benchmark statistics *)
Lemma insert_perm (a : R) l : Permutation (t_insert (F:=RS) a l) (a :: l).
Proof. induction l as [|b l IH]; cbn [t_insert]; [reflexivity|]. destruct (ltb b a); [|reflexivity]. rewrite IH. apply perm_swap. Qed.
Lemma sort_perm l : Permutation (t_sort (F:=RS) l) l.
Proof. induction l as [|a l IH]; [reflexivity|]. unfold t_sort in *. cbn [fold_right]. rewrite insert_perm. constructor. exact IH. Qed.
Lemma insert_sorted (a : R) l : StronglySorted Rle l -> StronglySorted Rle (t_insert (F:=RS) a l).
Proof.
  induction l as [|b l IH]; cbn [t_insert]; intros H; [constructor; constructor|].
  destruct (ltb b a) eqn:E.
  - apply Rltb_true in E. apply StronglySorted_inv in H. destruct H as [H1 H2]. constructor; [apply IH; auto|].
    apply (Permutation_Forall (Permutation_sym (insert_perm a l))). constructor; [lra|exact H2].
  - apply Rltb_false in E. constructor; [exact H|]. constructor; [exact E|]. apply StronglySorted_inv in H. destruct H as [_ H]. eapply Forall_impl; [|exact H]. cbn. intros; lra.
Qed.
Lemma sort_sorted l : StronglySorted Rle (t_sort (F:=RS) l).
Proof. unfold t_sort. induction l as [|a l IH]; cbn [fold_right]; [constructor|]. apply insert_sorted. exact IH. Qed.
Lemma sorted_unique l : forall l', StronglySorted Rle l -> StronglySorted Rle l' -> Permutation l l' -> l = l'.
Proof.
  induction l as [|a l IH]; intros l' H1 H2 P.
  - apply Permutation_nil in P. auto.
  - destruct l' as [|b l']; [symmetry in P; apply Permutation_nil in P; discriminate|].
    apply StronglySorted_inv in H1. apply StronglySorted_inv in H2. destruct H1 as [H1 F1], H2 as [H2 F2]. rewrite Forall_forall in F1, F2.
    assert (a = b). { apply Rle_antisym.
      - assert (In b (a :: l)) by (apply (Permutation_in _ (Permutation_sym P)); left; auto). destruct H as [<-|H]; [lra|apply F1; auto].
      - assert (In a (b :: l')) by (apply (Permutation_in _ P); left; auto). destruct H as [<-|H]; [lra|apply F2; auto]. }
    subst b. f_equal. apply IH; auto. apply (Permutation_cons_inv P).
Qed.
Lemma sort_unique l l' : Permutation l l' -> t_sort (F:=RS) l = t_sort (F:=RS) l'.
Proof. intros P. apply sorted_unique; try apply sort_sorted. rewrite !sort_perm. exact P. Qed.
Lemma fold_sum l : forall a, fold_left (fun s t => s + t) l a = a + total l.
Proof. unfold total. induction l as [|b l IH]; intros a; cbn; [lra|]. rewrite IH. lra. Qed.
Lemma fold_sumg (g : R -> R) l : forall a, fold_left (fun s t => s + g t) l a = a + total (map g l).
Proof. unfold total. induction l as [|b l IH]; intros a; cbn; [lra|]. rewrite IH. lra. Qed.
Lemma total_perm l l' : Permutation l l' -> total l = total l'.
Proof. unfold total. induction 1; cbn; lra. Qed.
Lemma fold_max l : forall a, let M := fold_left (fun s t => smax (F:=RS) t s) l a in In M (a :: l) /\ forall t, In t (a :: l) -> t <= M.
Proof.
  induction l as [|b l IH]; intros a; cbn [fold_left].
  - split; [left; auto|]. intros t [->|[]]. lra.
  - destruct (IH (smax (F:=RS) b a)) as [H1 H2]. cbv zeta in *. set (M := fold_left _ l _) in *. rewrite smax_RS in *. split.
    + destruct H1 as [H1|H1]; [|right; right; auto]. rewrite <- H1. unfold Rmax. destruct (Rle_dec b a); [left|right; left]; auto.
    + intros t Ht. assert (HM : Rmax b a <= M) by (apply H2; left; auto). pose proof (Rmax_l b a). pose proof (Rmax_r b a).
      destruct Ht as [<-|[<-|Ht]]; [lra|lra|apply H2; right; auto].
Qed.
Lemma fold_min l : forall a, let M := fold_left (fun s t => smin (F:=RS) t s) l a in In M (a :: l) /\ forall t, In t (a :: l) -> M <= t.
Proof.
  induction l as [|b l IH]; intros a; cbn [fold_left].
  - split; [left; auto|]. intros t [->|[]]. lra.
  - destruct (IH (smin (F:=RS) b a)) as [H1 H2]. cbv zeta in *. set (M := fold_left _ l _) in *. rewrite smin_RS in *. split.
    + destruct H1 as [H1|H1]; [|right; right; auto]. rewrite <- H1. unfold Rmin. destruct (Rle_dec b a); [right; left|left]; auto.
    + intros t Ht. assert (HM : M <= Rmin b a) by (apply H2; left; auto). pose proof (Rmin_l b a). pose proof (Rmin_r b a).
      destruct Ht as [<-|[<-|Ht]]; [lra|lra|apply H2; right; auto].
Qed.

(** * the whole of Calculate *)
Lemma total_map_ext (g h : R -> R) (l : list R) : (forall t, g t = h t) -> total (map g l) = total (map h l).
Proof. intros H. f_equal. apply map_ext. exact H. Qed.
Lemma in_sort l t : In t (t_sort (F:=RS) l) <-> In t l.
Proof. split; apply Permutation_in; [|symmetry]; apply sort_perm. Qed.
Lemma sorted_app l1 l2 : StronglySorted Rle (l1 ++ l2) -> StronglySorted Rle l2 /\ forall a b, In a l1 -> In b l2 -> a <= b.
Proof.
  induction l1 as [|x l1 IH]; cbn; intros H; [split; [exact H|intros a b []]|].
  apply StronglySorted_inv in H. destruct H as [H F]. destruct (IH H) as [H1 H2]. split; [exact H1|].
  intros a b [<-|Ha] Hb; [|apply H2; auto]. rewrite Forall_forall in F. apply F. apply in_or_app. right; exact Hb.
Qed.
Lemma sorted_head a l : StronglySorted Rle (a :: l) -> forall t, In t l -> a <= t.
Proof. intros H. apply StronglySorted_inv in H. destruct H as [_ H]. rewrite Forall_forall in H. exact H. Qed.
Lemma nth_split' (k : nat) (l : list R) d : (k < length l)%nat -> exists l1 l2, l = l1 ++ nth k l d :: l2 /\ length l1 = k.
Proof. intros H. destruct (nth_split l d H) as (l1 & l2 & E & L). exists l1, l2. auto. Qed.
Lemma sorted_median (l : list R) : l <> [] -> StronglySorted Rle l ->
  is_median l (if Nat.odd (length l) then nth (length l / 2) l 0 else (nth (length l / 2) l 0 + nth (length l / 2 - 1) l 0) / 2).
Proof.
  intros Hl HS. assert (0 < length l)%nat by (destruct l; [congruence|cbn; lia]).
  pose proof (Nat.div_mod (length l) 2 ltac:(lia)) as D. pose proof (Nat.mod_upper_bound (length l) 2 ltac:(lia)) as M.
  destruct (Nat.odd (length l)) eqn:O.
  - assert (O2 : (length l mod 2 = 1)%nat). { apply Nat.odd_spec in O. destruct O as [q Hq]. rewrite Hq. rewrite Nat.add_comm, Nat.mul_comm, Nat.mod_add by lia. reflexivity. }
    destruct (nth_split' (length l / 2) l 0) as (l1 & l2 & E & L); [lia|]. set (v := nth _ l 0) in *.
    assert (LL : length l = (length l1 + S (length l2))%nat) by (rewrite E, app_length; reflexivity).
    rewrite E in HS. destruct (sorted_app _ _ HS) as [H2 H1]. exists l1, v, v, l2. repeat split.
    + lia.
    + intros t Ht. apply H1; [exact Ht|left; reflexivity].
    + apply sorted_head. exact H2.
    + lra.
    + lra.
    + right. split; [reflexivity|]. rewrite E at 1. reflexivity.
  - assert (O2 : (length l mod 2 = 0)%nat). { rewrite <- Nat.negb_even in O. apply negb_false_iff, Nat.even_spec in O. destruct O as [q Hq]. rewrite Hq, Nat.mul_comm. apply Nat.mod_mul. lia. }
    destruct (nth_split' (length l / 2 - 1) l 0) as (l1 & l2 & E & L); [lia|]. set (v := nth (length l / 2 - 1) l 0) in *.
    assert (LL : length l = (length l1 + S (length l2))%nat) by (rewrite E, app_length; reflexivity).
    destruct l2 as [|w l2]; [cbn in LL; lia|].
    assert (Ew : nth (length l / 2) l 0 = w). { rewrite E at 2. replace (length l / 2)%nat with (length l1 + 1)%nat by lia. rewrite app_nth2_plus. reflexivity. }
    rewrite Ew. rewrite E in HS. destruct (sorted_app _ _ HS) as [H2 H1]. exists l1, v, w, l2. repeat split.
    + cbn in LL. lia.
    + intros t Ht. apply H1; [exact Ht|left; reflexivity].
    + apply sorted_head. apply StronglySorted_inv in H2. apply H2.
    + apply (sorted_head _ _ H2). left; reflexivity.
    + lra.
    + left. rewrite E at 1. reflexivity.
Qed.
Lemma median_perm l l' m : Permutation l l' -> is_median l m -> is_median l' m.
Proof.
  intros P (lo & a & b & hi & A1 & A2 & A3 & A4 & A5 & A6). exists lo, a, b, hi. repeat split; auto.
  destruct A6 as [Q|[E Q]]; [left|right; split; auto]; (eapply Permutation_trans; [apply Permutation_sym; exact P|exact Q]).
Qed.
Lemma bench_ok (l : list R) : l <> [] -> exists b, bench_calculate (F:=RS) l = Ok b /\ least l (bn_min b) /\ greatest l (bn_max b) /\ is_median l (bn_median b) /\
  average l (bn_mean b) /\ is_std l (bn_mean b) (bn_std b) /\ bn_samples b = Z.of_nat (length l).
Proof.
  intros Hl. unfold bench_calculate. pose proof (sort_perm l) as P. pose proof (sort_sorted l) as S. destruct (t_sort l) as [|t0 r] eqn:E; [apply Permutation_nil in P; elim Hl; exact P|].
  assert (LL : length l = length (t0 :: r)) by (symmetry; apply Permutation_length; exact P).
  assert (IN : forall t, In t (t0 :: r) <-> In t l) by (intros t; rewrite <- E; apply in_sort).
  assert (N0 : INR (length (t0 :: r)) <> 0) by (apply not_0_INR; cbn; lia).
  assert (Np : 0 < INR (length (t0 :: r))) by (apply lt_0_INR; cbn; lia).
  assert (Nz : IZR (Z.of_nat (length (t0 :: r))) = INR (length (t0 :: r))) by (symmetry; apply INR_IZR_INZ).
  eexists. split; [reflexivity|]. cbn [bn_min bn_max bn_median bn_mean bn_std bn_samples].
  destruct (fold_max r t0) as [M1 M2]. destruct (fold_min r t0) as [m1 m2]. cbv zeta in *.
  split; [|split; [|split; [|split; [|split]]]].
  - split; [apply IN; exact m1|]. intros t Ht. apply m2, IN, Ht.
  - split; [apply IN; exact M1|]. intros t Ht. apply M2, IN, Ht.
  - apply (median_perm (t0 :: r)); [exact P|]. pose proof (sorted_median (t0 :: r) ltac:(discriminate) S) as H. rewrite two_RS. exact H.
  - unfold average. rewrite LL. rs. rewrite fold_sum, Nz. rewrite <- (total_perm _ _ P). unfold Rdiv. rewrite Rmult_assoc, Rinv_l by exact N0. unfold total. cbn. lra.
  - match goal with |- is_std _ ?mu _ => set (mn := mu) end. clearbody mn. unfold is_std. rs. rewrite (fold_sumg (fun t => sq (F:=RS) (sub t mn))), Nz.
    assert (EV : total (map (fun t => (t - mn) ^ 2) l) = sq (F:=RS) (sub t0 mn) + total (map (fun t => sq (F:=RS) (sub t mn)) r)).
    { rewrite <- (total_perm _ _ (Permutation_map (fun t => (t - mn) ^ 2) P)). cbn [map]. unfold total at 1. cbn [fold_right]. fold (total (map (fun t => (t - mn) ^ 2) r)).
      rewrite (total_map_ext (fun t => (t - mn) ^ 2) (fun t => sq (F:=RS) (sub t mn))) by (intros; unfold sq; rs; ring). unfold sq; rs. ring. }
    assert (GE : 0 <= total (map (fun t => (t - mn) ^ 2) l)).
    { unfold total. clear. induction l; cbn [map fold_right]; [lra|]. pose proof (pow2_ge_0 (a - mn)). lra. }
    match goal with |- context [sqrt (?V / _)] => replace V with (total (map (fun t => (t - mn) ^ 2) l)) by exact EV end. split; [apply sqrt_pos|]. rewrite LL. rewrite pow2_sqrt; [field; exact N0|]. apply Rmult_le_pos; [exact GE|]. left. apply Rinv_0_lt_compat. exact Np.
  - rewrite LL. reflexivity.
Qed.
Lemma bench_perm (l l' : list R) : Permutation l l' -> bench_calculate (F:=RS) l = bench_calculate (F:=RS) l'.
Proof. intros P. unfold bench_calculate. rewrite (sort_unique _ _ P). reflexivity. Qed.

(** * CheckGradient on quadratic costs *)
Lemma qc_slope (s : QC RS) x u b : let n := qc_n s in let m := qc_m s in (b < n + m)%nat -> symmetric n (qc_Q s) -> symmetric m (qc_R s) ->
  quad_slope (n + m) (fun j => if Nat.ltb j n then qc_q s j else qc_r s (j - n)%nat) (blockB s) (joint n x u) b = joint_grad n m (qc_ucost s) x u vzero b.
Proof.
  intros n m Hb HQ HR. unfold quad_slope, joint_grad. cbn [qc_ucost uc_grad]. rewrite (surjective_pairing (qc_grad s x u)). rewrite rsum_split.
  destruct (Nat.ltb b n) eqn:E; [apply Nat.ltb_lt in E|apply Nat.ltb_ge in E].
  - cbn [fst]. rewrite qc_grad_x by exact E. fold n m.
    rewrite (rsum_ext n (fun j => (blockB s b j + blockB s j b) * joint n x u j) (fun j => qc_Q s b j * x j)) by (intros j Hj; unfold blockB, joint; fold n; rewrite !(proj2 (Nat.ltb_lt b n) E), !(proj2 (Nat.ltb_lt j n) Hj); rewrite (HQ j b Hj E); rs; lra).
    rewrite (rsum_ext m _ (fun j => qc_H s b j * u j)) by (intros j Hj; unfold blockB, joint; fold n; rewrite !ltb_add, !(proj2 (Nat.ltb_lt b n) E); replace (n + j - n)%nat with j by lia; rs; lra).
    rs. lra.
  - cbn [snd]. rewrite qc_grad_u by (fold m; lia). fold n m.
    rewrite (rsum_ext n (fun j => (blockB s b j + blockB s j b) * joint n x u j) (fun j => qc_H s j (b - n)%nat * x j)) by (intros j Hj; unfold blockB, joint; fold n; rewrite !(proj2 (Nat.ltb_ge b n) E), !(proj2 (Nat.ltb_lt j n) Hj); rs; lra).
    rewrite (rsum_ext m _ (fun j => qc_R s (b - n)%nat j * u j)) by (intros j Hj; unfold blockB, joint; fold n; rewrite !ltb_add, !(proj2 (Nat.ltb_ge b n) E); replace (n + j - n)%nat with j by lia; rewrite (HR j (b - n)%nat) by lia; rs; lra).
    rs. lra.
Qed.
Lemma check_gradient_quad (s : QC RS) x u eps : let n := qc_n s in let m := qc_m s in (n + m <> 0)%nat -> symmetric n (qc_Q s) -> symmetric m (qc_R s) ->
  exists b, check_gradient (F:=RS) n m (qc_ucost s) x u eps = Ok b /\
    (b = true <-> sqrt (rsum n (fun i => (/ 2 * qc_Q s i i) ^ 2) + rsum m (fun i => (/ 2 * qc_R s i i) ^ 2)) / 1000000 < eps).
Proof.
  intros n m Hn HQ HR. unfold check_gradient. cbv zeta.
  match goal with |- context [fd_grad ?a ?f ?z ?e ?cc] => destruct (fd_grad_spec (F:=RS) a f z e cc Hn) as (g & E & V) end. rewrite E. cbn [bind]. eexists. split; [reflexivity|]. rewrite compare_RS.
  assert (HQd : quad_fun (n + m) (qc_c s) (fun j => if Nat.ltb j n then qc_q s j else qc_r s (j - n)%nat) (blockB s) (fun z => uc_eval (qc_ucost s) (zhead n z) (ztail n m z))).
  { intros z. pose proof (qc_quad s z) as Q. cbv beta zeta in Q. fold n m in Q. rewrite <- Q. symmetry. apply Rmult_1_r. }
  match goal with |- sqrt ?a < _ <-> sqrt ?b / _ < _ => replace a with ((/ 1000000) ^ 2 * b) end.
  - rewrite sqrt_mult_alt by apply pow2_ge_0. rewrite sqrt_pow2 by lra. unfold Rdiv. rewrite Rmult_comm. reflexivity.
  - rewrite Rmult_plus_distr_l, <- !rsum_scal. rewrite rsum_split. f_equal; apply rsum_ext; intros i Hi; rewrite rsum_S, rsum_0, Rplus_0_l, V by lia.
    + pose proof (quad_forward (n + m) _ _ _ _ (joint n x u) i fd_eps1 HQd ltac:(lia) eps1_nz) as Q. pose proof (qc_slope s x u i) as QS; cbv zeta in QS; fold n m in QS; rewrite QS in Q by (auto; lia). rs. cbv beta in Q. rewrite Q. unfold blockB. fold n. rewrite !(proj2 (Nat.ltb_lt i n) Hi). unfold fd_eps1. cbn. lra.
    + pose proof (quad_forward (n + m) _ _ _ _ (joint n x u) (n + i)%nat fd_eps1 HQd ltac:(lia) eps1_nz) as Q. pose proof (qc_slope s x u (n + i)%nat) as QS; cbv zeta in QS; fold n m in QS; rewrite QS in Q by (auto; lia). rs. cbv beta in Q. rewrite Q. unfold blockB. fold n. rewrite !ltb_add. replace (n + i - n)%nat with i by lia. unfold fd_eps1. cbn. lra.
Qed.
