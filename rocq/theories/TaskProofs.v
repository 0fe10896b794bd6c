(** Task assignment: covering, the loop in exact and in IEEE arithmetic. *)
From Coq Require Import List ZArith QArith Reals Lra Lia Bool Arith.
From Coq Require Import Floats.SpecFloat.
From Verif Require Import Base Lin StatsModel TrajModel IlqrModel PoolSpec TaskModel TaskSpec.
Import ListNotations.
Local Open Scope Z_scope.

(** * boundaries and blocks *)
Definition chain (l : list Z) : Prop := forall i a b, nth_error l i = Some a -> nth_error l (S i) = Some b -> a <= b.
Lemma chain_tail a l : chain (a :: l) -> chain l.
Proof. intros C i x y X Y. exact (C (S i) x y X Y). Qed.
Lemma chain_last : forall l a d, chain (a :: l) -> a <= last (a :: l) d.
Proof.
  induction l as [|b l IH]; intros a d C; [cbn; lia|]. change (last (a :: b :: l) d) with (last (b :: l) d). pose proof (C 0%nat a b eq_refl eq_refl). specialize (IH b d (chain_tail _ _ C)). lia.
Qed.
Lemma chain_count : forall l a d k, chain (a :: l) -> length (filter (inb k) (blocks (a :: l))) = if (a <=? k) && (k <? last (a :: l) d) then 1%nat else 0%nat.
Proof.
  induction l as [|b l IH]; intros a d k C.
  - cbn. destruct (Z.leb_spec a k), (Z.ltb_spec k a); try reflexivity; lia.
  - change (blocks (a :: b :: l)) with ((a, b) :: blocks (b :: l)). change (last (a :: b :: l) d) with (last (b :: l) d). cbn [filter]. pose proof (C 0%nat a b eq_refl eq_refl) as AB. pose proof (chain_last l b d (chain_tail _ _ C)) as BL. specialize (IH b d k (chain_tail _ _ C)).
    unfold inb at 1. cbn [fst snd]. destruct (Z.leb_spec a k), (Z.ltb_spec k b); cbn [andb length]; rewrite IH; destruct (Z.leb_spec b k), (Z.ltb_spec k (last (b :: l) d)); cbn [andb]; try reflexivity; lia.
Qed.
Lemma chain_blocks : forall l a d b, chain (a :: l) -> In b (blocks (a :: l)) -> a <= fst b /\ fst b <= snd b /\ snd b <= last (a :: l) d.
Proof.
  induction l as [|b l IH]; intros a d c C J; [destruct J|]. change (blocks (a :: b :: l)) with ((a, b) :: blocks (b :: l)) in J. change (last (a :: b :: l) d) with (last (b :: l) d). pose proof (C 0%nat a b eq_refl eq_refl) as AB. pose proof (chain_last l b d (chain_tail _ _ C)) as BL.
  destruct J as [<-|J]; [cbn [fst snd]; lia|]. destruct (IH b d c (chain_tail _ _ C) J). lia.
Qed.
Lemma valid_cover N l : valid_inds N l -> exact_cover N (blocks l) /\ forall b, In b (blocks l) -> 0 <= fst b.
Proof.
  intros (L & F & La & C). destruct l as [|a l]; [cbn in L; lia|]. cbn [nth] in F. subst a. fold (chain (0 :: l)) in C. split; [split|].
  - intros k K. rewrite (chain_count l 0 (-1) k C). rewrite La. destruct (Z.leb_spec 0 k), (Z.ltb_spec k (N + 1)); try reflexivity; lia.
  - intros k b J I. destruct (chain_blocks l 0 (-1) b C J) as (X1 & X2 & X3). unfold inb in I. apply andb_true_iff in I. destruct I as [I1 I2]. apply Z.leb_le in I1. apply Z.ltb_lt in I2. rewrite La in X3. lia.
  - intros b J. apply (chain_blocks l 0 (-1) b C J).
Qed.
Lemma increasing_chain l : increasing l = true -> forall i a b, nth_error l i = Some a -> nth_error l (S i) = Some b -> a < b.
Proof.
  induction l as [|x l IH]; intros E i a b A B; [destruct i; discriminate|]. destruct l as [|y l]; [destruct i as [|[|i]]; discriminate|].
  cbn [increasing] in E. apply andb_true_iff in E. destruct i as [|i].
  - cbn in A, B. injection A as ->. injection B as ->. apply Z.ltb_lt. apply E.
  - exact (IH (proj2 E) i a b A B).
Qed.
Lemma chain_increasing l : (forall i a b, nth_error l i = Some a -> nth_error l (S i) = Some b -> a < b) -> increasing l = true.
Proof.
  induction l as [|x [|y l] IH]; intros E; try reflexivity. cbn [increasing]. apply andb_true_iff. split; [apply Z.ltb_lt; exact (E 0%nat x y eq_refl eq_refl)|]. apply IH. intros i a b A B. exact (E (S i) a b A B).
Qed.
Lemma chain_app_last l d : l <> [] -> chain l -> chain (removelast l ++ [last l d + 1]).
Proof.
  induction l as [|x [|y l] IH]; intros NE C; [congruence| |].
  - intros [|[|i]] a b A B; cbn in *; discriminate.
  - change (removelast (x :: y :: l) ++ [last (x :: y :: l) d + 1]) with (x :: (removelast (y :: l) ++ [last (y :: l) d + 1])).
    specialize (IH ltac:(discriminate) (chain_tail _ _ C)). intros [|i] a b A B; [|exact (IH i a b A B)]. cbn [nth_error] in A. injection A as <-.
    pose proof (C 0%nat x y eq_refl eq_refl) as XY. destruct l as [|z l]; [cbn in B; injection B as <-; lia|]. cbn in B. injection B as <-. exact XY.
Qed.

(** * the loop, in any arithmetic whose additions do not decrease *)
Section Loop.
Context {F : Scalar} (rnd : F -> Z) (Nf step : F) (G : F -> Prop).
Context (Hm : forall v, G v -> leb v Nf = true -> G (add v step) /\ (leb (add v step) Nf = true -> rnd v <= rnd (add v step))).
Lemma loop_head fuel v l : task_loop rnd fuel Nf step v = Ok l -> l <> [] -> leb v Nf = true /\ hd_error l = Some (rnd v).
Proof.
  destruct fuel as [|f]; cbn; [discriminate|]. destruct (leb v Nf); [|intros E; injection E as <-; congruence]. destruct (task_loop rnd f Nf step (add v step)); try discriminate. intros E _. injection E as <-. split; reflexivity.
Qed.
Lemma loop_chain fuel : forall v l, G v -> task_loop rnd fuel Nf step v = Ok l -> chain l.
Proof.
  induction fuel as [|f IH]; intros v l Gv E; cbn in E; [discriminate|]. destruct (leb v Nf) eqn:LV; [|injection E as <-; intros [|i] a b A; discriminate].
  destruct (Hm v Gv LV) as [G' M]. destruct (task_loop rnd f Nf step (add v step)) as [r| | | | |] eqn:R; try discriminate. injection E as <-.
  intros [|i] a b A B; [|exact (IH _ _ G' R i a b A B)]. cbn in A. injection A as <-. destruct r as [|y r]; [discriminate|]. cbn in B. injection B as <-.
  destruct (loop_head f _ _ R ltac:(discriminate)) as [L H]. cbn in H. injection H as ->. apply M. exact L.
Qed.
End Loop.
Lemma last_any {A} (l : list A) d d' : l <> [] -> last l d = last l d'.
Proof. induction l as [|x [|y l] IH]; intros; [congruence|reflexivity|]. apply IH. discriminate. Qed.
Lemma last_snoc {A} (l : list A) x d : last (l ++ [x]) d = x.
Proof. induction l as [|y l IH]; [reflexivity|]. destruct l; [reflexivity|exact IH]. Qed.
(** what the assertion at the end guarantees *)
Lemma loop_valid N l : 1 <= N -> chain l -> hd_error l = Some 0 -> last l 0 = N -> valid_inds N (removelast l ++ [last l 0 + 1]).
Proof.
  intros HN C H L. destruct l as [|x [|y l]]; [discriminate| |].
  - cbn in *. injection H as ->. lia.
  - cbn in H. injection H as ->. split; [|split; [reflexivity|split]].
    + rewrite app_length. cbn. lia.
    + rewrite last_snoc. lia.
    + apply chain_app_last; [discriminate|exact C].
Qed.

(** * exact arithmetic *)
Section Exact.
Local Open Scope R_scope.
Lemma r_round_pos x : 0 <= x -> r_round x = Int_part (x + / 2).
Proof. intros P. unfold r_round. destruct (Rlt_dec x 0); [lra|reflexivity]. Qed.
Lemma int_part_le a b : a <= b -> (Int_part a <= Int_part b)%Z.
Proof.
  intros L. destruct (base_Int_part a) as [A1 A2]. destruct (base_Int_part b) as [B1 B2]. apply Z.lt_succ_r. apply lt_IZR. rewrite succ_IZR. lra.
Qed.
Lemma int_part_unique x z : IZR z <= x -> x < IZR z + 1 -> Int_part x = z.
Proof.
  intros A B. destruct (base_Int_part x) as [C D]. apply Z.le_antisymm; apply Z.lt_succ_r; apply lt_IZR; rewrite succ_IZR; lra.
Qed.
Lemma r_round_le a b : 0 <= a -> a <= b -> (r_round a <= r_round b)%Z.
Proof. intros P L. rewrite !r_round_pos by lra. apply int_part_le. lra. Qed.
Lemma r_round_near x z : IZR z - / 2 <= x -> x < IZR z + / 2 -> 0 <= x -> r_round x = z.
Proof. intros A B P. rewrite r_round_pos by exact P. apply int_part_unique; lra. Qed.
Lemma r_round_int z : (0 <= z)%Z -> r_round (IZR z) = z.
Proof. intros P. apply r_round_near; [lra|lra|apply IZR_le; exact P]. Qed.
(** the boundaries i N / p *)
Definition exact_inds (N p : Z) : list Z := map (fun i => r_round (INR i * (IZR N / IZR p))) (seq 0 (S (Z.to_nat p))).
Lemma loop_exact N p : (1 <= N)%Z -> (1 <= p)%Z -> forall k fuel i, (k + i = S (Z.to_nat p))%nat -> (k < fuel)%nat ->
  task_loop (F:=RS) r_round fuel (IZR N) (IZR N / IZR p) (INR i * (IZR N / IZR p)) = Ok (map (fun i => r_round (INR i * (IZR N / IZR p))) (seq i k)).
Proof.
  intros HN HP. assert (PP : 0 < IZR p) by (apply IZR_lt; lia). assert (NN : 0 < IZR N) by (apply IZR_lt; lia). assert (IP : INR (Z.to_nat p) = IZR p) by (rewrite INR_IZR_INZ, Z2Nat.id by lia; reflexivity).
  assert (SP : 0 < IZR N / IZR p) by (apply Rdiv_lt_0_compat; lra).
  induction k as [|k IH]; intros fuel i E L; (destruct fuel as [|f]; [lia|]); cbn [task_loop].
  - assert (X : leb (s:=RS) (INR i * (IZR N / IZR p)) (IZR N) = false); [|rewrite X; reflexivity]. apply Rleb_false. replace i with (S (Z.to_nat p)) by lia. rewrite S_INR, IP. replace ((IZR p + 1) * (IZR N / IZR p)) with (IZR N + IZR N / IZR p) by (field; lra). lra.
  - assert (X : leb (s:=RS) (INR i * (IZR N / IZR p)) (IZR N) = true).
    { apply Rleb_true. assert (INR i <= IZR p) by (rewrite <- IP; apply le_INR; lia). replace (IZR N) with (IZR p * (IZR N / IZR p)) at 2 by (field; lra). apply Rmult_le_compat_r; lra. }
    rewrite X. change (add (s:=RS) (INR i * (IZR N / IZR p)) (IZR N / IZR p)) with (INR i * (IZR N / IZR p) + IZR N / IZR p). replace (INR i * (IZR N / IZR p) + IZR N / IZR p) with (INR (S i) * (IZR N / IZR p)) by (rewrite S_INR; ring).
    rewrite (IH f (S i)) by lia. reflexivity.
Qed.
Lemma exact_chain N p : (1 <= N)%Z -> (1 <= p)%Z -> chain (exact_inds N p).
Proof.
  intros HN HP i a b A B. unfold exact_inds in *. rewrite nth_error_map in A, B.
  destruct (nth_error (seq 0 (S (Z.to_nat p))) i) as [x|] eqn:X; [|discriminate]. destruct (nth_error (seq 0 (S (Z.to_nat p))) (S i)) as [y|] eqn:Y; [|discriminate]. cbn [option_map] in A, B. injection A as <-. injection B as <-.
  apply nth_error_nth with (d := 0%nat) in X as X'. apply nth_error_nth with (d := 0%nat) in Y as Y'. assert (i < S (Z.to_nat p))%nat by (pose proof (proj1 (nth_error_Some (seq 0 (S (Z.to_nat p))) i) ltac:(congruence)) as Q; rewrite seq_length in Q; exact Q).
  assert (S i < S (Z.to_nat p))%nat by (pose proof (proj1 (nth_error_Some (seq 0 (S (Z.to_nat p))) (S i)) ltac:(congruence)) as Q; rewrite seq_length in Q; exact Q). rewrite seq_nth in X', Y' by assumption. subst x y.
  assert (SP : 0 < IZR N / IZR p) by (apply Rdiv_lt_0_compat; apply IZR_lt; lia). apply r_round_le.
  - apply Rmult_le_pos; [apply pos_INR|lra].
  - apply Rmult_le_compat_r; [lra|]. apply le_INR. lia.
Qed.
Lemma exact_hd N p : hd_error (exact_inds N p) = Some 0%Z.
Proof. unfold exact_inds. cbn [seq map hd_error]. f_equal. cbn [INR]. rewrite Rmult_0_l. apply (r_round_int 0). lia. Qed.
Lemma exact_last N p : (1 <= N)%Z -> (1 <= p)%Z -> last (exact_inds N p) 0%Z = N.
Proof.
  intros HN HP. unfold exact_inds. rewrite seq_S, map_app. cbn [map]. rewrite last_snoc. cbn [Nat.add]. rewrite INR_IZR_INZ, Z2Nat.id by lia. replace (IZR p * (IZR N / IZR p)) with (IZR N) by (field; apply not_0_IZR; lia). apply r_round_int. lia.
Qed.
Lemma exact_default fuel debug N nt tpt : (1 <= N)%Z -> (1 <= nt * tpt)%Z -> int_ok (nt * tpt) = true -> (S (Z.to_nat (nt * tpt)) < fuel)%nat ->
  default_inds (F:=RS) r_round fuel debug N nt tpt = Ok (removelast (exact_inds N (nt * tpt)) ++ [(N + 1)%Z]).
Proof.
  intros HN HP IO FU. unfold default_inds, imul. rewrite IO. cbn [bind]. 
  pose proof (loop_exact N (nt * tpt) HN HP (S (Z.to_nat (nt * tpt))) fuel 0) as L. cbn [INR] in L. rewrite Rmult_0_l in L. change (ofZ (s:=RS)) with IZR. change (zero (s:=RS)) with 0. change (div (s:=RS)) with Rdiv. rewrite L by lia. cbn [bind].
  fold (exact_inds N (nt * tpt)). pose proof (exact_hd N (nt * tpt)) as H. destruct (exact_inds N (nt * tpt)) as [|x r] eqn:E; [discriminate|]. rewrite <- E in *. rewrite exact_last by assumption. rewrite Z.eqb_refl. unfold altro_assert. rewrite andb_false_r. cbn [bind]. reflexivity.
Qed.
Lemma exact_valid N p : (1 <= N)%Z -> (1 <= p)%Z -> valid_inds N (removelast (exact_inds N p) ++ [(N + 1)%Z]).
Proof.
  intros HN HP. pose proof (loop_valid N (exact_inds N p) HN (exact_chain N p HN HP) (exact_hd N p) (exact_last N p HN HP)) as V. rewrite (exact_last N p HN HP) in V. exact V.
Qed.
Lemma exact_length N p : length (removelast (exact_inds N p) ++ [(N + 1)%Z]) = S (Z.to_nat p).
Proof. unfold exact_inds. rewrite seq_S, map_app. cbn [map]. rewrite removelast_last, app_length, map_length, seq_length. cbn. lia. Qed.
End Exact.
