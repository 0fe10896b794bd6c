(** Interleavings of blocks of actions on disjoint cells. *)
From Coq Require Import List ZArith Bool Lia Arith FinFun.
From Verif Require Import Base Lin StatsModel TrajModel IlqrModel PoolSpec PoolModel TaskModel TaskSpec.
Import ListNotations.

(** * cells *)
Section Cells.
Context {C : Type}.
Definition cells_run (ds : list (nat * (C -> C))) (l : list C) : list C := fold_left (fun l d => upd (fst d) (snd d) l) ds l.
Definition at_cell (k : nat) (d : nat * (C -> C)) : bool := Nat.eqb (fst d) k.
Lemma cells_length ds : forall l, length (cells_run ds l) = length l.
Proof. induction ds as [|d ds IH]; intros l; [reflexivity|]. cbn. unfold cells_run in IH. rewrite IH. apply upd_length. Qed.
Lemma cells_nth ds : forall l k, nth_error (cells_run ds l) k = option_map (fun c => fold_left (fun c f => f c) (map snd (filter (at_cell k) ds)) c) (nth_error l k).
Proof.
  induction ds as [|[i f] ds IH]; intros l k; [cbn; destruct (nth_error l k); reflexivity|].
  cbn [cells_run fold_left filter fst snd]. fold (cells_run ds (upd i f l)). rewrite IH. unfold at_cell at 2. cbn [fst]. destruct (Nat.eqb_spec i k) as [->|N].
  - rewrite nth_error_upd_same. destruct (nth_error l k); reflexivity.
  - rewrite nth_error_upd_other by exact N. reflexivity.
Qed.
Lemma list_ext {A} : forall (l l' : list A), (forall k, nth_error l k = nth_error l' k) -> l = l'.
Proof. induction l as [|a l IH]; intros [|b l'] E; auto; [discriminate (E 0)|discriminate (E 0)|]. pose proof (E 0) as E0. cbn in E0. injection E0 as ->. f_equal. apply IH. intros k. exact (E (S k)). Qed.
Lemma cells_eq ds ds' l : (forall k, k < length l -> filter (at_cell k) ds = filter (at_cell k) ds') -> cells_run ds l = cells_run ds' l.
Proof.
  intros E. apply list_ext. intros k. rewrite !cells_nth. destruct (nth_error l k) eqn:N; [|reflexivity]. rewrite E; [reflexivity|]. apply nth_error_Some. congruence.
Qed.
End Cells.

(** * blocks that cover *)
Section Cover.
Local Open Scope Z_scope.
Lemma unique_block k bs : length (filter (inb k) bs) = 1%nat -> exists i b, nth_error bs i = Some b /\ inb k b = true /\ forall i' b', nth_error bs i' = Some b' -> inb k b' = true -> i' = i.
Proof.
  induction bs as [|b bs IH]; cbn [filter]; [discriminate|]. destruct (inb k b) eqn:E; intros L.
  - cbn [length] in L. injection L as L. exists 0%nat, b. split; [reflexivity|]. split; [exact E|]. intros [|i'] b' N I; [reflexivity|]. cbn in N. exfalso.
    assert (J : In b' (filter (inb k) bs)) by (apply filter_In; split; [eapply nth_error_In; eauto|exact I]). destruct (filter (inb k) bs); [exact J|discriminate].
  - destruct (IH L) as (i & b0 & N & I & U). exists (S i), b0. split; [exact N|]. split; [exact I|]. intros [|i'] b' N' I'; [cbn in N'; congruence|]. f_equal. eapply U; eauto.
Qed.
Lemma in_zrange a b k : In k (zrange a b) <-> a <= k < b.
Proof.
  unfold zrange. rewrite in_map_iff. split.
  - intros (i & <- & J). apply in_seq in J. lia.
  - intros J. exists (Z.to_nat (k - a)). split; [lia|]. apply in_seq. lia.
Qed.
Lemma zrange_nodup a b : NoDup (zrange a b).
Proof. unfold zrange. apply Injective_map_NoDup; [intros x y E; lia|apply seq_NoDup]. Qed.
Lemma zrange_nil a b : b <= a -> zrange a b = [].
Proof. intros L. unfold zrange. replace (Z.to_nat (b - a)) with 0%nat by lia. reflexivity. Qed.
End Cover.

(** * the trace of a history *)
Section Trace.
Context {M C : Type} (D : nat -> nat -> option (nat * (C -> C))).
Definition trace (H : list (pev M)) : list (nat * (C -> C)) :=
  flat_map (fun e => match e with EAct id j => match D id j with Some d => [d] | None => [] end | _ => [] end) H.
Lemma trace_app H1 H2 : trace (H1 ++ H2) = trace H1 ++ trace H2.
Proof. apply flat_map_app. Qed.
Lemma trace_task k t H : (forall id j d, D id j = Some d -> fst d = k -> id = t) -> filter (at_cell k) (trace H) = filter (at_cell k) (trace (filter (about t) H)).
Proof.
  intros U. induction H as [|e H IH]; [reflexivity|]. cbn [filter]. change (e :: H) with ([e] ++ H). rewrite trace_app, filter_app, IH. destruct (about t e) eqn:A.
  - change (e :: filter (about t) H) with ([e] ++ filter (about t) H). rewrite trace_app, filter_app. reflexivity.
  - destruct e; try reflexivity. cbn in A. apply Nat.eqb_neq in A. cbn. destruct (D id j) as [d|] eqn:E; [|reflexivity]. cbn. destruct (at_cell k d) eqn:AC; [|reflexivity]. exfalso. apply A. apply Nat.eqb_eq in AC. eapply U; eauto.
Qed.
Lemma trace_life t b ds : length ds = length b -> (forall j, D t j = nth_error ds j) -> trace (life t b) = ds.
Proof.
  intros L E. unfold life. cbn [trace flat_map app]. fold trace. rewrite flat_map_app. cbn. rewrite app_nil_r, <- L. clear L.
  assert (G : forall o l, flat_map (fun e : pev M => match e with EAct id j => match D id j with Some d => [d] | None => [] end | _ => [] end) (map (EAct t) (seq o l)) = flat_map (fun j => match nth_error ds j with Some d => [d] | None => [] end) (seq o l)).
  { intros o l. revert o. induction l as [|l IH]; intros o; [reflexivity|]. cbn. rewrite IH, E. reflexivity. }
  rewrite G. clear G E. revert ds. 
  assert (X : forall (ds pre : list (nat * (C -> C))), flat_map (fun j => match nth_error (pre ++ ds) j with Some d => [d] | None => [] end) (seq (length pre) (length ds)) = ds).
  { induction ds as [|d ds IH]; intros pre; [reflexivity|]. cbn [length seq flat_map]. rewrite nth_error_app2, Nat.sub_diag by lia. cbn [nth_error app]. f_equal. specialize (IH (pre ++ [d])). rewrite app_length in IH. cbn in IH. rewrite <- app_assoc in IH. cbn in IH. rewrite Nat.add_1_r in IH. exact IH. }
  intros ds. exact (X ds []).
Qed.
End Trace.

(** * the solver's memory *)
Section Mem.
Context {F : Scalar} {CS : Type} (ops : CostOps F CS) (n m : nat).
Notation KPF := (KPF F CS). Notation mem := (@mem F CS).
Notation C := (KPF * F)%type.

Lemma combine_upd2 {A B} : forall (ks : list A) (cs : list B) i a' c', length ks = length cs -> combine (upd i (fun _ => a') ks) (upd i (fun _ => c') cs) = upd i (fun _ => (a', c')) (combine ks cs).
Proof. induction ks as [|x ks IH]; intros [|y cs] [|i] a' c' L; cbn in *; try discriminate; auto. f_equal. apply IH. lia. Qed.
Lemma upd_const {A} i (f : A -> A) l a : nth_error l i = Some a -> upd i f l = upd i (fun _ => f a) l.
Proof. revert i. induction l as [|x l IH]; intros [|i] E; cbn in *; try discriminate; [injection E as ->; reflexivity|]. f_equal. apply IH. exact E. Qed.
Lemma nth_combine {A B} : forall (ks : list A) (cs : list B) i a c, nth_error ks i = Some a -> nth_error cs i = Some c -> nth_error (combine ks cs) i = Some (a, c).
Proof. induction ks as [|x ks IH]; intros [|y cs] [|i] a c E1 E2; cbn in *; try discriminate; [congruence|]. apply IH; auto. Qed.
Lemma on_cell k f ks cs : length ks = length cs -> k < length ks -> exists ks' cs', on (Z.of_nat k) f (Ok (ks, cs) : mem) = Ok (ks', cs') /\ length ks' = length ks /\ length cs' = length cs /\ combine ks' cs' = upd k f (combine ks cs).
Proof.
  intros L K. unfold on. cbn [bind]. replace (Z.of_nat k <? 0)%Z with false by (symmetry; apply Z.ltb_ge; lia). rewrite Nat2Z.id.
  destruct (nth_error ks k) as [a|] eqn:E1; [|apply nth_error_None in E1; lia]. destruct (nth_error cs k) as [c|] eqn:E2; [|apply nth_error_None in E2; lia].
  destruct (f (a, c)) as [a' c'] eqn:FE. exists (upd k (fun _ => a') ks), (upd k (fun _ => c') cs). split; [reflexivity|]. rewrite !upd_length. split; [reflexivity|]. split; [reflexivity|].
  rewrite combine_upd2 by exact L. rewrite (upd_const k f _ (a, c)); [rewrite FE; reflexivity|]. apply nth_combine; auto.
Qed.
(** block actions as descriptors *)
Definition block_desc (Zt : Traj F) (b : Z * Z) : list (nat * (C -> C)) :=
  flat_map (fun k => match nth_error Zt (Z.to_nat k) with Some z => map (pair (Z.to_nat k)) (kp_actions ops n m z) | None => [] end) (zrange (fst b) (snd b)).
Definition act_of (d : nat * (C -> C)) : mem -> mem := on (Z.of_nat (fst d)) (snd d).
Lemma block_acts_desc Zt b : (forall k, inb k b = true -> 0 <= k < Z.of_nat (length Zt))%Z -> block_acts ops n m Zt b = map act_of (block_desc Zt b).
Proof.
  intros V. unfold block_acts, block_desc.
  assert (G : forall l, (forall k, In k l -> 0 <= k < Z.of_nat (length Zt))%Z ->
    flat_map (fun k => match nth_error Zt (Z.to_nat k) with Some z => if (k <? 0)%Z then [fun _ => UB] else map (on k) (kp_actions ops n m z) | None => [fun _ => UB] end) l =
    map act_of (flat_map (fun k => match nth_error Zt (Z.to_nat k) with Some z => map (pair (Z.to_nat k)) (kp_actions ops n m z) | None => [] end) l)).
  { induction l as [|k l IH]; intros VL; [reflexivity|]. cbn [flat_map]. rewrite map_app, <- IH by (intros; apply VL; right; assumption). f_equal.
    pose proof (VL k (or_introl eq_refl)). destruct (nth_error Zt (Z.to_nat k)) as [z|] eqn:E; [|apply nth_error_None in E; lia].
    replace (k <? 0)%Z with false by (symmetry; apply Z.ltb_ge; lia). rewrite map_map. apply map_ext. intros f. unfold act_of. cbn [fst snd]. rewrite Z2Nat.id by lia. reflexivity. }
  apply G. intros k J. apply in_zrange in J. apply V. unfold inb. apply andb_true_iff. split; [apply Z.leb_le|apply Z.ltb_lt]; lia.
Qed.
Lemma block_desc_in Zt b d : In d (block_desc Zt b) -> exists k, (fst b <= k < snd b)%Z /\ fst d = Z.to_nat k /\ Z.to_nat k < length Zt.
Proof.
  unfold block_desc. intros J. apply in_flat_map in J. destruct J as (k & J1 & J2). apply in_zrange in J1. exists k. destruct (nth_error Zt (Z.to_nat k)) as [z|] eqn:E; [|destruct J2].
  apply in_map_iff in J2. destruct J2 as (f & <- & _). repeat split; try lia. apply nth_error_Some. congruence.
Qed.
(** the actions on one cell within a block that contains it *)
Lemma block_desc_cell Zt b k z : (0 <= fst b)%Z -> inb (Z.of_nat k) b = true -> nth_error Zt k = Some z -> filter (at_cell k) (block_desc Zt b) = map (pair k) (kp_actions ops n m z).
Proof.
  intros P I E. unfold block_desc. apply andb_true_iff in I. destruct I as [I1 I2]. apply Z.leb_le in I1. apply Z.ltb_lt in I2.
  assert (J : In (Z.of_nat k) (zrange (fst b) (snd b))) by (apply in_zrange; lia). pose proof (zrange_nodup (fst b) (snd b)) as ND.
  assert (POS : forall x, In x (zrange (fst b) (snd b)) -> (0 <= x)%Z) by (intros x X; apply in_zrange in X; lia).
  revert J ND POS. generalize (zrange (fst b) (snd b)). intros l J ND POS.
  set (g := fun k0 : Z => match nth_error Zt (Z.to_nat k0) with Some z0 => map (pair (Z.to_nat k0)) (kp_actions ops n m z0) | None => [] end).
  assert (OTHER : forall x, (0 <= x)%Z -> x <> Z.of_nat k -> filter (at_cell k) (g x) = []).
  { intros x X NE. unfold g. destruct (nth_error Zt (Z.to_nat x)) as [z0|]; [|reflexivity]. induction (kp_actions ops n m z0) as [|f fs IH]; [reflexivity|]. cbn. unfold at_cell at 1. cbn. replace (Nat.eqb (Z.to_nat x) k) with false by (symmetry; apply Nat.eqb_neq; lia). exact IH. }
  assert (SAME : filter (at_cell k) (g (Z.of_nat k)) = map (pair k) (kp_actions ops n m z)).
  { unfold g. rewrite Nat2Z.id, E. induction (kp_actions ops n m z) as [|f fs IH]; [reflexivity|]. cbn. unfold at_cell at 1. cbn. rewrite Nat.eqb_refl. f_equal. exact IH. }
  assert (NONE : forall l0, (forall x, In x l0 -> (0 <= x)%Z /\ x <> Z.of_nat k) -> filter (at_cell k) (flat_map g l0) = []).
  { induction l0 as [|x l0 IH]; intros V; [reflexivity|]. cbn. rewrite filter_app, IH by (intros; apply V; right; assumption). destruct (V x (or_introl eq_refl)). rewrite OTHER by assumption. reflexivity. }
  induction l as [|x l IH]; [destruct J|]. cbn [flat_map]. rewrite filter_app. inversion ND; subst. destruct J as [-> |J].
  - rewrite SAME, NONE, app_nil_r; [reflexivity|]. intros y Y. split; [apply POS; right; exact Y|]. intros ->. contradiction.
  - rewrite OTHER, IH; auto; [intros y Y; apply POS; right; exact Y|apply POS; left; reflexivity|intros ->; contradiction].
Qed.
Lemma block_desc_other Zt b k : (0 <= fst b)%Z -> inb (Z.of_nat k) b = false -> filter (at_cell k) (block_desc Zt b) = [].
Proof.
  intros P I. assert (G : forall d, In d (block_desc Zt b) -> at_cell k d = false).
  { intros d J. apply block_desc_in in J. destruct J as (x & X1 & X2 & _). unfold at_cell. apply Nat.eqb_neq. intros X. rewrite X in X2. unfold inb in I. apply andb_false_iff in I. destruct I as [I|I]; [apply Z.leb_gt in I|apply Z.ltb_ge in I]; lia. }
  induction (block_desc Zt b) as [|d l IH]; [reflexivity|]. cbn. rewrite G by (left; reflexivity). apply IH. intros d' J. apply G. right. exact J.
Qed.
(** running descriptors on the memory *)
Lemma run_desc ds : forall ks cs, length ks = length cs -> (forall d, In d ds -> fst d < length ks) ->
  exists ks' cs', fold_left (fun s a => a s) (map act_of ds) (Ok (ks, cs) : mem) = Ok (ks', cs') /\ length ks' = length ks /\ length cs' = length cs /\ combine ks' cs' = cells_run ds (combine ks cs).
Proof.
  induction ds as [|d ds IH]; intros ks cs L V.
  - exists ks, cs. repeat split; reflexivity.
  - cbn [map fold_left]. destruct (on_cell (fst d) (snd d) ks cs L (V d (or_introl eq_refl))) as (ks1 & cs1 & E & L1 & L2 & CE). unfold act_of at 2. rewrite E.
    destruct (IH ks1 cs1) as (ks' & cs' & E' & L1' & L2' & CE'); [congruence|rewrite L1; intros; apply V; right; assumption|]. exists ks', cs'. rewrite E'. split; [reflexivity|]. repeat split; [congruence..|]. rewrite CE', CE. reflexivity.
Qed.
Lemma combine_inj {A B} : forall (a a' : list A) (b b' : list B), length a = length b -> length a' = length b' -> combine a b = combine a' b' -> a = a' /\ b = b'.
Proof. induction a as [|x a IH]; intros [|y a'] [|u b] [|v b'] L L' E; cbn in *; try discriminate; auto. injection E as -> -> E. destruct (IH a' b b') as [-> ->]; auto. Qed.
End Mem.
