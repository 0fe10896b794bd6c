(** C88: exceptions of user functions during the update of the expansions. *)
From Coq Require Import List ZArith QArith Bool Lia Arith.
From Verif Require Import Base Lin StatsModel TrajModel IlqrModel PoolSpec PoolModel PoolProofs PoolProofs4 TaskModel TaskSpec ParModel ParProofs ParProofs2 ParProofs3 TaskProofs P_Task ThrowModel ThrowProofs.
Import ListNotations.
Local Open Scope Z_scope.

Section C88.
Context {F : Scalar} {CS : Type} (ops : CostOps F CS) (n m : nat).
Notation C := (KPF F CS * F)%type.
Context (thr : Z -> nat -> bool) (part : Z -> nat -> C -> C).
(** one of the three statements at knot point k throws *)
Definition raises (k : Z) : Prop := exists j, (j < 3)%nat /\ thr k j = true.
(** knot point and cost after all three statements, and after the first j of them *)
Definition updated (z : KP F) (c : C) : C := let (J, a) := expand_kp ops n m z (fst c) in (a, J).
Definition after (j : nat) (z : KP F) (c : C) : C := fold_left (fun c f => f c) (firstn j (kp_actions ops n m z)) c.
(** what becomes of knot point k when the loop starts at [a]: it is updated if nothing was thrown up to it; it stays as it was if
    something was thrown before it; the statement that throws leaves what it leaves *)
Definition outcome (a k : Z) (z : KP F) (c c' : C) : Prop :=
  ((forall i, a <= i <= k -> ~ raises i) -> c' = updated z c) /\
  ((exists i, a <= i < k /\ raises i) -> c' = c) /\
  (forall j, (forall i, a <= i < k -> ~ raises i) -> (j < 3)%nat -> thr k j = true -> (forall j', (j' < j)%nat -> thr k j' = false) -> c' = part k j (after j z c)).

Context (Zt : Traj F).
Lemma kthrows_iff k z : nth_error Zt (Z.to_nat k) = Some z -> (kthrows ops n m thr part Zt k = true <-> raises k).
Proof.
  intros NZ. unfold kthrows, kp_of. rewrite NZ. unfold kp_actions. cbn [kp_cut]. unfold raises. destruct (thr k 0) eqn:T0; [split; [intros _; exists 0%nat; split; [lia|exact T0]|reflexivity]|].
  destruct (thr k 1) eqn:T1; [split; [intros _; exists 1%nat; split; [lia|exact T1]|reflexivity]|]. destruct (thr k 2) eqn:T2; [split; [intros _; exists 2%nat; split; [lia|exact T2]|reflexivity]|].
  cbn. split; [discriminate|]. intros (j & J & T). destruct j as [|[|[|j]]]; [congruence..|lia].
Qed.
Lemma throws_list l : (forall i, In i l -> 0 <= i < Z.of_nat (length Zt)) -> (existsb (kthrows ops n m thr part Zt) l = true <-> exists i, In i l /\ raises i).
Proof.
  intros V. rewrite existsb_exists. split; intros (i & I & R); exists i; (split; [exact I|]); pose proof (V i I); (destruct (nth_error Zt (Z.to_nat i)) as [z|] eqn:NZ; [|apply nth_error_None in NZ; lia]); apply (kthrows_iff i z NZ); exact R.
Qed.
Lemma done_outcome a k z c : 0 <= a <= k -> k < Z.of_nat (length Zt) -> nth_error Zt (Z.to_nat k) = Some z -> outcome a k z c (done_at ops n m thr part Zt a k c).
Proof.
  intros A K NZ. assert (V : forall i, In i (zrange a k) -> 0 <= i < Z.of_nat (length Zt)) by (intros i I; apply in_zrange in I; lia). pose proof (throws_list (zrange a k) V) as TL. unfold done_at.
  assert (NOB : (forall i, a <= i < k -> ~ raises i) -> existsb (kthrows ops n m thr part Zt) (zrange a k) = false).
  { intros X. destruct (existsb (kthrows ops n m thr part Zt) (zrange a k)) eqn:E; [|reflexivity]. destruct (proj1 TL eq_refl) as (i & I & R). apply in_zrange in I. destruct (X i I R). }
  split; [|split].
  - intros X. rewrite NOB by (intros i I; apply X; lia). unfold kp_of. rewrite NZ. unfold kp_actions. cbn [kp_cut].
    assert (T : forall j, (j < 3)%nat -> thr k j = false) by (intros j J; destruct (thr k j) eqn:E; [|reflexivity]; destruct (X k ltac:(lia)); exists j; auto).
    rewrite !T by lia. cbn. unfold updated, expand_kp. destruct c as [ka J]. reflexivity.
  - intros (i & I & R). replace (existsb (kthrows ops n m thr part Zt) (zrange a k)) with true; [reflexivity|]. symmetry. apply TL. exists i. split; [apply in_zrange; exact I|exact R].
  - intros j X J T TB. rewrite NOB by exact X. unfold kp_of. rewrite NZ. unfold kp_actions. cbn [kp_cut]. destruct j as [|[|[|j]]]; [| | |lia].
    + rewrite T. reflexivity.
    + rewrite (TB 0%nat) by lia. rewrite T. reflexivity.
    + rewrite (TB 0%nat), (TB 1%nat) by lia. rewrite T. reflexivity.
Qed.
Lemma nth_ok {A} (l : list A) i : (i < length l)%nat -> exists x, nth_error l i = Some x.
Proof. intros L. destruct (nth_error l i) as [x|] eqn:E; [eauto|]. apply nth_error_None in E. lia. Qed.

(** Single-threaded: the exception leaves UpdateExpansions, and so Solve, exactly if some statement throws; the knot points before the first such one
    are updated, those behind it are as before. *)
Theorem C88_serial (N : Z) ks cs : Z.of_nat (length ks) = N + 1 -> length cs = length ks -> length Zt = length ks ->
  exists ks' cs' t, update_serial_t ops n m thr part N Zt (Ok (ks, cs)) = (Ok (ks', cs'), t) /\ length ks' = length ks /\ length cs' = length cs /\ (t = true <-> exists k, 0 <= k <= N /\ raises k) /\
  forall k z c, 0 <= k <= N -> nth_error Zt (Z.to_nat k) = Some z -> nth_error (combine ks cs) (Z.to_nat k) = Some c ->
    exists c', nth_error (combine ks' cs') (Z.to_nat k) = Some c' /\ outcome 0 k z c c'.
Proof.
  intros L1 L2 L3. destruct (throw_serial ops n m thr part Zt N ks cs L1 L2 L3) as (ks' & cs' & E & LK & LC & CC). exists ks', cs'. eexists. split; [exact E|]. split; [exact LK|]. split; [exact LC|]. split.
  - rewrite throws_list by (intros i I; apply in_zrange in I; lia). split; intros (i & I & R); exists i; (split; [|exact R]); [apply in_zrange in I; lia|apply in_zrange; lia].
  - intros k z c K NZ NC. exists (done_at ops n m thr part Zt 0 k c). split; [rewrite (CC k K), NC; reflexivity|]. apply done_outcome; [lia|lia|exact NZ].
Qed.
(** Several threads, any valid assignment, any schedule: UpdateExpansions returns normally with every task finished; each block ends as if it had
    been run alone up to its own first exception. *)
Theorem C88_parallel debug W H1 s1 sched H2 s2 (N : Z) inds ks cs : solver_run debug W H1 s1 ->
  (forall id, (id < length (added H1))%nat -> In (EFin id) H1) ->
  Z.of_nat (length ks) = N + 1 -> length cs = length ks -> length Zt = length ks -> valid_inds N inds -> p_mem s1 = Ok (ks, cs) ->
  p_exec debug sched s1 = Ok (H2 ++ [EWaited], s2) -> added H2 = update_tasks_t ops n m thr part (blocks inds) Zt -> no_timeout H2 ->
  (forall id, (id < length (added (H1 ++ H2 ++ [EWaited])))%nat -> In (EFin id) (H1 ++ H2 ++ [EWaited])) /\ calling (H1 ++ H2 ++ [EWaited]) = None /\
  exists ks' cs', p_mem s2 = Ok (ks', cs') /\ length ks' = length ks /\ length cs' = length cs /\
  forall k b z c, In b (blocks inds) -> inb k b = true -> nth_error Zt (Z.to_nat k) = Some z -> nth_error (combine ks cs) (Z.to_nat k) = Some c ->
    exists c', nth_error (combine ks' cs') (Z.to_nat k) = Some c' /\ outcome (fst b) k z c c'.
Proof.
  intros R FIN L1 L2 L3 V M E A NT. destruct (valid_cover N inds V) as [CV POS]. split; [|split].
  - destruct (round debug W H1 s1 sched H2 s2 R FIN E NT) as (_ & R2 & _ & _). intros id J. rewrite !added_app, !app_length in J. change (length (added [EWaited])) with 0%nat in J. apply in_or_app.
    destruct (Nat.lt_ge_cases id (length (added H1))) as [K|K]; [left; apply FIN; exact K|right]. apply in_or_app. left. destruct (nth_error (added H2) (id - length (added H1))) as [b|] eqn:B; [|apply nth_error_None in B; lia].
    specialize (R2 _ _ B). replace (length (added H1) + (id - length (added H1)))%nat with id in R2 by lia. apply (filter_In (about id)). rewrite R2. unfold life. right. right. apply in_or_app. right. left. reflexivity.
  - unfold calling. rewrite !fold_left_app. reflexivity.
  - destruct (throw_round ops n m thr part Zt debug W H1 s1 sched H2 s2 N (blocks inds) ks cs R FIN L1 L2 L3 CV POS M E A NT) as (ks' & cs' & ME & LK & LC & CC).
    exists ks', cs'. split; [exact ME|]. split; [exact LK|]. split; [exact LC|]. intros k b z c J I NZ NC. exists (done_at ops n m thr part Zt (fst b) k c). split; [rewrite (CC k b J I), NC; reflexivity|].
    pose proof (proj2 CV k b J I) as KN. apply andb_true_iff in I. destruct I as [I1 I2]. apply Z.leb_le in I1. apply done_outcome; [specialize (POS b J); lia|lia|exact NZ].
Qed.
(** Without exceptions this is the update of C34. *)
Theorem C88_none b : (forall k, inb k b = true -> 0 <= k < Z.of_nat (length Zt)) -> (forall k, inb k b = true -> ~ raises k) ->
  cut_block ops n m thr part Zt b = (block_acts ops n m Zt b, false).
Proof.
  intros V X. unfold cut_block, block_acts.
  assert (G : forall l, (forall k, In k l -> inb k b = true) -> cut_acts ops n m thr part Zt l = (flat_map (fun k => match nth_error Zt (Z.to_nat k) with Some z => if k <? 0 then [fun _ => UB] else map (on k) (kp_actions ops n m z) | None => [fun _ => UB] end) l, false)).
  { induction l as [|k l IH]; intros Q; [reflexivity|]. cbn [cut_acts flat_map]. specialize (IH (fun i I => Q i (or_intror I))). pose proof (Q k (or_introl eq_refl)) as I. pose proof (V k I) as VK. destruct (nth_error Zt (Z.to_nat k)) as [z|] eqn:NZ; [|apply nth_error_None in NZ; lia].
    replace (k <? 0) with false by (symmetry; apply Z.ltb_ge; lia). assert (T : forall j, (j < 3)%nat -> thr k j = false) by (intros j J; destruct (thr k j) eqn:E; [|reflexivity]; destruct (X k I); exists j; auto).
    assert (KC : kp_cut thr part k 0 (kp_actions ops n m z) = (kp_actions ops n m z, false)) by (unfold kp_actions; cbn [kp_cut]; rewrite !T by lia; reflexivity). rewrite KC, IH. reflexivity. }
  apply G. intros k J. apply in_zrange in J. unfold inb. apply andb_true_iff. split; [apply Z.leb_le|apply Z.ltb_lt]; lia.
Qed.
(** FINDING.  Whatever throws, wherever: with one thread the caller of Solve gets the exception; with several UpdateExpansions returns normally, and all
    knot points of the block behind the throwing one keep their old expansions and costs - the backward pass that follows uses them. *)
Theorem C88_lost_refuted debug W H1 s1 sched H2 s2 (N : Z) inds ks cs b k0 k : solver_run debug W H1 s1 ->
  (forall id, (id < length (added H1))%nat -> In (EFin id) H1) ->
  Z.of_nat (length ks) = N + 1 -> length cs = length ks -> length Zt = length ks -> valid_inds N inds -> p_mem s1 = Ok (ks, cs) ->
  p_exec debug sched s1 = Ok (H2 ++ [EWaited], s2) -> added H2 = update_tasks_t ops n m thr part (blocks inds) Zt -> no_timeout H2 ->
  In b (blocks inds) -> inb k0 b = true -> raises k0 -> inb k b = true -> k0 < k ->
  snd (update_serial_t ops n m thr part N Zt (p_mem s1)) = true /\ calling (H1 ++ H2 ++ [EWaited]) = None /\
  exists ks' cs', p_mem s2 = Ok (ks', cs') /\ nth_error (combine ks' cs') (Z.to_nat k) = nth_error (combine ks cs) (Z.to_nat k).
Proof.
  intros R FIN L1 L2 L3 V M E A NT JB I0 RS0 IK LT. destruct (valid_cover N inds V) as [CV POS]. pose proof (proj2 CV k0 b JB I0) as K0. pose proof (proj2 CV k b JB IK) as KN.
  destruct (C88_parallel debug W H1 s1 sched H2 s2 N inds ks cs R FIN L1 L2 L3 V M E A NT) as (_ & CA & ks' & cs' & ME & LK & LC & CC). split; [|split; [exact CA|]].
  - rewrite M. destruct (C88_serial N ks cs L1 L2 L3) as (ka & ca & t & ES & _ & _ & T & _). rewrite ES. cbn [snd]. apply T. exists k0. auto.
  - exists ks', cs'. split; [exact ME|]. destruct (nth_ok Zt (Z.to_nat k)) as (z & NZ); [lia|]. destruct (nth_ok (combine ks cs) (Z.to_nat k)) as (c & NC); [rewrite combine_length; lia|].
    destruct (CC k b z c JB IK NZ NC) as (c' & NC' & _ & O & _). rewrite NC', NC. f_equal. apply O. exists k0. split; [|exact RS0]. apply andb_true_iff in I0. destruct I0 as [I1 _]. apply Z.leb_le in I1. lia.
Qed.
End C88.
(** A run that meets the hypotheses: three knot points in blocks {0, 1} and {2}, two workers; the cost expansion of knot point 0 throws. *)
Section Run.
Context {M : Type} (a1 b1 b2 b3 : M -> M) (m0 : M).
Let mm (o : pop M) n : list (move M) := repeat (Main o false) n.
Let ww w n : list (move M) := repeat (Work w) n.
Definition throw_events : list (pev M) :=
  [ELaunch 2; ELaunched; EAdd 0 [a1]; EAdded 0; EAdd 1 [b1; b2; b3]; EAdded 1; EStart 0; EAct 0 0; EFin 0; EStart 1; EAct 1 0; EAct 1 1; EAct 1 2; EFin 1; EWait].
Lemma throw_run : exists sched s, p_exec true sched (p_init 2 m0) = Ok (throw_events ++ [EWaited], s) /\ p_mem s = b3 (b2 (b1 (a1 m0))).
Proof. exists (mm (PLaunch 2) 4 ++ mm (PAdd [a1]) 10 ++ mm (PAdd [b1; b2; b3]) 10 ++ ww 0 16 ++ ww 1 17 ++ mm PWait 4). eexists. vm_compute. split; reflexivity. Qed.
End Run.
Definition th_thr (k : Z) (j : nat) : bool := (k =? 0) && Nat.eqb j 0.
Definition th_part (k : Z) (j : nat) (c : KPF QS unit * QS) : KPF QS unit * QS := c.
Definition th_traj : Traj QS := [t_kp (3 # 1); t_kp (4 # 1); t_kp (5 # 1)].
Lemma th_valid : valid_inds 2 [0; 2; 3].
Proof. split; [cbn; lia|]. split; [reflexivity|]. split; [reflexivity|]. intros [|[|[|i]]] a b A B; cbn in A, B; try discriminate; injection A as <-; injection B as <-; lia. Qed.
(** afterwards the cost of knot point 1 is still the old one, 0, not 4; that of knot point 2 is new; the single-threaded solver reports the exception *)
Example C88_example : exists sched H2 s2, p_exec true sched (p_init 2 (Ok ([t_kpf; t_kpf; t_kpf], [zero; zero; zero]))) = Ok (H2 ++ [EWaited], s2) /\
  added H2 = update_tasks_t t_ops 1 1 th_thr th_part (blocks [0; 2; 3]) th_traj /\ no_timeout H2 /\ valid_inds 2 [0; 2; 3] /\ In (0, 2) (blocks [0; 2; 3]) /\
  inb 0 (0, 2) = true /\ raises th_thr 0 /\ inb 1 (0, 2) = true /\ (do x <- p_mem s2 ; Ok (snd x)) = Ok [zero (s:=QS); zero; (5 # 1)%Q : QS] /\
  snd (update_serial_t t_ops 1 1 th_thr th_part 2 th_traj (Ok ([t_kpf; t_kpf; t_kpf], [zero; zero; zero]))) = true.
Proof.
  edestruct (throw_run (M:=@mem QS unit)) as (sched & s & E & MS). exists sched. eexists. exists s. split; [exact E|]. split; [reflexivity|]. split.
  - intros id J. cbn in J. repeat destruct J as [J|J]; try discriminate. exact J.
  - split; [exact th_valid|]. split; [left; reflexivity|]. split; [reflexivity|]. split; [exists 0%nat; split; [lia|reflexivity]|]. split; [reflexivity|]. split; [etransitivity; [exact (f_equal (fun r => do x <- r ; Ok (snd x)) MS)|vm_compute; reflexivity]|reflexivity].
Qed.

Print Assumptions C88_serial. Print Assumptions C88_parallel. Print Assumptions C88_none. Print Assumptions C88_lost_refuted. Print Assumptions C88_example.
