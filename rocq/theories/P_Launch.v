(** C87: the work launcher of the tests and of the benchmark. *)
From Coq Require Import List ZArith Reals Lra Lia Bool Arith.
From Coq Require Import Floats.SpecFloat.
From Verif Require Import Base Lin StatsModel TrajModel IlqrModel PoolSpec PoolModel PoolProofs PoolProofs4 TaskModel TaskSpec ParModel ParProofs ParProofs2 TaskProofs FloatBridge TaskFloat TaskProofs2 P_Pool P_Task LaunchModel LaunchProofs.
Import ListNotations.
Local Open Scope Z_scope.

(** the counters of [n] items of which the first [m] have been worked on [k] times *)
Definition counted (n : nat) (m k : Z) (s : wmem) : Prop :=
  exists ws, s = Ok ws /\ length ws = n /\ forall i w, nth_error ws i = Some w -> fst w = if Z.of_nat i <? m then k else 0.

Lemma counted_sum n m k s : counted n m (Z.of_nat k) s -> 0 <= m <= Z.of_nat n -> Z.of_nat k * m < 2 ^ 31 -> sum_counts s = Ok (Z.of_nat k * m).
Proof.
  intros (ws & -> & L & C) M B. unfold sum_counts. cbn [bind].
  assert (T : fold_right (fun w s => fst w + s) 0 ws = Z.of_nat k * m).
  { rewrite (sum_shape ws 0 (Z.to_nat m) k); [rewrite Z2Nat.id by lia; lia|lia|lia|]. intros i J. destruct (nth_error ws i) as [w|] eqn:E; [|apply nth_error_None in E; lia]. cbn [option_map Nat.add]. rewrite (C i w E), Z2Nat.id by lia. reflexivity. }
  rewrite sum_from_ok; rewrite ?T; try lia; [f_equal; lia|]. intros w J. apply In_nth_error in J. destruct J as (i & J). rewrite (C i w J). destruct (Z.of_nat i <? m); lia.
Qed.
Lemma fresh_rounds debug W l n M k H s : la_work l = repeat (0, 0) n -> chain (la_inds l) -> hd_error (la_inds l) = Some 0 -> last (la_inds l) 0 = M -> M <= Z.of_nat n -> rounds debug W l k H s ->
  counted n M (Z.of_nat k) (p_mem s).
Proof.
  intros LW CH HD LA LM R. assert (LN : length (la_work l) = n) by (rewrite LW; apply repeat_length).
  destruct (rounds_inv debug W l M k H s CH HD LA ltac:(lia) R) as (_ & _ & ws & ME & LE & C). exists ws. split; [exact ME|]. split; [lia|]. intros i w E. specialize (C i). rewrite E in C.
  destruct (nth_error (la_work l) i) as [w0|] eqn:E0; [|discriminate]. cbn [option_map] in C. injection C as C. rewrite C. apply nth_error_In in E0. rewrite LW in E0. apply repeat_spec in E0. subst w0. cbn. destruct (Z.of_nat i <? M); lia.
Qed.
Lemma inds_pos l : chain l -> hd_error l = Some 0 -> 0 <= last l 0.
Proof. intros C H. destruct l as [|a r]; [discriminate|]. injection H as ->. apply (chain_last r 0 0 C). Qed.
Lemma blocks_length : forall l, Z.of_nat (length (blocks l)) = Z.max 0 (Z.of_nat (length l) - 1).
Proof. induction l as [|a [|b l] IH]; [reflexivity..|]. cbn [blocks length] in *. lia. Qed.

(** In exact arithmetic, for every number of items and threads: the launcher gets as many tasks as threads, and however the pool's threads
    are scheduled, after k rounds of CreateTasks and Wait every item has been worked on exactly k times. *)
Theorem C87_exact N nt : 1 <= N -> 1 <= nt -> exists l fuel, la_new (F:=RS) r_round fuel N nt = Ok l /\ la_threads l = nt /\ Z.of_nat (length (la_tasks l)) = nt /\
  forall debug W k H s, rounds debug W l k H s -> counted (Z.to_nat N) N (Z.of_nat k) (p_mem s) /\ (Z.of_nat k * N < 2 ^ 31 -> sum_counts (p_mem s) = Ok (Z.of_nat k * N)).
Proof.
  intros HN HP. exists (mkLauncher (repeat (0, 0) (Z.to_nat N)) (exact_inds N nt)), (2 + Z.to_nat nt)%nat.
  assert (LI : Z.of_nat (length (exact_inds N nt)) = nt + 1) by (unfold exact_inds; rewrite map_length, seq_length; lia).
  assert (TL : task_loop (F:=RS) r_round (2 + Z.to_nat nt) (ofZ N) (div (ofZ N) (ofZ nt)) zero = Ok (exact_inds N nt)).
  { pose proof (loop_exact N nt HN HP (S (Z.to_nat nt)) (2 + Z.to_nat nt) 0 ltac:(lia) ltac:(lia)) as X. unfold exact_inds. etransitivity; [|exact X]. f_equal. cbn. lra. }
  split; [unfold la_new; rewrite TL; reflexivity|]. split; [unfold la_threads; cbn [la_inds]; lia|]. split; [unfold la_tasks; rewrite map_length, blocks_length; cbn [la_inds]; lia|].
  intros debug W k H s R. assert (C : counted (Z.to_nat N) N (Z.of_nat k) (p_mem s)).
  { refine (fresh_rounds debug W _ (Z.to_nat N) N k H s _ _ _ _ _ R); [reflexivity|apply exact_chain; assumption|apply exact_hd|apply exact_last; assumption|lia]. }
  split; [exact C|]. intros B. eapply counted_sum; [exact C|lia|exact B].
Qed.
(** In doubles, for all numbers of items and up to 2^18 threads: the constructor's loop ends; after k rounds the items 0 .. M-1 have each been worked
    on exactly k times and the others never; M is at most N and misses it by less than N / nthreads + 1; there is one task per thread, or one
    task too few, and only in the latter case M can be less than N. *)
Theorem C87_float N nt : 1 <= N < 2 ^ 31 -> 1 <= nt <= 2 ^ 18 -> exists l M fuel, la_new (F:=FS) f_round fuel N nt = Ok l /\ 0 <= M <= N /\ (IZR N - IZR N / IZR nt - 1 < IZR M)%R /\
  Z.of_nat (length (la_tasks l)) = la_threads l /\ (la_threads l = nt /\ M = N \/ la_threads l = nt - 1) /\
  forall debug W k H s, rounds debug W l k H s -> counted (Z.to_nat N) M (Z.of_nat k) (p_mem s) /\ (Z.of_nat k * M < 2 ^ 31 -> sum_counts (p_mem s) = Ok (Z.of_nat k * M)).
Proof.
  intros HN HP. exists (mkLauncher (repeat (0, 0) (Z.to_nat N)) (finds N nt)), (last (finds N nt) 0), (2 + Z.to_nat nt)%nat.
  pose proof (finds_chain N nt HN HP) as CH. pose proof (finds_hd N nt HP) as HD. pose proof (last_bounds N nt HN HP) as [B1 B2]. pose proof (inds_pos _ CH HD) as B0.
  assert (LI : length (finds N nt) = nvals N nt) by (unfold finds; rewrite map_length, seq_length; reflexivity).
  assert (TL : task_loop (F:=FS) f_round (2 + Z.to_nat nt) (ofZ N) (div (ofZ N) (ofZ nt)) zero = Ok (finds N nt)).
  { change (zero (s:=FS)) with (fvals N nt 0). apply (loop_float N nt HN HP (nvals N nt) (2 + Z.to_nat nt) 0); [unfold nvals; lia|pose proof (nvals_le N nt); lia]. }
  assert (NV : (1 <= nvals N nt)%nat) by (unfold nvals; destruct (reached N nt); lia).
  split; [unfold la_new; rewrite TL; reflexivity|]. split; [lia|]. split; [exact B2|]. split; [unfold la_tasks, la_threads; rewrite map_length, blocks_length; cbn [la_inds]; lia|].
  split; [unfold la_threads; cbn [la_inds]; rewrite LI; unfold nvals; destruct (reached N nt) eqn:RE; [left; split; [lia|apply last_reached; assumption]|right; lia]|].
  intros debug W k H s R. assert (C : counted (Z.to_nat N) (last (finds N nt) 0) (Z.of_nat k) (p_mem s)).
  { refine (fresh_rounds debug W _ (Z.to_nat N) _ k H s _ _ _ _ _ R); [reflexivity|exact CH|exact HD|reflexivity|lia]. }
  split; [exact C|]. intros B. eapply counted_sum; [exact C|lia|exact B].
Qed.
(** If N / nthreads is a dyadic fraction - nthreads divides N, or is a power of two - no item is left out.  Every test (16 items, 4 threads) is
    of this kind: SumCounts is N after one round and 2 N after two. *)
Theorem C87_dyadic N nt c j : 1 <= N < 2 ^ 31 -> 1 <= nt <= 2 ^ 18 -> 0 <= j -> N * 2 ^ j = nt * c -> N * 2 ^ j < 2 ^ 52 -> exists l fuel, la_new (F:=FS) f_round fuel N nt = Ok l /\
  la_threads l = nt /\ Z.of_nat (length (la_tasks l)) = nt /\
  forall debug W k H s, rounds debug W l k H s -> counted (Z.to_nat N) N (Z.of_nat k) (p_mem s) /\ (Z.of_nat k * N < 2 ^ 31 -> sum_counts (p_mem s) = Ok (Z.of_nat k * N)).
Proof.
  intros HN HP HJ HC HB. exists (mkLauncher (repeat (0, 0) (Z.to_nat N)) (exact_inds N nt)), (2 + Z.to_nat nt)%nat.
  assert (LI : Z.of_nat (length (exact_inds N nt)) = nt + 1) by (unfold exact_inds; rewrite map_length, seq_length; lia).
  assert (TL : task_loop (F:=FS) f_round (2 + Z.to_nat nt) (ofZ N) (div (ofZ N) (ofZ nt)) zero = Ok (exact_inds N nt)).
  { rewrite <- (dyadic_finds N nt c j HN HP HJ HC HB). change (zero (s:=FS)) with (fvals N nt 0). apply (loop_float N nt HN HP (nvals N nt) (2 + Z.to_nat nt) 0); [unfold nvals; lia|pose proof (nvals_le N nt); lia]. }
  split; [unfold la_new; rewrite TL; reflexivity|]. split; [unfold la_threads; cbn [la_inds]; lia|]. split; [unfold la_tasks; rewrite map_length, blocks_length; cbn [la_inds]; lia|].
  intros debug W k H s R. assert (C : counted (Z.to_nat N) N (Z.of_nat k) (p_mem s)).
  { refine (fresh_rounds debug W _ (Z.to_nat N) N k H s _ _ _ _ _ R); [reflexivity|apply exact_chain; lia|apply exact_hd|apply exact_last; lia|lia]. }
  split; [exact C|]. intros B. eapply counted_sum; [exact C|lia|exact B].
Qed.
(** The benchmark's serial pass WorkBlock(0, N): every item once more. *)
Theorem C87_serial N (ws : list WorkItem) : Z.of_nat (length ws) = N -> exists ws', fold_left (fun s a => a s) (work_block (0, N)) (Ok ws : wmem) = Ok ws' /\ length ws' = length ws /\
  forall i w, nth_error ws i = Some w -> exists w', nth_error ws' i = Some w' /\ fst w' = fst w + 1.
Proof.
  intros L. destruct (wserial (0, N) ws) as (ws' & E & C); cbn [fst snd]; [lia|lia|]. exists ws'. split; [exact E|]. split.
  - destruct (Nat.lt_trichotomy (length ws') (length ws)) as [X|[X|X]]; [|exact X|].
    + specialize (C (length ws')). rewrite (proj2 (nth_error_None ws' _)) in C by lia. destruct (nth_error ws (length ws')) eqn:Q; [discriminate|]. apply nth_error_None in Q. lia.
    + specialize (C (length ws)). rewrite (proj2 (nth_error_None ws _)) in C by lia. apply nth_error_None in C. lia.
  - intros i w J. rewrite C, J. cbn [option_map]. eexists. split; [reflexivity|]. replace (inb (Z.of_nat i) (0, N)) with true; [reflexivity|]. symmetry. assert (i < length ws)%nat by (apply nth_error_Some; congruence). unfold inb. apply andb_true_iff. cbn [fst snd]. split; [apply Z.leb_le|apply Z.ltb_lt]; lia.
Qed.

(** Runs: [pre] first, then one worker does all the tasks. *)
Definition one_by_one (pre : list (move wmem)) (l : Launcher) : list (move wmem) :=
  pre ++ flat_map (fun b => repeat (Main (PAdd b) false) 10) (la_tasks l) ++ flat_map (fun b => repeat (Work 0) (20 + length b)) (la_tasks l) ++ repeat (Main PWait false) (2 + length (la_tasks l)).
Definition start1 : list (move wmem) := repeat (Main (PLaunch 1) false) 3.
Definition out (r : res (list (pev wmem) * pst wmem)) d := match r with Ok x => x | _ => d end.
Definition noto (H : list (pev wmem)) : bool := forallb (fun e => match e with ETimeout _ => false | _ => true end) H.
Lemma noto_ok H : noto H = true -> no_timeout H.
Proof. intros N id J. unfold noto in N. rewrite forallb_forall in N. specialize (N _ J). discriminate. Qed.
Lemma mk_round debug W l k H s sched : rounds debug W l k H s -> let x := out (p_exec debug sched s) ([], s) in let H' := removelast (fst x) in
  p_exec debug sched s = Ok (H' ++ [EWaited], snd x) -> added H' = la_tasks l -> noto H' = true -> rounds debug W l (S k) (H ++ H' ++ [EWaited]) (snd x).
Proof. intros R x H' E A N. eapply RO_round; [exact R|exact E|exact A|apply noto_ok; exact N]. Qed.
(** the tests' launcher, two rounds as in RunTwice, and its hypotheses *)
Definition l16 : Launcher := mkLauncher (repeat (0, 0) 16) [0; 4; 8; 12; 16].
Example C87_example : la_new (F:=FS) f_round 6 16 4 = Ok l16 /\ 16 * 2 ^ 0 = 4 * 4 /\ exists H s, rounds true 1 l16 2 H s /\ sum_counts (p_mem s) = Ok 32.
Proof.
  split; [vm_compute; reflexivity|]. split; [reflexivity|]. eexists. eexists. split.
  - eapply (mk_round true 1 l16 1 _ _ (one_by_one (repeat (Work 0) 3) l16)); [eapply (mk_round true 1 l16 0 _ _ (one_by_one start1 l16)); [apply RO_init|..]|..]; vm_compute; reflexivity.
  - vm_compute. reflexivity.
Qed.
(** FINDING.  The sum of nine rounded steps of 16/9 exceeds 16: on a machine with eighteen hardware threads the benchmark (16 items, nine threads) makes
    eight tasks, and the items 14 and 15 are worked on by its serial pass only; the time of the parallel pass is compared as if it had done all. *)
Definition l9 : Launcher := mkLauncher (repeat (0, 0) 16) [0; 2; 4; 5; 7; 9; 11; 12; 14].
Theorem C87_float_refuted : la_new (F:=FS) f_round 11 16 9 = Ok l9 /\ (exists H s, rounds true 1 l9 1 H s) /\
  forall debug W k H s, rounds debug W l9 k H s -> counted 16 14 (Z.of_nat k) (p_mem s) /\ ((0 < k)%nat -> sum_counts (p_mem s) <> Ok (Z.of_nat k * 16)).
Proof.
  split; [vm_compute; reflexivity|]. split.
  - eexists. eexists. eapply (mk_round true 1 l9 0 _ _ (one_by_one start1 l9)); [apply RO_init|..]; vm_compute; reflexivity.
  - intros debug W k H s R. assert (C : counted 16 14 (Z.of_nat k) (p_mem s)).
    { refine (fresh_rounds debug W l9 16 14 k H s _ _ _ _ _ R); try reflexivity; [|cbn; lia]. intros [|[|[|[|[|[|[|[|i]]]]]]]] a b A B; cbn in A, B; try (injection A as <-; injection B as <-; lia). destruct i; discriminate. }
    split; [exact C|]. intros K X. destruct C as (ws & E & L & C). rewrite E in X. unfold sum_counts in X. cbn [bind] in X.
    assert (G : forall l acc t, sum_from acc l = Ok t -> t = acc + fold_right (fun w s => fst w + s) 0 l).
    { induction l as [|w l IH]; intros acc t Y; cbn in Y; [injection Y as <-; cbn; lia|]. destruct (int_ok (fst w) && int_ok (acc + fst w)); [|discriminate]. apply IH in Y. cbn [fold_right]. lia. }
    apply G in X. rewrite (sum_shape ws 0 14 k) in X; [lia|lia|lia|]. intros i J. destruct (nth_error ws i) as [w|] eqn:N; [|apply nth_error_None in N; lia]. cbn [option_map Nat.add]. rewrite (C i w N). reflexivity.
Qed.
(** FINDING.  No threads - the benchmark on a machine with one hardware thread, where hardware_concurrency() / 2 is 0: one boundary, no task, and no
    item is ever worked on. *)
Theorem C87_zero_refuted : forall N, 1 <= N < 2 ^ 31 -> exists l fuel, la_new (F:=FS) f_round fuel N 0 = Ok l /\ la_tasks l = [] /\
  forall debug W k H s, rounds debug W l k H s -> counted (Z.to_nat N) 0 (Z.of_nat k) (p_mem s).
Proof.
  intros N HN. exists (mkLauncher (repeat (0, 0) (Z.to_nat N)) [0]), 2%nat. assert (FZ := fin_ofZ N ltac:(lia)). destruct FZ as [FN VN].
  assert (L : task_loop (F:=FS) f_round 2 (ofZ N) (div (ofZ N) (ofZ 0)) zero = Ok [0]).
  { assert (PN : exists mm ee, ofZ (s:=FS) N = S754_finite false mm ee) by (apply P_Task.pos_form; [exact FN|rewrite VN; apply IZR_lt; lia]).
    destruct PN as (mm & ee & ->). reflexivity. }
  split; [unfold la_new; rewrite L; reflexivity|]. split; [reflexivity|]. intros debug W k H s R. refine (fresh_rounds debug W _ (Z.to_nat N) 0 k H s _ _ _ _ _ R); try reflexivity; [|lia]. intros [|i] a b A B; [discriminate|destruct i; discriminate].
Qed.
(** FINDINGS.  With no items the step is zero and the constructor never returns; with a negative number of threads the value only falls and it
    never returns either (exact arithmetic). *)
Theorem C87_empty_refuted : forall fuel, la_new (F:=FS) f_round fuel 0 4 = Fuel.
Proof.
  intros fuel. unfold la_new. assert (L : task_loop (F:=FS) f_round fuel (ofZ 0) (div (ofZ 0) (ofZ 4)) zero = Fuel); [|rewrite L; reflexivity].
  induction fuel as [|f IH]; [reflexivity|]. cbn [task_loop]. change (leb (s:=FS) zero (ofZ 0)) with true. cbv iota. change (add (s:=FS) zero (div (ofZ 0) (ofZ 4))) with (zero (s:=FS)). rewrite IH. reflexivity.
Qed.
Theorem C87_negative_refuted : forall fuel N nt, 0 <= N -> nt < 0 -> la_new (F:=RS) r_round fuel N nt = Fuel.
Proof.
  intros fuel N nt HN HP. unfold la_new. assert (L : forall f v, (v <= 0)%R -> task_loop (F:=RS) r_round f (IZR N) (IZR N / IZR nt)%R v = Fuel).
  { assert (NN : (0 <= IZR N)%R) by (apply IZR_le; exact HN). assert (PP : (IZR nt < 0)%R) by (apply IZR_lt; exact HP).
    assert (ST : (IZR N / IZR nt <= 0)%R). { unfold Rdiv. pose proof (Rinv_lt_0_compat _ PP). nra. }
    induction f as [|f IH]; intros v V; [reflexivity|]. cbn [task_loop]. replace (leb (s:=RS) v (IZR N)) with true by (symmetry; apply Rleb_true; lra). change (add (s:=RS) v (IZR N / IZR nt)%R) with (v + IZR N / IZR nt)%R. rewrite IH by lra. reflexivity. }
  pose proof (L fuel 0%R ltac:(lra)) as X. change (task_loop (F:=RS) r_round fuel (ofZ N) (div (ofZ N) (ofZ nt)) zero) with (task_loop (F:=RS) r_round fuel (IZR N) (IZR N / IZR nt)%R 0%R). rewrite X. reflexivity.
Qed.

Print Assumptions C87_exact. Print Assumptions C87_float. Print Assumptions C87_dyadic. Print Assumptions C87_serial. Print Assumptions C87_float_refuted.
Print Assumptions C87_zero_refuted. Print Assumptions C87_empty_refuted. Print Assumptions C87_negative_refuted.
