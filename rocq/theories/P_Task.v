(** C34, C35, C36: parallel expansions and their division into tasks. *)
From Coq Require Import List ZArith QArith Reals Lra Lia Bool Arith.
From Coq Require Import Floats.SpecFloat.
From Verif Require Import Base Lin StatsModel TrajModel IlqrModel PoolSpec PoolModel PoolProofs PoolProofs4 TaskModel TaskSpec ParModel ParProofs ParProofs2 ParProofs3 TaskProofs FloatBridge TaskFloat TaskProofs2 P_Pool.
Import ListNotations.
Local Open Scope Z_scope.

(** * C34 *)
Section C34.
Context {F : Scalar} {CS : Type} (ops : CostOps F CS) (n m : nat).
(** One parallel update: from a state in which the pool has nothing left to do, the tasks of any valid assignment are added and
    waited for.  Whatever the number of workers and the interleaving of their actions, the memory is that of the serial update,
    and the pool again has nothing left to do.  [solver_run]: the solver may have used the pool and changed its data in any way before. *)
Theorem C34_parallel debug W H1 s1 sched H2 s2 (N : Z) inds ks cs (Zt : Traj F) : solver_run debug W H1 s1 ->
  (forall id, (id < length (added H1))%nat -> In (EFin id) H1) ->
  Z.of_nat (length ks) = N + 1 -> length cs = length ks -> length Zt = length ks -> valid_inds N inds -> p_mem s1 = Ok (ks, cs) ->
  p_exec debug sched s1 = Ok (H2 ++ [EWaited], s2) -> added H2 = map (block_acts ops n m Zt) (blocks inds) -> no_timeout H2 ->
  p_mem s2 = update_serial ops n m N Zt (p_mem s1) /\ p_mem s2 = Ok (snd (expand_all ops n m ks Zt), fst (expand_all ops n m ks Zt)) /\
  (forall id, (id < length (added (H1 ++ H2 ++ [EWaited])))%nat -> In (EFin id) (H1 ++ H2 ++ [EWaited])).
Proof.
  intros R FIN L1 L2 L3 V M E A NT. destruct (valid_cover N inds V) as [CV POS].
  pose proof (par_round ops n m debug W H1 s1 sched H2 s2 N (blocks inds) ks cs Zt R FIN L1 L2 L3 CV POS M E A NT) as PM.
  split; [rewrite PM, M; symmetry; apply serial_expand; lia|]. split; [exact PM|].
  destruct (round debug W H1 s1 sched H2 s2 R FIN E NT) as (_ & R2 & _ & _). intros id J. rewrite !added_app, !app_length in J. change (length (added [EWaited])) with 0%nat in J. apply in_or_app.
  destruct (Nat.lt_ge_cases id (length (added H1))) as [K|K]; [left; apply FIN; exact K|right]. apply in_or_app. left. destruct (nth_error (added H2) (id - length (added H1))) as [b|] eqn:B; [|apply nth_error_None in B; lia].
  specialize (R2 _ _ B). replace (length (added H1) + (id - length (added H1)))%nat with id in R2 by lia. apply (filter_In (about id)). rewrite R2. unfold life. right. right. apply in_or_app. right. left. reflexivity.
Qed.
(** The wait comes to its end without time-outs: a pending call of a running pool can always return. *)
Theorem C34_completes {M : Type} debug W H (s : pst M) : solver_run debug W H s -> (calling H = Some CWait -> exists k, phase_of H = Up (S k)) ->
  exists sched H' s', p_exec debug sched s = Ok (H', s') /\ calling (H ++ H') = None /\ no_timeout H'.
Proof.
  intros R CW. destruct (run_plain debug W H s R (p_mem s)) as (sc & m' & E). destruct (C41_progress W (p_mem s) debug sc H _ E CW) as (more & H' & s' & E' & C & NT).
  rewrite (exec_app debug sc more _ _ _ E) in E'. destruct (p_exec debug more (set_mem s m')) as [[H2 s2]| | | | |] eqn:X; try discriminate. injection E' as EH _. apply app_inv_head in EH. subst H2.
  destruct (exec_poke debug more _ _ _ (p_mem s) X) as [m2 X2]. replace (set_mem (set_mem s m') (p_mem s)) with s in X2 by (destruct s; reflexivity). exists more, H', (set_mem s2 m2). split; [exact X2|split; assumption].
Qed.
End C34.

(** A run that meets the hypotheses: two knot points, two workers, one task each, actions interleaved. *)
Section Run.
Context {M : Type} (a1 a2 a3 b1 b2 b3 : M -> M) (m0 : M).
Let mm (o : pop M) n : list (move M) := repeat (Main o false) n.
Let ww w n : list (move M) := repeat (Work w) n.
Let ba : body M := [a1; a2; a3].
Let bb : body M := [b1; b2; b3].
Definition two_events : list (pev M) :=
  [ELaunch 2; ELaunched; EAdd 0 ba; EAdded 0; EAdd 1 bb; EAdded 1; EStart 0; EAct 0 0; EStart 1; EAct 1 0; EAct 0 1; EAct 1 1; EAct 1 2; EFin 1; EAct 0 2; EFin 0; EWait].
Lemma two_run : exists sched s, p_exec true sched (p_init 2 m0) = Ok (two_events ++ [EWaited], s).
Proof.
  exists (mm (PLaunch 2) 4 ++ mm (PAdd ba) 10 ++ mm (PAdd bb) 10 ++ ww 0 14 ++ ww 1 14 ++ ww 0 1 ++ ww 1 4 ++ ww 0 4 ++ mm PWait 4). eexists. vm_compute. reflexivity.
Qed.
(** the main thread gives up waiting before any worker has done anything *)
Lemma timeout_run : exists sched s, p_exec true sched (p_init 2 m0) = Ok ([ELaunch 2; ELaunched; EAdd 0 ba; EAdded 0; EAdd 1 bb; EAdded 1; EWait; ETimeout 0; ETimeout 1; EWaited], s) /\ p_mem s = m0.
Proof.
  exists (mm (PLaunch 2) 4 ++ mm (PAdd ba) 10 ++ mm (PAdd bb) 10 ++ mm PWait 1 ++ [Main PWait true; Main PWait true] ++ mm PWait 1). eexists. vm_compute. split; reflexivity.
Qed.
End Run.
Definition t_ops : CostOps QS unit := mkCostOps (F:=QS) (CS:=unit) (fun _ x _ => (x 0%nat, tt)) (fun _ _ _ g => (g, tt)) (fun _ _ _ h => (h, tt)).
Definition t_kpf : KPF QS unit := kpf_make (mkDyn (fun x _ _ _ _ => x) (fun _ _ _ _ J => J)) tt.
Definition t_kp (a : Q) : KP QS := mkKP (fun _ => a : QS) (fun _ => zero) zero zero.
Definition t_traj : Traj QS := [t_kp (3 # 1); t_kp (4 # 1)].
Example C34_example : exists sched H2 s2, valid_inds 1 [0; 1; 2] /\ p_exec true sched (p_init 2 (Ok ([t_kpf; t_kpf], [zero; zero]))) = Ok (H2 ++ [EWaited], s2) /\
  added H2 = map (block_acts t_ops 1 1 t_traj) (blocks [0; 1; 2]) /\ no_timeout H2.
Proof.
  edestruct (two_run (M:=@mem QS unit)) as (sched & s & E). exists sched. eexists. exists s. split; [|split; [exact E|split]].
  - split; [cbn; lia|]. split; [reflexivity|]. split; [reflexivity|]. intros [|[|[|i]]] a b A B; cbn in A, B; try discriminate; injection A as <-; injection B as <-; lia.
  - reflexivity.
  - intros id J. cbn in J. repeat destruct J as [J|J]; try discriminate. exact J.
Qed.
(** FINDING.  Wait gives every task ten seconds (threadpool.cpp:31-39) and says nothing to its caller (ilqr.hpp:364): after a time-out the solver goes
    on with expansions and costs that have not been updated (and that the workers keep writing). *)
Theorem C34_timeout_refuted : exists (N : Z) inds ks cs (Zt : Traj QS) sched H2 s2, valid_inds N inds /\ Z.of_nat (length ks) = N + 1 /\ length cs = length ks /\ length Zt = length ks /\
  p_exec true sched (p_init 2 (Ok (ks, cs))) = Ok (H2 ++ [EWaited], s2) /\ added H2 = map (block_acts t_ops 1 1 Zt) (blocks inds) /\
  p_mem s2 <> update_serial t_ops 1 1 N Zt (Ok (ks, cs)).
Proof.
  exists 1, [0; 1; 2], [t_kpf; t_kpf], [zero; zero], t_traj.
  edestruct (timeout_run (M:=@mem QS unit)) as (sched & s & E & MS). exists sched. eexists [_; _; _; _; _; _; _; _; _]. exists s. split; [|split; [reflexivity|split; [reflexivity|split; [reflexivity|split; [exact E|split]]]]].
  - split; [cbn; lia|]. split; [reflexivity|]. split; [reflexivity|]. intros [|[|[|i]]] a b A B; cbn in A, B; try discriminate; injection A as <-; injection B as <-; lia.
  - reflexivity.
  - intros X. pose proof (eq_trans (eq_sym MS) (eq_trans X (serial_expand t_ops 1 1 1 [t_kpf; t_kpf] [zero; zero] t_traj eq_refl eq_refl eq_refl))) as Y. assert (Y1 : [zero; zero] = fst (expand_all t_ops 1 1 [t_kpf; t_kpf] t_traj)) by congruence. vm_compute in Y1. discriminate.
Qed.

(** * C35 *)
(** In exact arithmetic the default assignment always is a partition, into exactly the wanted number of tasks. *)
Theorem C35_exact debug N nt tpt : 1 <= N -> 1 <= nt * tpt < 2 ^ 31 -> exists l fuel, default_inds (F:=RS) r_round fuel debug N nt tpt = Ok l /\
  Z.of_nat (length l) = nt * tpt + 1 /\ valid_inds N l /\ exact_cover N (blocks l).
Proof.
  intros HN HP. set (fuel := (2 + Z.to_nat (nt * tpt))%nat). assert (IO : int_ok (nt * tpt) = true) by (unfold int_ok; apply andb_true_iff; split; [apply Z.leb_le; lia|apply Z.ltb_lt; lia]).
  pose proof (exact_default fuel debug N nt tpt HN ltac:(lia) IO ltac:(unfold fuel; lia)) as E. eexists. exists fuel. split; [exact E|]. split; [rewrite exact_length; lia|]. split; [apply exact_valid; lia|]. apply valid_cover. apply exact_valid; lia.
Qed.
(** In IEEE doubles, for all numbers of knot points and up to 2^18 tasks: the loop ends; each of the knot points 0 .. M is
    in exactly one task and no other index is in any; M is at most N and misses it by at most N / ntasks + 1; the debug build goes on
    only if M = N. *)
Theorem C35_float N nt tpt : 1 <= N < 2 ^ 31 -> 1 <= nt * tpt <= 2 ^ 18 -> exists l M fuel, default_inds (F:=FS) f_round fuel false N nt tpt = Ok l /\
  default_inds (F:=FS) f_round fuel true N nt tpt = (if M =? N then Ok l else Abort) /\
  valid_inds M l /\ exact_cover M (blocks l) /\ M <= N /\ (IZR N - IZR N / IZR (nt * tpt) - 1 < IZR M)%R.
Proof.
  intros HN HP. set (fuel := (2 + Z.to_nat (nt * tpt))%nat). exists (removelast (finds N (nt * tpt)) ++ [last (finds N (nt * tpt)) 0 + 1]), (last (finds N (nt * tpt)) 0), fuel.
  pose proof (finds_valid N (nt * tpt) HN HP) as V. pose proof (last_bounds N (nt * tpt) HN HP) as [B1 B2].
  split; [apply float_default; [exact HN|exact HP|unfold fuel; lia]|]. split.
  - rewrite float_default by (try assumption; unfold fuel; lia). cbn [andb]. destruct (last (finds N (nt * tpt)) 0 =? N); reflexivity.
  - split; [exact V|]. split; [apply valid_cover; exact V|]. split; [exact B1|exact B2].
Qed.
(** If N / ntasks is a dyadic fraction - ntasks divides N, or is a power of two - nothing is rounded and the assignment in
    doubles is the exact one. *)
Theorem C35_dyadic debug N nt tpt c j : 1 <= N < 2 ^ 31 -> 1 <= nt * tpt <= 2 ^ 18 -> 0 <= j -> N * 2 ^ j = nt * tpt * c -> N * 2 ^ j < 2 ^ 52 ->
  exists l fuel, default_inds (F:=FS) f_round fuel debug N nt tpt = Ok l /\ default_inds (F:=RS) r_round fuel debug N nt tpt = Ok l /\ valid_inds N l /\ Z.of_nat (length l) = nt * tpt + 1.
Proof.
  intros HN HP HJ HC HB. set (fuel := (2 + Z.to_nat (nt * tpt))%nat). assert (IO : int_ok (nt * tpt) = true) by (unfold int_ok; apply andb_true_iff; split; [apply Z.leb_le; lia|apply Z.ltb_lt; lia]).
  exists (removelast (exact_inds N (nt * tpt)) ++ [N + 1]), fuel. split; [|split; [apply exact_default; try assumption; unfold fuel; lia|split; [apply exact_valid; lia|rewrite exact_length; lia]]].
  rewrite float_default by (try assumption; unfold fuel; lia). rewrite (dyadic_finds N (nt * tpt) c j HN HP HJ HC HB), exact_last by lia. rewrite Z.eqb_refl, andb_false_r. reflexivity.
Qed.
(** 10 segments, 4 tasks, in doubles: 2.5 and 7.5 round up *)
Example C35_example : default_inds (F:=FS) f_round 10 true 10 2 2 = Ok [0; 3; 5; 8; 11] /\ valid_inds 10 [0; 3; 5; 8; 11] /\ 10 * 2 ^ 1 = 2 * 2 * 5.
Proof.
  split; [vm_compute; reflexivity|]. split; [|reflexivity]. split; [cbn; lia|]. split; [reflexivity|]. split; [reflexivity|].
  intros [|[|[|[|[|i]]]]] a b A B; cbn in A, B; try discriminate; try (injection A as <-; injection B as <-; lia).
Qed.
(** FINDING.  100 segments on six threads: the accumulated sum of steps ends above 100, the last boundary is 83; the debug build
    aborts, the release build never updates the knot points 84 to 100. *)
Theorem C35_float_refuted : exists N nt tpt fuel l, 1 <= N < 2 ^ 31 /\ 1 <= nt * tpt <= 2 ^ 18 /\ default_inds (F:=FS) f_round fuel true N nt tpt = Abort /\
  default_inds (F:=FS) f_round fuel false N nt tpt = Ok l /\ ~ exact_cover N (blocks l) /\ (forall k b, 84 <= k <= N -> In b (blocks l) -> inb k b = false).
Proof.
  exists 100, 6, 1, 100%nat, [0; 17; 33; 50; 67; 84]. split; [lia|]. split; [lia|]. split; [vm_compute; reflexivity|]. split; [vm_compute; reflexivity|]. split.
  - intros [C _]. specialize (C 100 ltac:(lia)). vm_compute in C. discriminate.
  - intros k b K J. cbn in J. unfold inb. apply andb_false_iff. right. apply Z.ltb_ge. repeat destruct J as [<-|J]; cbn [snd]; try lia.
Qed.
Lemma pos_form x : fin x -> (0 < fval x)%R -> exists mm ee, x = S754_finite false mm ee.
Proof.
  intros (b & <- & Fb) P. destruct b as [sg|sg| |sg mm ee B]; try discriminate; cbn in P; [lra|]. destruct sg; [|eexists; eexists; reflexivity]. exfalso. unfold Flocq.Core.Defs.F2R in P. cbn in P.
  pose proof (Flocq.Core.Raux.bpow_gt_0 Flocq.Core.Zaux.radix2 ee). assert (IZR (Z.neg mm) < 0)%R by (apply IZR_lt; lia). nra.
Qed.
(** FINDING.  tasks_per_thread = 0 (or hardware_concurrency() = 0): no task at all; the debug build aborts, the release build then
    updates nothing.  N = 0: the loop of the public GetTaskAssignment never ends. *)
Theorem C35_zero_tasks_refuted : forall N nt, 1 <= N < 2 ^ 31 -> exists fuel, default_inds (F:=FS) f_round fuel true N nt 0 = Abort /\ default_inds (F:=FS) f_round fuel false N nt 0 = Ok [1] /\ blocks [1] = [].
Proof.
  intros N nt HN. exists 2%nat. assert (FZ := fin_ofZ N ltac:(lia)). destruct FZ as [FN VN].
  assert (L : task_loop (F:=FS) f_round 2 (ofZ N) (div (ofZ N) (ofZ 0)) zero = Ok [0]).
  { assert (PN : exists mm ee, ofZ (s:=FS) N = S754_finite false mm ee) by (apply pos_form; [exact FN|rewrite VN; apply IZR_lt; lia]).
    destruct PN as (mm & ee & ->). reflexivity. }
  unfold default_inds, imul. rewrite Z.mul_0_r. change (int_ok 0) with true. cbn [bind]. rewrite L. cbn [bind last removelast app]. unfold altro_assert. replace (0 =? N) with false by (symmetry; apply Z.eqb_neq; lia). auto.
Qed.
Theorem C35_empty_refuted : forall fuel debug, default_inds (F:=FS) f_round fuel debug 0 4 1 = Fuel.
Proof.
  intros fuel debug. assert (L : task_loop (F:=FS) f_round fuel (ofZ 0) (div (ofZ 0) (ofZ 4)) zero = Fuel).
  { induction fuel as [|f IH]; [reflexivity|]. cbn [task_loop]. change (leb (s:=FS) zero (ofZ 0)) with true. cbv iota. change (add (s:=FS) zero (div (ofZ 0) (ofZ 4))) with (zero (s:=FS)). rewrite IH. reflexivity. }
  unfold default_inds, imul. change (int_ok (4 * 1)) with true. cbn [bind]. change (4 * 1) with 4. rewrite L. reflexivity.
Qed.

(** * C36 *)
(** An assignment set by the user stays whatever the options, the calls of GetTaskAssignment and the launches. *)
Theorem C36_kept {F : Scalar} (rnd : F -> Z) N fuel debug inds os t0 t1 t : set_tasks debug N inds t0 = Ok t1 -> (forall l, ~ In (TSet l) os) -> t_run rnd fuel debug N os t1 = Ok t ->
  t_inds t = inds /\ t_custom t = true.
Proof.
  intros S NS E. unfold set_tasks in S. destruct (if debug then _ else _) as [[]| | | | |]; cbn [bind] in S; try discriminate. destruct (altro_assert debug (increasing inds)) as [[]| | | | |]; cbn [bind] in S; try discriminate. injection S as <-.
  destruct (run_custom rnd N fuel debug os (mkTasks true (t_tasks t0) inds (t_pool t0)) t NS eq_refl E). auto.
Qed.
(** A launch that changes the number of threads, or the first one, takes it up ... *)
Theorem C36_used {F : Scalar} (rnd : F -> Z) N fuel debug inds nt tpt t0 t1 : set_tasks debug N inds t0 = Ok t1 -> 0 < N -> nt <> t_pool t0 -> 1 < nt -> int_ok (nt * tpt) = true ->
  launch rnd fuel debug N nt tpt t1 = Ok (mkTasks true (blocks inds) inds nt).
Proof.
  intros S HN ND NT IO. unfold set_tasks in S. destruct (if debug then _ else _) as [[]| | | | |]; cbn [bind] in S; try discriminate. destruct (altro_assert debug (increasing inds)) as [[]| | | | |]; cbn [bind] in S; try discriminate. injection S as <-.
  unfold launch. cbn [t_pool t_custom t_inds]. replace (nt =? 1) with false by (symmetry; apply Z.eqb_neq; lia). rewrite andb_false_r. replace (0 <? N) with true by (symmetry; apply Z.ltb_lt; lia). replace (nt =? t_pool t0) with false by (symmetry; apply Z.eqb_neq; lia). cbn [negb bind].
  unfold get_tasks, should_redo, imul. rewrite IO. cbn [bind t_custom orb negb t_inds]. replace (1 <? nt) with true by (symmetry; apply Z.ltb_lt; lia). reflexivity.
Qed.
(** ... and the debug build accepts only increasing vectors. *)
Theorem C36_increasing N inds t t' : set_tasks true N inds t = Ok t' -> forall i a b, nth_error inds i = Some a -> nth_error inds (S i) = Some b -> a < b.
Proof.
  unfold set_tasks. destruct (match t_inds t with [] => _ | _ => _ end) as [[]| | | | |]; cbn [bind]; try discriminate. unfold altro_assert at 1. destruct (increasing inds) eqn:I; cbn [andb negb bind]; [|discriminate]. intros _. apply increasing_chain. exact I.
Qed.
(** In full: the debug build looks at the vector in force, which must run from 0 to N+1 and have at least two entries, and at the order
    of the new one; nothing else is looked at and only the vector and its mark change. *)
Theorem C36_accepts N inds t : set_tasks true N inds t = Ok (mkTasks true (t_tasks t) inds (t_pool t)) <->
  (exists r, t_inds t = 0 :: r /\ r <> [] /\ last r 0 = N + 1) /\ (forall i a b, nth_error inds i = Some a -> nth_error inds (S i) = Some b -> a < b).
Proof.
  unfold set_tasks, altro_assert. cbn [andb]. split.
  - intros E. destruct (t_inds t) as [|a r] eqn:I; [discriminate|].
    destruct (last (a :: r) 0 =? N + 1) eqn:E1; cbn [negb bind] in E; [|discriminate]. destruct (a =? 0) eqn:E2; cbn [negb bind] in E; [|discriminate].
    destruct (2 <=? Z.of_nat (length (a :: r))) eqn:E3; cbn [negb bind] in E; [|discriminate]. destruct (increasing inds) eqn:E4; cbn [negb bind] in E; [|discriminate].
    apply Z.eqb_eq in E1, E2. apply Z.leb_le in E3. split; [|apply increasing_chain; exact E4]. subst a. exists r. split; [reflexivity|].
    destruct r as [|b r]; [cbn in E3; lia|]. split; [discriminate|exact E1].
  - intros [(r & -> & R & L) C]. assert (I : increasing inds = true).
    { clear - C. induction inds as [|a [|b inds] IH]; try reflexivity. cbn [increasing]. apply andb_true_iff. split.
      - apply Z.ltb_lt. apply (C 0%nat); reflexivity.
      - apply IH. intros i x y Hx Hy. apply (C (S i)); assumption. }
    destruct r as [|b r]; [congruence|]. change (last (0 :: b :: r) 0) with (last (b :: r) 0). rewrite L, Z.eqb_refl. cbn [negb bind].
    replace (0 =? 0) with true by reflexivity. cbn [negb bind]. replace (2 <=? Z.of_nat (length (0 :: b :: r))) with true by (symmetry; apply Z.leb_le; cbn [length]; lia).
    cbn [negb bind]. rewrite I. reflexivity.
Qed.
(** Every history: as long as the options ask for at least one task and the user's vectors are valid, a running pool works on a
    partition of the knot points - in exact arithmetic in every build, in doubles in the debug build. *)
Theorem C36_history N fuel debug os t : 1 <= N -> Forall (good_op N (fun nt tpt => 1 <= nt * tpt)) os -> t_run (F:=RS) r_round fuel debug N os t_new = Ok t -> t_pool t <> 0 -> exact_cover N (t_tasks t).
Proof.
  intros HN G E P. destruct (run_tinv (F:=RS) r_round N fuel debug (fun nt tpt => 1 <= nt * tpt) (fun _ _ X => X) (fun nt tpt l X D => proj1 (exact_hd_ok N fuel debug nt tpt l HN X D)) os t_new t G (new_tinv N) E) as [_ I].
  destruct (I P) as (l & V & ->). apply valid_cover. exact V.
Qed.
Theorem C36_history_float N fuel os t : 1 <= N < 2 ^ 31 -> Forall (good_op N (fun nt tpt => 1 <= nt * tpt <= 2 ^ 18)) os -> t_run (F:=FS) f_round fuel true N os t_new = Ok t -> t_pool t <> 0 -> exact_cover N (t_tasks t).
Proof.
  intros HN G E P. destruct (run_tinv (F:=FS) f_round N fuel true (fun nt tpt => 1 <= nt * tpt <= 2 ^ 18) (fun _ _ X => proj1 X) (fun nt tpt l X D => float_hd_ok N fuel nt tpt l HN X D) os t_new t G (new_tinv N) E) as [_ I].
  destruct (I P) as (l & V & ->). apply valid_cover. exact V.
Qed.
Lemma v_039 : valid_inds 8 [0; 3; 9].
Proof. split; [cbn; lia|]. split; [reflexivity|]. split; [reflexivity|]. intros [|[|[|i]]] a b A B; cbn in A, B; try discriminate; injection A as <-; injection B as <-; lia. Qed.
Definition ex_ops : list top := [TGet 2 1; TSet [0; 3; 9]; TLaunch 2 1].
Example C36_example : t_run (F:=FS) f_round 20 true 8 ex_ops t_new = Ok (mkTasks true [(0, 3); (3, 9)] [0; 3; 9] 2) /\
  Forall (good_op 8 (fun nt tpt => 1 <= nt * tpt <= 2 ^ 18)) ex_ops.
Proof.
  split; [vm_compute; reflexivity|]. repeat apply Forall_cons; try apply Forall_nil; [cbn; lia|exact v_039|cbn; lia].
Qed.
(** FINDINGS.  A vector set while the pool is running is not used by the following solves with the same number of threads: *)
Theorem C36_unused_refuted : exists N inds t, valid_inds N inds /\ t_run (F:=FS) f_round 20 true N [TLaunch 2 1; TSet inds; TLaunch 2 1; TLaunch 2 1] t_new = Ok t /\ t_inds t = inds /\ t_tasks t <> blocks inds /\ t_pool t = 2.
Proof. exists 8, [0; 3; 9]. eexists. split; [exact v_039|]. split; [vm_compute; reflexivity|]. split; [reflexivity|]. split; [discriminate|reflexivity]. Qed.
(** the assertions look at the previous vector, so a vector that does not cover the knot points is accepted and used: *)
Theorem C36_validation_refuted : exists N inds t, ~ valid_inds N inds /\ t_run (F:=FS) f_round 20 true N [TGet 2 1; TSet inds; TLaunch 2 1] t_new = Ok t /\ t_tasks t = blocks inds /\ ~ exact_cover N (t_tasks t) /\ t_pool t = 2.
Proof.
  exists 8, [2; 4]. eexists. split; [intros (_ & X & _); discriminate|]. split; [vm_compute; reflexivity|]. split; [reflexivity|]. split; [|reflexivity]. intros [C _]. specialize (C 0 ltac:(lia)). discriminate.
Qed.
(** on a solver that has no assignment yet the debug build reads the last element of an empty vector, and the release build accepts
    anything, even nothing: *)
Theorem C36_fresh_refuted : (forall N inds, set_tasks true N inds t_new = UB) /\ (forall N inds, exists t, set_tasks false N inds t_new = Ok t /\ t_inds t = inds).
Proof. split; intros N inds; [reflexivity|]. eexists. split; reflexivity. Qed.
(** and a valid vector set after one that was not is refused. *)
Theorem C36_rejected_refuted : exists N inds, valid_inds N inds /\ increasing inds = true /\ t_run (F:=FS) f_round 20 true N [TGet 2 1; TSet [2; 4]; TSet inds] t_new = Abort.
Proof. exists 8, [0; 3; 9]. split; [exact v_039|]. split; [reflexivity|]. vm_compute. reflexivity. Qed.
(** FINDING.  1 segment, 9 tasks: the last boundary is lost but the assertion holds; the number of tasks never is the expected one,
    so every launch stops and restarts the pool. *)
Theorem C36_relaunch_refuted : exists N nt tpt t, t_run (F:=FS) f_round 20 true N [TLaunch nt tpt] t_new = Ok t /\ t_pool t = nt /\ t_custom t = false /\ should_redo nt tpt t = Ok true.
Proof. exists 1, 9, 1. eexists. split; [vm_compute; reflexivity|]. split; [reflexivity|]. split; reflexivity. Qed.

Print Assumptions C34_parallel. Print Assumptions C34_completes. Print Assumptions C34_timeout_refuted.
Print Assumptions C35_exact. Print Assumptions C35_float. Print Assumptions C35_dyadic. Print Assumptions C35_float_refuted. Print Assumptions C35_zero_tasks_refuted. Print Assumptions C35_empty_refuted.
Print Assumptions C36_kept. Print Assumptions C36_used. Print Assumptions C36_increasing. Print Assumptions C36_accepts. Print Assumptions C36_history. Print Assumptions C36_history_float.
Print Assumptions C36_unused_refuted. Print Assumptions C36_validation_refuted. Print Assumptions C36_fresh_refuted. Print Assumptions C36_rejected_refuted. Print Assumptions C36_relaunch_refuted.
