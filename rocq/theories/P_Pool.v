(** C41: the thread pool. *)
From Coq Require Import List ZArith Bool Lia Arith.
From Verif Require Import Base QueueSpec QueueModel QueueProofs QueueProofs2 QueueProofs3 QueueProofs4 PoolSpec PoolModel PoolProofs PoolProofs2 PoolProofs3 PoolProofs4 PoolProofs5 PoolProofs6 PoolProofs7 PoolProofs8.
Import ListNotations.

Section P.
Context {M : Type}.
Implicit Types (H : list (pev M)) (s : pst M).

(** C41.  For every number of workers, tasks, calls and every interleaving: each task is added, started, performs its actions in
    order and finishes, each at most once and in this order; nothing else ever happens to a task; and the shared memory is the
    result of the actions in the order of the history. *)
Theorem C41_once W (m : M) debug sched H s : p_exec debug sched (p_init W m) = Ok (H, s) ->
  (forall id, id < length (added H) -> prefix (filter (about id) H) (life id (nth id (added H) []))) /\
  (forall id, length (added H) <= id -> filter (about id) H = []) /\
  p_mem s = replay (added H) H m.
Proof.
  intros E. pose proof (ok_exec m debug sched _ _ (ok_init m W)) as G. rewrite E in G. destruct G as [(q & L & T & I) _]. cbn [app] in I.
  split; [intros id; apply (prefix_hist m s q L H T id I)|]. split; [intros id; apply (prefix_hist m s q L H T id I)|]. rewrite (v_added _ _ _ _ _ _ I). apply I.
Qed.
(** ... when Wait returns, every task added before, on which no Wait has given up, has finished *)
Theorem C41_wait W (m : M) debug sched H1 H2 s id : p_exec debug sched (p_init W m) = Ok (H1 ++ EWaited :: H2, s) ->
  id < length (added H1) -> ~ In (ETimeout id) H1 -> In (EFin id) H1 /\ filter (about id) H1 = life id (nth id (added H1) []).
Proof.
  intros E J N. destruct (exec_split debug sched _ _ _ _ _ _ E eq_refl) as (r1 & x & r2 & H0 & s1 & s2 & e1 & e2 & H3 & -> & X1 & X2 & -> & X3 & _).
  pose proof (ok_exec m debug r1 _ _ (ok_init m W)) as G. rewrite X1 in G. pose proof G as [(q & L & T & I) _]. cbn [app] in I.
  assert (F : In (EFin id) (H0 ++ e1)) by (eapply waited_step; eauto). split; [exact F|].
  (* at the point of the return itself *)
  pose proof (ok_step m debug x s1 _ G) as G2. rewrite X2 in G2. destruct G2 as [(q2 & L2 & T2 & I2) _]. cbn [app] in I2.
  assert (A : added (H0 ++ e1 ++ EWaited :: e2) = added (H0 ++ e1) ++ added e2) by (rewrite !added_app; cbn; rewrite app_assoc; reflexivity).
  assert (F2 : T2 id = LFin) by (apply (fin_hist _ _ _ _ _ _ _ I2); rewrite app_assoc; apply in_or_app; left; exact F).
  pose proof (v_hist _ _ _ _ _ _ I2 id) as V. rewrite F2 in V. cbn [past] in V. unfold body_of in V. rewrite <- (v_added _ _ _ _ _ _ I2), A, app_nth1 in V by exact J.
  rewrite app_assoc, filter_app in V. apply in_split in F. destruct F as (l1 & l2 & F).
  (* nothing about the task follows its end *)
  assert (K : filter (about id) (EWaited :: e2) = []); [|rewrite K, app_nil_r in V; exact V].
  destruct (filter (about id) (EWaited :: e2)) as [|y l]; [reflexivity|exfalso].
  assert (FA : filter (about id) (H0 ++ e1) = filter (about id) l1 ++ EFin id :: filter (about id) l2) by (rewrite F, filter_app; cbn; rewrite Nat.eqb_refl; reflexivity).
  rewrite FA in V. unfold life in V. rewrite app_comm_cons, app_comm_cons in V. rewrite <- app_assoc in V.
  assert (LASTV : forall (l0 r0 body : list (pev M)) a, l0 ++ a :: r0 = body ++ [a] -> r0 <> [] -> In a body).
  { clear. intros l0. induction l0 as [|z l0 IH]; intros r0 body a E N.
    - destruct body as [|b body]; cbn in E; inversion E; subst; [congruence|left; reflexivity].
    - destruct body as [|b body]; cbn in E; inversion E; subst; [destruct l0; discriminate|right; eapply IH; eauto]. }
  assert (INB : In (EFin id) (EAdd id (nth id (added (H0 ++ e1)) []) :: EStart id :: map (EAct id) (seq 0 (length (nth id (added (H0 ++ e1)) []))))).
  { eapply LASTV; [rewrite <- app_comm_cons in V; exact V|]. destruct (filter (about id) l2); discriminate. }
  destruct INB as [X|[X|X]]; try discriminate. apply in_map_iff in X. destruct X as (? & X & _). discriminate.
Qed.
(** ... when StopThreads returns, the tasks that were added first have finished and the others have not been started: they wait
    in the queue *)
Theorem C41_stop W (m : M) debug sched H1 H2 s : p_exec debug sched (p_init W m) = Ok (H1 ++ EStopped :: H2, s) ->
  exists k, k + waiting H1 = length (added H1) /\ forall id, id < length (added H1) ->
    (id < k -> filter (about id) H1 = life id (nth id (added H1) [])) /\ (k <= id -> filter (about id) H1 = [EAdd id (nth id (added H1) [])]).
Proof.
  intros E. destruct (exec_split debug sched _ _ _ _ _ _ E eq_refl) as (r1 & x & r2 & H0 & s1 & s2 & e1 & e2 & H3 & -> & X1 & X2 & -> & X3 & _).
  pose proof (ok_exec m debug r1 _ _ (ok_init m W)) as G. rewrite X1 in G. destruct G as [(q & L & T & I) _]. cbn [app] in I.
  destruct (stopped_step debug x s1 s2 e1 e2 X2) as (i & EM & N & -> & -> & ->). rewrite app_nil_r.
  pose proof (joined_off m s1 q L H0 T i false I EM N) as OFF.
  assert (NM : forall id, T id <> LMain) by (intros id X; apply (v_lmain _ _ _ _ _ _ I) in X; destruct X; congruence).
  rewrite (waiting_len m s1 q L H0 T I OFF NM). destruct (v_fifo _ _ _ _ _ _ I) as (k & F1 & F2 & F3 & F4). exists k. rewrite (v_added _ _ _ _ _ _ I).
  split.
  - destruct (Nat.eq_dec (k + length q) (length (p_bodies s1))) as [|NE]; auto. exfalso. destruct (F4 (k + length q) (le_n _)) as [X|X]; [exact (NM _ X)|]. apply (v_none _ _ _ _ _ _ I) in X. lia.
  - intros id J. rewrite (v_hist _ _ _ _ _ _ I id). fold (body_of s1 id). destruct (off_places m s1 q L H0 T I OFF id J) as [X|[X|X]]; [| |destruct (NM _ X)]; rewrite X.
    + split; [reflexivity|]. intros KI. exfalso. destruct (Nat.lt_ge_cases id (k + length q)) as [Y|Y].
      * assert (Z : T id = LQueue) by (apply (v_queue _ _ _ _ _ _ I); rewrite F1; apply in_seq; lia). congruence.
      * destruct (F4 id Y); congruence.
    + split; [|reflexivity]. intros KI. exfalso. apply (v_queue _ _ _ _ _ _ I) in X. rewrite F1 in X. apply in_seq in X. lia.
Qed.
(** ... NumTasks of a pool without threads is the number of tasks that have not been started *)
Theorem C41_num_tasks W (m : M) debug sched H1 z H2 s : p_exec debug sched (p_init W m) = Ok (H1 ++ ENum z :: H2, s) -> phase_of H1 = Down -> z = (Z.of_nat (waiting H1) mod 2 ^ 64)%Z.
Proof.
  intros E PH. destruct (exec_split debug sched _ _ _ _ _ _ E eq_refl) as (r1 & x & r2 & H0 & s1 & s2 & e1 & e2 & H3 & -> & X1 & X2 & -> & X3 & _).
  pose proof (ok_exec m debug r1 _ _ (ok_init m W)) as G. rewrite X1 in G. destruct G as [(q & L & T & I) [C P]]. cbn [app] in *.
  destruct (num_event debug x s1 s2 e1 e2 z X2) as (EM & -> & qs & t & SQ). rewrite app_nil_r in *. rewrite EM, PH in P. destruct P as [P1 P2].
  assert (OFF : forall w, wk s1 w = WOff). { intros w. destruct (wk s1 w) eqn:EW; auto; exfalso; (assert (X : wk s1 w <> WOff) by congruence; apply (v_off _ _ _ _ _ _ I) in X; lia). }
  assert (NM : forall id, T id <> LMain) by (intros id X; apply (v_lmain _ _ _ _ _ _ I) in X; destruct X; congruence).
  rewrite (waiting_len m s1 q L H0 T I OFF NM).
  assert (OI : forall k, k <> 0 -> at_ (q_pcs (p_q s1)) k = Idle).
  { intros [|k] N; [congruence|]. pose proof (v_work _ _ _ _ _ _ I k) as V. rewrite OFF in V. apply stat_idle. exact V. }
  eapply size_value; [apply (v_q _ _ _ _ _ _ I)|exact OI|exact SQ].
Qed.
(** ... when the destructor has returned nothing happens any more and no thread is left *)
Theorem C41_destroyed W (m : M) debug sched H1 H2 s : p_exec debug sched (p_init W m) = Ok (H1 ++ EGone :: H2, s) -> H2 = [] /\ Forall (fun w => w = WOff) (p_w s).
Proof.
  intros E. destruct (exec_split debug sched _ _ _ _ _ _ E eq_refl) as (r1 & x & r2 & H0 & s1 & s2 & e1 & e2 & H3 & -> & X1 & X2 & -> & X3 & ->).
  pose proof (ok_exec m debug r1 _ _ (ok_init m W)) as G. rewrite X1 in G. pose proof (ok_step m debug x s1 _ G) as G2. rewrite X2 in G2. destruct G2 as [(q & L & T & I) _].
  destruct (gone_event debug x s1 s2 e1 e2 X2) as [GM ->]. pose proof (v_join _ _ _ _ _ _ I) as J. rewrite GM in J. destruct J as [N _].
  assert (OFF : forall w, nth_error (p_w s2) w = None \/ nth_error (p_w s2) w = Some WOff).
  { intros w. pose proof (v_off _ _ _ _ _ _ I w) as V. unfold wk in V. destruct (nth_error (p_w s2) w) as [c|] eqn:Ew; [right|left; reflexivity].
    rewrite (nth_error_nth _ _ _ Ew) in V. destruct c; try reflexivity; exfalso; assert (w < 0) by (rewrite <- N; apply V; discriminate); lia. }
  rewrite (gone_stuck debug r2 s2 GM OFF) in X3. inversion X3; subst. split; [reflexivity|]. apply Forall_forall. intros c Hc. apply In_nth_error in Hc. destruct Hc as (w & Hw). destruct (OFF w) as [D|D]; congruence.
Qed.
(** ... the run is defined, except that the program is terminated when LaunchThreads is called on a running pool (assertion, debug
    build) and when a pool that failed to create its threads is launched again or destroyed (std::terminate) *)
Theorem C41_defined W (m : M) debug sched : match p_exec debug sched (p_init W m) with
  | Ok _ => True
  | Abort => exists r1 o tmo r2 H s, sched = r1 ++ Main o tmo :: r2 /\ p_exec debug r1 (p_init W m) = Ok (H, s) /\ calling H = None /\
      ((exists k n, o = PLaunch k /\ debug = true /\ phase_of H = Up n) \/ (phase_of H = Broken /\ ((exists k, o = PLaunch k) \/ o = PDestroy)))
  | _ => False
  end.
Proof.
  pose proof (ok_exec m debug sched _ _ (ok_init m W)) as G. destruct (p_exec debug sched (p_init W m)) as [[H s]| | | | |] eqn:E; auto.
  destruct (exec_abort debug sched _ E) as (r1 & x & r2 & H & s1 & -> & X1 & X2). pose proof (ok_exec m debug r1 _ _ (ok_init m W)) as G1. rewrite X1 in G1.
  destruct (die_cases m debug x s1 _ G1 X2) as (o & tmo & -> & C & K). exists r1, o, tmo, r2, H, s1. split; [reflexivity|]. auto.
Qed.
(** ... and nothing deadlocks or gets lost: at any point, whatever call is in progress can still return without giving up on any
    task, provided that a pool with at least one thread is running if the call is Wait *)
Theorem C41_progress W (m : M) debug sched H s : p_exec debug sched (p_init W m) = Ok (H, s) -> (calling H = Some CWait -> exists k, phase_of H = Up (S k)) ->
  exists more H' s', p_exec debug (sched ++ more) (p_init W m) = Ok (H ++ H', s') /\ calling (H ++ H') = None /\ no_timeout H'.
Proof.
  intros E CW. pose proof (ok_exec m debug sched _ _ (ok_init m W)) as G. rewrite E in G. cbn [app] in G.
  destruct (call_returns m debug s H G CW) as (s' & (more & e & PA & R) & X). exists more, e, s'. rewrite (exec_app debug sched more _ _ _ E), R. split; [reflexivity|].
  split; [|eapply patient_exec; eauto]. pose proof (ok_exec m debug more s H G) as O. rewrite R in O. destruct O as [_ [C _]]. rewrite C. destruct X as [-> | ->]; reflexivity.
Qed.
(** ... without threads Wait returns only by giving up on all the tasks that are not finished, such as those that were still queued
    when the threads were stopped: they are neither executed nor reported *)
Theorem C41_wait_stopped W (m : M) debug sched H1 H2 H3 s id : p_exec debug sched (p_init W m) = Ok (H1 ++ EWait :: H2 ++ EWaited :: H3, s) -> ~ In EWaited H2 -> phase_of H1 = Down ->
  id < length (added H1) -> ~ In (EFin id) H1 -> In (ETimeout id) (H1 ++ EWait :: H2) /\ ~ In (EFin id) H2.
Proof.
  intros E NW PH J NF. destruct (exec_split debug sched _ _ _ _ _ _ E eq_refl) as (r1 & x & r2 & H0 & s1 & s2 & e1 & e2 & H4 & ES & X1 & X2 & EH & X3 & EH2).
  pose proof (ok_exec m debug r1 _ _ (ok_init m W)) as G. rewrite X1 in G. destruct G as [(q & L & T & I) [C P]]. cbn [app] in *.
  destruct (wait_event debug x s1 s2 e1 e2 X2) as (EM & -> & -> & ->). rewrite app_nil_r in EH. subst H0. cbn [app] in EH2. rewrite EM, PH in P. destruct P as [P1 P2].
  assert (OFF : forall w, wk s1 w = WOff). { intros w. destruct (wk s1 w) eqn:EW; auto; exfalso; (assert (X : wk s1 w <> WOff) by congruence; apply (v_off _ _ _ _ _ _ I) in X; lia). }
  assert (TO : forall e, In e H2 -> exists i, e = ETimeout i) by (eapply (stuck_wait debug r2 (set_main s1 (MWait (p_fut s1)))); [reflexivity|exact OFF|exact X3|symmetry; exact EH2|exact NW]).
  assert (NF2 : ~ In (EFin id) H2) by (intros Y; apply TO in Y; destruct Y as [i Y]; discriminate). split; [|exact NF2].
  destruct (timeout_dec id (H1 ++ EWait :: H2)) as [Y|Y]; [exact Y|exfalso].
  change (EWait :: H2 ++ EWaited :: H3) with ((EWait :: H2) ++ EWaited :: H3) in E. rewrite app_assoc in E. destruct (C41_wait W m debug sched (H1 ++ EWait :: H2) H3 s id E) as [F _]; auto.
  - rewrite added_app, app_length. lia.
  - apply in_app_or in F. destruct F as [F|[F|F]]; [tauto|discriminate|tauto].
Qed.
End P.

(** A run: two workers, two tasks, interleaved; both theorems about Wait apply. *)
Definition ex_b1 : body (list nat) := [cons 1; cons 2].
Definition ex_b2 : body (list nat) := [cons 3].
Definition mm (o : pop (list nat)) n : list (move (list nat)) := repeat (Main o false) n.
Definition ww w n : list (move (list nat)) := repeat (Work w) n.
Definition ex_sched : list (move (list nat)) :=
  mm (PLaunch 2) 4 ++ mm (PAdd ex_b1) 10 ++ mm (PAdd ex_b2) 10 ++ ww 0 14 ++ ww 1 15 ++ ww 0 2 ++ ww 1 1 ++ ww 0 3 ++ mm PWait 4.
Example C41_example : exists s, p_exec true ex_sched (p_init 2 []) =
  Ok ([ELaunch 2; ELaunched; EAdd 0 ex_b1; EAdded 0; EAdd 1 ex_b2; EAdded 1; EStart 0; EAct 0 0; EStart 1; EAct 1 0; EFin 1; EAct 0 1; EFin 0; EWait; EWaited], s) /\ p_mem s = [2; 3; 1].
Proof. eexists. split; vm_compute; reflexivity. Qed.
(** ... and one that meets the hypotheses of [C41_stop], [C41_num_tasks] and [C41_wait_stopped]: the threads are stopped while the
    second task is still queued *)
Example C41_example_stop : exists s, p_exec true (mm (PLaunch 1) 3 ++ mm (PAdd ex_b1) 10 ++ mm (PAdd ex_b2) 10 ++ ww 0 14 ++ mm PStop 1 ++ ww 0 3 ++ mm PNum 5 ++ mm PWait 2 ++ [Main PWait true] ++ mm PWait 1) (p_init 2 []) =
  Ok ([ELaunch 1; ELaunched; EAdd 0 ex_b1; EAdded 0; EAdd 1 ex_b2; EAdded 1; EStart 0; EAct 0 0; EStop; EAct 0 1; EFin 0; EStopped; ENumTasks; ENum 1; EWait; ETimeout 1; EWaited], s) /\ phase_of [ELaunch 1; ELaunched; EStopped : pev (list nat)] = Down.
Proof. eexists. split; [vm_compute; reflexivity|reflexivity]. Qed.
(** ... and of [C41_destroyed]: the destructor stops and joins the worker *)
Example C41_example_destroy : exists s, p_exec true (mm (PLaunch 1) 3 ++ mm PDestroy 1 ++ ww 0 2 ++ mm PDestroy 4 ++ ww 0 2) (p_init 2 []) = Ok ([ELaunch 1; ELaunched; EDestroy; EGone], s).
Proof. eexists. vm_compute. reflexivity. Qed.

(** Findings.  Once a Wait has given up on a task its future is forgotten: a second Wait returns at once, without having given up
    on anything, while the task has not finished ... *)
Theorem C41_second_wait_refuted : exists W sched H1 H2 s id, p_exec true sched (p_init W ([] : list nat)) = Ok (H1 ++ EWait :: H2 ++ [EWaited], s) /\ no_timeout H2 /\
  phase_of (H1 ++ EWait :: H2) = Up 1 /\ id < length (added H1) /\ ~ In (EFin id) (H1 ++ EWait :: H2).
Proof.
  exists 1, (mm (PLaunch 1) 3 ++ mm (PAdd ex_b1) 10 ++ mm PWait 1 ++ [Main PWait true] ++ mm PWait 3), [ELaunch 1; ELaunched; EAdd 0 ex_b1; EAdded 0; EWait; ETimeout 0; EWaited], []. eexists. exists 0.
  split; [vm_compute; reflexivity|]. split; [intros i []|]. split; [reflexivity|]. split; [cbn; lia|]. cbn. intuition discriminate.
Qed.
(** ... and after LaunchThreads has thrown, the threads that were created are left unjoined: destroying the pool (for instance while the
    exception propagates) terminates the program *)
Theorem C41_failed_launch_refuted : exists W k sched H s, p_exec false sched (p_init W ([] : list nat)) = Ok (H, s) /\ H = [ELaunch k; EThrown] /\ calling H = None /\
  forall tmo more, p_exec false (sched ++ Main PDestroy tmo :: more) (p_init W []) = Abort.
Proof.
  exists 1, 2, (mm (PLaunch 2) 3), [ELaunch 2; EThrown]. eexists. split; [vm_compute; reflexivity|]. split; [reflexivity|]. split; [reflexivity|]. intros tmo more. vm_compute. reflexivity.
Qed.

Print Assumptions C41_once.
Print Assumptions C41_wait.
Print Assumptions C41_stop.
Print Assumptions C41_num_tasks.
Print Assumptions C41_defined. Print Assumptions C41_destroyed.
Print Assumptions C41_progress.
Print Assumptions C41_wait_stopped.
Print Assumptions C41_second_wait_refuted.
Print Assumptions C41_failed_launch_refuted.
