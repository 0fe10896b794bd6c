(** Property C81: moving thread pools.  Proofs in PoolMoveProofs.v. *)
From Coq Require Import List ZArith Bool Lia Arith Permutation.
From Verif Require Import Base QueueSpec QueueModel PoolSpec PoolModel PoolProofs PoolProofs5 PoolMoveModel PoolMoveProofs P_Pool.
Import ListNotations.

Section P.
Context {M : Type} (W : nat).
(** Any program that constructs, uses, moves and destroys pools, under any schedule: each pool is in a state that the history of its tasks and threads
    gives, wherever they were held before.  So what C41 says of one pool holds of every pool that has been moved. *)
Theorem C81_pools debug ops w i H (s : pst M) : w_exec W debug ops [] = Ok w -> nth_error w i = Some (Some (mkPobj H (Live s))) ->
  exists sched m, p_exec debug sched (p_init W m) = Ok (H, s).
Proof. intros E N. pose proof (exec_real W debug ops [] w E ltac:(constructor)) as F. exact (proj1 (Forall_forall _ _) F _ (nth_error_In _ _ N) H s eq_refl). Qed.
(** In particular every task is run at most once and in the order of its actions, even if it was added to one pool and run by another ... *)
Theorem C81_once debug ops w i H (s : pst M) : w_exec W debug ops [] = Ok w -> nth_error w i = Some (Some (mkPobj H (Live s))) ->
  forall id, id < length (added H) -> prefix (filter (about id) H) (life id (nth id (added H) [])).
Proof. intros E N. destruct (C81_pools debug ops w i H s E N) as (sched & m & X). exact (proj1 (C41_once W m debug sched H s X)). Qed.
(** ... and when Wait returns, the tasks added to the pool or to a pool it was moved from are finished, unless Wait gave up on them. *)
Theorem C81_wait debug ops w i H1 H2 (s : pst M) id : w_exec W debug ops [] = Ok w -> nth_error w i = Some (Some (mkPobj (H1 ++ EWaited :: H2) (Live s))) ->
  id < length (added H1) -> ~ In (ETimeout id) H1 -> In (EFin id) H1 /\ filter (about id) H1 = life id (nth id (added H1) []).
Proof. intros E N. destruct (C81_pools debug ops w i _ s E N) as (sched & m & X). exact (C41_wait W m debug sched H1 H2 s id X). Qed.
(** A move loses nothing and touches nothing else: the histories held by the pools are the same before and after, and only the pool moved from changes. *)
Definition hists (w : world M) : list (list (pev M)) :=
  flat_map (fun o => match o with Some (mkPobj H (Live _)) => [H] | _ => [] end) w.
Theorem C81_move_keeps debug i (w w' : world M) : w_step W debug (WMove i) w = Ok w' ->
  Permutation (hists w) (hists w') /\ forall k, k <> i -> k < length w -> nth_error w' k = nth_error w k.
Proof.
  cbn [w_step]. intros E. assert (SAME : Ok w = Ok w' -> Permutation (hists w) (hists w') /\ forall k, k <> i -> k < length w -> nth_error w' k = nth_error w k) by (intros X; injection X as <-; split; [apply Permutation_refl|reflexivity]).
  destruct (all_quiet w); [|auto]. destruct (nth_error w i) as [[[Hb c]|]|] eqn:N; auto. cbn [ob_cell ob_hist] in E. destruct c as [s|run].
  - destruct (move_from debug s); cbn [bind] in E; try discriminate. injection E as <-. split.
    + unfold hists. rewrite flat_map_app. cbn [flat_map List.app]. clear SAME. revert i N. induction w as [|o w IH]; intros [|i] N; cbn [nth_error] in N; try discriminate.
      * injection N as ->. cbn [wset upd flat_map List.app]. apply Permutation_cons_append.
      * cbn [wset upd flat_map]. rewrite <- app_assoc. apply Permutation_app_head. exact (IH i N).
    + intros k K L. rewrite nth_error_app1 by (unfold wset; rewrite upd_length; exact L). unfold wset. apply nth_error_upd_other. congruence.
  - destruct (debug && run); [discriminate|]. injection E as <-. split; [unfold hists; rewrite flat_map_app; cbn; rewrite app_nil_r; apply Permutation_refl|]. intros k _ L. apply nth_error_app1. exact L.
Qed.
(** A pool that is neither running nor in use can be moved, in both builds, with its tasks, its futures and its memory. *)
Theorem C81_stopped debug ops w i H (s : pst M) : w_exec W debug ops [] = Ok w -> nth_error w i = Some (Some (mkPobj H (Live s))) -> all_quiet w = true ->
  calling H = None -> ~ In EGone H -> phase_of H = Down ->
  w_step W debug (WMove i) w = Ok (wset i (Some (mkPobj [] (Left false))) w ++ [Some (mkPobj H (Live s))]).
Proof.
  intros E N Q C NG D. destruct (C81_pools debug ops w i H s E N) as (sched & m & X). destruct (idle_phase W debug sched m H s X C NG) as [MI P]. rewrite D in P. destruct P as (P1 & _ & P3).
  cbn [w_step]. rewrite Q, N. cbn [ob_cell ob_hist]. unfold move_from. rewrite MI, P1, P3. reflexivity.
Qed.
(** Finding: the check against moving a running pool is an assertion; in a release build the workers go on with the queue of the object moved from. *)
Theorem C81_running debug ops w i H (s : pst M) k : w_exec W debug ops [] = Ok w -> nth_error w i = Some (Some (mkPobj H (Live s))) -> all_quiet w = true ->
  calling H = None -> ~ In EGone H -> phase_of H = Up (S k) -> w_step W debug (WMove i) w = if debug then Abort else UB.
Proof.
  intros E N Q C NG D. destruct (C81_pools debug ops w i H s E N) as (sched & m & X). destruct (idle_phase W debug sched m H s X C NG) as [MI P]. rewrite D in P. destruct P as (P1 & P2 & _).
  cbn [w_step]. rewrite Q, N. cbn [ob_cell ob_hist]. unfold move_from. rewrite MI, P1, (P2 ltac:(discriminate)). destruct debug; reflexivity.
Qed.
(** What can be done with a pool that has been moved from: wait (returns at once), stop, destroy, launch no thread; nothing else. *)
Theorem C81_left debug (w : world M) i tmo o H : nth_error w i = Some (Some (mkPobj H (Left false))) -> others_quiet i w = true ->
  ((exists w', w_step W debug (WStep i (Main o tmo)) w = Ok w') <-> o = PWait \/ o = PStop \/ o = PDestroy \/ exists k, o = PLaunch k /\ (k <= 0)%Z) /\
  (w_step W debug (WStep i (Main o tmo)) w = UB <-> (exists b, o = PAdd b) \/ o = PNum \/ exists k, o = PLaunch k /\ (0 < k)%Z).
Proof.
  intros N Q. cbn [w_step]. rewrite N, Q. cbn [ob_cell]. destruct o as [b| |k| | |]; cbn [left_call bind]; try destruct (Z.ltb_spec 0 k); cbn [bind].
  all: split; [split; [intros [w' X]|intros X]|split; [intros X|intros X]]; try discriminate; eauto.
  all: repeat match goal with X : _ \/ _ |- _ => destruct X as [X|X] | X : exists _, _ |- _ => destruct X as [? X] | X : _ /\ _ |- _ => destruct X as [X ?] end; try discriminate; try reflexivity.
  all: try (injection X as <-; exfalso; lia). all: eauto 10.
Qed.
(** Finding: the move assignment never returns.  It aborts, or it is undefined (target moved from), or it blocks in Clear of the target's queue ... *)
Theorem C81_assign_refuted : (forall debug (w : world M) d i b c, nth_error w d = Some (Some b) -> nth_error w i = Some (Some c) -> all_quiet w = true ->
    forall w', w_step W debug (WAssign d i) w <> Ok w') /\
  (forall debug (m m' : M), w_exec W debug [WNew m; WNew m'; WAssign 0 1] [] = Deadlock).
Proof.
  split; [|intros debug m m'; destruct debug; reflexivity]. intros debug w d i b c D I Q w'. cbn [w_step]. rewrite Q, D, I. unfold assign_to.
  destruct (debug && _); [discriminate|]. destruct (ob_cell b) as [s|run]; [|discriminate]. destruct (p_nthr s); discriminate.
Qed.
(** ... and that is so in the model of the queue: however the threads are scheduled after the assignment of the queue has been entered, it does not
    return. *)
Theorem C81_assign_blocks debug ops w i H (s : pst M) more H' q' : w_exec W debug ops [] = Ok w -> nth_error w i = Some (Some (mkPobj H (Live s))) -> p_main s = MIdle ->
  q_exec ((0, QAssign) :: more) (p_q s) = Ok (H', q') -> forall r, ~ In (ERet 0 r) H'.
Proof. intros E N MI X. destruct (C81_pools debug ops w i H s E N) as (sched & m & Y). exact (assign_blocks W debug sched m H s more H' q' Y MI X). Qed.
End P.

(** The test ThreadPool.Move (test/common/threadpool_test.cpp:52-74) with one worker: a task is added, the pool is moved, the new pool runs it; it is
    stopped, moved again, the third pool runs a second task; the pools moved from are destroyed. *)
Definition st {M} (i : nat) (l : list (move M)) : list (wop M) := map (WStep i) l.
Definition ex_moves : list (wop (list nat)) :=
  [WNew []] ++ st 0 (mm (PAdd ex_b1) 10) ++ [WMove 0] ++ st 1 (mm (PLaunch 1) 3 ++ ww 0 17 ++ mm PWait 3 ++ mm PStop 1 ++ ww 0 20 ++ mm PStop 2) ++
  [WMove 1] ++ st 2 (mm (PLaunch 1) 3 ++ mm (PAdd ex_b2) 10 ++ ww 0 16 ++ mm PWait 3) ++ st 0 [Main PDestroy false].
Definition ex_H : list (pev (list nat)) := [EAdd 0 ex_b1; EAdded 0; ELaunch 1; ELaunched; EStart 0; EAct 0 0; EAct 0 1; EFin 0; EWait; EWaited; EStop; EStopped].
Example C81_example : exists s, w_exec 2 true ex_moves [] = Ok [None; Some (mkPobj [] (Left false));
    Some (mkPobj (ex_H ++ [ELaunch 1; ELaunched; EAdd 1 ex_b2; EAdded 1; EStart 1; EAct 1 0; EFin 1; EWait; EWaited]) (Live s))] /\ p_mem s = [3; 2; 1].
Proof. eexists. split; vm_compute; reflexivity. Qed.
(** A running pool is moved: stopped by the assertion in a debug build, undefined in a release build. *)
Example C81_running_refuted : w_exec 2 true ([WNew []] ++ st 0 (mm (PLaunch 1) 3) ++ [WMove 0]) [] = Abort /\
  w_exec 2 false ([WNew []] ++ st 0 (mm (PLaunch 1) 3) ++ [WMove 0]) [] = UB (A := world (list nat)) /\
  exists s, w_exec 2 false ([WNew []] ++ st 0 (mm (PLaunch 1) 3)) [] = Ok [Some (mkPobj [ELaunch 1; ELaunched] (Live s))] /\ phase_of [ELaunch 1; ELaunched : pev (list nat)] = Up 1.
Proof. split; [vm_compute; reflexivity|]. split; [vm_compute; reflexivity|]. eexists. split; vm_compute; reflexivity. Qed.
Print Assumptions C81_pools. Print Assumptions C81_once. Print Assumptions C81_wait. Print Assumptions C81_move_keeps. Print Assumptions C81_stopped. Print Assumptions C81_running.
Print Assumptions C81_left. Print Assumptions C81_assign_refuted. Print Assumptions C81_assign_blocks. Print Assumptions C81_example. Print Assumptions C81_running_refuted.
