(** C38, C39, C40: the thread-safe queue. *)
From Coq Require Import List ZArith Bool Lia Arith Permutation.
From Verif Require Import Base QueueSpec QueueModel QueueProofs QueueProofs2 QueueProofs3 QueueProofs4.
Import ListNotations.

(** status of each thread as an observer of the history knows it *)
Definition obs {V} (s : qst V) (t : nat) : status V := stat (at_ (q_pcs s) t).
Definition idle {V} (s : qst V) : Prop := forall t, nth t (q_pcs s) Idle = Idle.

(** C38.  For every number of threads, every program and every interleaving: no step dereferences an absent node or element
    (the run is [Ok]) and the history of calls and returns is linearizable with respect to the sequential FIFO queue. *)
Theorem C38_linearizable V n (sched : list (nat * qop V)) :
  exists H s q, q_exec sched (q_init n) = Ok (H, s) /\ linearizable H (obs s) q.
Proof.
  destruct (exec_init n sched) as (H & s & q & L & A & X & I & (st & R & E) & ER & _). exists H, s, q. split; [exact X|].
  exists A, st. split; [exact R|]. split; [intros t; apply E|exact ER].
Qed.
(** ... the pops obtain the values in the order of the pushes (both in the order in which the calls take effect), the rest is
    still in the queue; no value is lost, duplicated or invented *)
Theorem C38_order V n (sched : list (nat * qop V)) : (forall t o, In (t, o) sched -> o <> QClear /\ o <> QAssign) ->
  exists H s q A st, q_exec sched (q_init n) = Ok (H, s) /\ lrun A st q /\ (forall t, st t = obs s t) /\ erase A = H /\
    eff_push A = eff_pop A ++ q /\ Permutation (pushed H) (popped H ++ q ++ inflight n (obs s)) /\
    (idle s -> Permutation (pushed H) (popped H ++ q)).
Proof.
  intros NO. destruct (exec_init n sched) as (H & s & q & L & A & X & I & (st & R & E) & ER & _). exists H, s, q, A, st.
  assert (NC : noclear (erase A)).
  { rewrite ER. clear - X NO. revert X. generalize (@q_init V n) as s0. revert H s. induction sched as [|[t o] sched IH]; intros H s s0 X k; cbn [q_exec] in X.
    - inversion X; subst. split; intros [].
    - assert (NO' : forall t o, In (t, o) sched -> o <> QClear /\ o <> QAssign) by (intros; eapply NO; right; eauto). specialize (IH NO').
      destruct (q_step t o s0) as [| |s1 e] eqn:S; [eapply IH; eauto|discriminate|]. destruct (q_exec sched s1) as [[H1 s2]| | | | |] eqn:X1; try discriminate.
      cbn [bind] in X. inversion X; subst. destruct (IH _ _ _ X1 k) as [A B].
      assert (K : forall o', e = Some (EInv k o') -> o' = o).
      { intros o' ->. clear - S. unfold q_step in S. destruct (nth_error (q_pcs s0) t) as [p|]; [|discriminate]. unfold tau, ret, lock_head, lock_tail, goto, q_free in S.
        destruct p; repeat match type of S with context[match ?x with _ => _ end] => destruct x end; try discriminate; inversion S; auto. }
      destruct (NO t o (or_introl eq_refl)) as [C D].
      destruct e as [y|]; [|auto]. split; (intros [J|J]; [subst y; specialize (K _ eq_refl); congruence|auto]). }
  assert (P : Permutation (pushed H) (popped H ++ q ++ inflight n (obs s))).
  { rewrite <- ER. replace (inflight n (obs s)) with (inflight n st).
    - apply conserve; auto. rewrite ER. intros e J. pose proof (exec_tid sched (q_init n) H s X e J) as T. cbn [q_init q_pcs] in T. rewrite repeat_length in T. exact T.
    - unfold inflight. rewrite !flat_map_concat_map. f_equal. apply map_ext. intros t. rewrite E. reflexivity. }
  repeat split; auto.
  - eapply eff_order; eauto.
  - intros AI. rewrite P. apply Permutation_app_head. replace (inflight n (obs s)) with (@nil V); [rewrite app_nil_r; reflexivity|].
    unfold inflight, obs, at_. clear - AI. induction (seq 0 n) as [|t l IH]; cbn; auto. rewrite AI. cbn. exact IH.
Qed.
(** ... and, when nobody clears or move-assigns the queue, it never deadlocks: from every reachable state all pending calls can
    return without a new call *)
Theorem C38_progress V n (sched : list (nat * qop V)) : (forall t o, In (t, o) sched -> o <> QClear /\ o <> QAssign) ->
  exists more H H' s, q_exec (sched ++ more) (q_init n) = Ok (H ++ H', s) /\ (exists s0, q_exec sched (q_init n) = Ok (H, s0)) /\ idle s /\
    (forall e, In e H' -> exists t r, e = ERet t r).
Proof.
  intros NO. destruct (exec_init n sched) as (H & s & q & L & A & X & I & _).
  assert (NC : forall k, nc (at_ (q_pcs s) k) = true).
  { eapply (nc_exec sched (q_init n) [] []); [apply inv_init| | |exact X].
    - intros k. cbn [q_init q_pcs]. rewrite at_repeat. reflexivity.
    - intros t o J. destruct (NO t o J). destruct o; cbn; congruence. }
  destruct (finish (total (q_pcs s)) s q L (le_n _) I NC) as (more & H' & s' & X' & _ & AI & RE).
  exists more, H, H', s'. split; [eapply exec_concat; eauto|]. split; [eauto|]. split; [exact AI|].
  intros e J. specialize (RE e J). destruct e; [destruct RE|eauto].
Qed.

(** C39.  The counter is exact whenever no call is in progress ... *)
Theorem C39_quiescent V n (sched : list (nat * qop V)) :
  exists H s q, q_exec sched (q_init n) = Ok (H, s) /\ linearizable H (obs s) q /\ (idle s -> q_size s = (Z.of_nat (length q) mod 2 ^ 64)%Z) /\
    exists d, (0 <= d <= Z.of_nat n)%Z /\ q_size s = ((Z.of_nat (length q) - d) mod 2 ^ 64)%Z.
Proof.
  destruct (exec_init n sched) as (H & s & q & L & A & X & I & (st & R & E) & ER & Len). exists H, s, q. split; [exact X|]. split; [|split].
  - exists A, st. split; [exact R|]. split; [intros t; apply E|exact ER].
  - intros AI. rewrite (i_size _ _ _ I). change (2 ^ 64)%Z with size_max. f_equal.
    assert (Z : adjs (q_pcs s) = 0%Z); [|rewrite Z; lia]. clear - AI. unfold idle in AI. induction (q_pcs s) as [|p l IH]; [reflexivity|]. change (adjs (p :: l)) with (adj p + adjs l)%Z. rewrite IH by (intros t; apply (AI (S t))).
    pose proof (AI 0) as E. cbn in E. subst p. reflexivity.
  - exists (adjs (q_pcs s)). split; [|rewrite (i_size _ _ _ I); reflexivity]. split; [apply adjs_nonneg|]. rewrite <- Len. clear. induction (q_pcs s) as [|p l IH]; [cbn; lia|]. change (adjs (p :: l)) with (adj p + adjs l)%Z. cbn [length].
    assert (adj p <= 1)%Z by (destruct p; cbn; lia). lia.
Qed.
(** ... but not otherwise: while a push is between publishing its element and counting it, another thread's pop takes the counter
    below zero and Size returns 2^64 - 1 although the queue never held more than one element.  Finding. *)
Definition size_race : list (nat * qop nat) :=
  repeat (0, QPush 7) 7        (* thread 0 pushes, up to but excluding ++size_ *)
  ++ repeat (1, QPop) 12       (* thread 1 pops the element, completely *)
  ++ repeat (2, QSize) 2.      (* thread 2 asks for the size *)
Theorem C39_size_refuted : exists (sched : list (nat * qop nat)) H s, q_exec sched (q_init 3) = Ok (H, s) /\
  In (ERet 2 (RSize (2 ^ 64 - 1))) H /\ pushed H = [7] /\ popped H = [7].
Proof.
  exists size_race, [EInv 0 (QPush 7); EInv 1 QPop; ERet 1 (RPop (Some 7)); EInv 2 QSize; ERet 2 (RSize 18446744073709551615)].
  eexists. split; [vm_compute; reflexivity|]. split; [right; right; right; right; left; reflexivity|split; reflexivity].
Qed.

(** C40.  Clear and the move assignment never return, whatever the content and the schedule: Clear takes the head lock and then
    calls IsEmpty, which takes it again.  Finding. *)
Theorem C40_clear_never_returns V n (sched : list (nat * qop V)) H s t o H1 H2 : o = QClear \/ o = QAssign ->
  q_exec sched (q_init n) = Ok (H, s) -> H = H1 ++ EInv t o :: H2 -> forall t' r, In (ERet t' r) H2 -> t' <> t.
Proof.
  intros O X E t' r J. destruct (inv_event t o (start_pc o) sched (inv_starts t o) (q_init n) H s H1 H2 X E) as (a & b & s1 & -> & X1 & X2 & P).
  destruct (exec_init n a) as (H' & s1' & q1 & L1 & A1 & X1' & I1 & _). rewrite X1 in X1'. inversion X1'; subst H' s1'.
  assert (C : incl_ (at_ (q_pcs s1) t) = true) by (rewrite P; destruct O; subst o; reflexivity).
  destruct (clear_exec b s1 q1 L1 t H2 s I1 C X2) as [_ T]. intros ->. apply (T _ J). reflexivity.
Qed.
(** ... and once a Clear holds the lock, no pop, emptiness test or Clear started later ever returns *)
Theorem C40_clear_blocks V n (sched more : list (nat * qop V)) H s H' s' t mv : q_exec sched (q_init n) = Ok (H, s) -> nth t (q_pcs s) Idle = EmLock (Some mv) ->
  q_exec more s = Ok (H', s') -> forall w o H1 H2, o = QPop \/ o = QIsEmpty \/ o = QClear \/ o = QAssign -> H' = H1 ++ EInv w o :: H2 -> forall t' r, In (ERet t' r) H2 -> t' <> w.
Proof.
  intros X C X' w o H1 H2 O E t' r J. destruct (inv_event w o (start_pc o) more (inv_starts w o) s H' s' H1 H2 X' E) as (a & b & s1 & -> & X1 & X2 & P).
  destruct (exec_init n sched) as (H0 & s0 & q & L & A & X0 & I & LI & _). rewrite X in X0. inversion X0; subst H0 s0.
  destruct (exec_lin a A s q L I LI) as (H0 & s1' & q1 & L1 & A1 & X1' & I1 & _). rewrite X1 in X1'. inversion X1'; subst H0 s1'.
  assert (ST : stuck s1 t).
  { clear - I C X1. assert (C' : stuck s t) by (unfold stuck, at_; rewrite C; exact Logic.I). clear C. revert X1. generalize (H1 ++ [EInv w o]) as H. revert s q L I C'.
    induction a as [|[k o'] a IH]; intros s q L I C' H X1; cbn [q_exec] in X1; [inversion X1; subst; exact C'|].
    pose proof (q_step_ok s q L k o' I) as G. destruct (q_step k o' s) as [| |s2 e] eqn:S; [eapply IH; eauto|discriminate|]. destruct (q_exec a s2) as [[H2 s3]| | | | |] eqn:X2; try discriminate. cbn [bind] in X1. inversion X1; subst.
    destruct G as (q1 & L1 & I1 & _). exact (IH s2 q1 L1 I1 (stuck_step s q L t k o' s2 e I C' S) _ X2). }
  assert (W : wants (at_ (q_pcs s1) w) = true) by (rewrite P; destruct O as [-> | [-> | [-> | ->] ] ]; reflexivity).
  intros ->. apply (wants_exec b s1 q1 L1 t w H2 s' I1 ST W X2 _ J). reflexivity.
Qed.

(** ... concretely: one thread pushes one element and calls Clear (or move-assigns); it is still inside after any schedule *)
Theorem C40_clear_refuted : forall o, o = QClear \/ o = QAssign -> exists (sched : list (nat * qop nat)) H s, q_exec sched (q_init 2) = Ok (H, s) /\ In (EInv 0 o) H /\
  forall more H' s', q_exec more s = Ok (H', s') -> forall r, ~ In (ERet 0 r) H'.
Proof.
  intros o O. exists (repeat (0, QPush 5) 9 ++ [(0, o)]). 
  assert (X : exists s, q_exec (repeat (0, QPush 5) 9 ++ [(0, o)]) (q_init 2) = Ok ([EInv 0 (QPush 5); ERet 0 RUnit; EInv 0 o], s)) by (destruct O; subst o; eexists; vm_compute; reflexivity).
  destruct X as [s X]. exists [EInv 0 (QPush 5); ERet 0 RUnit; EInv 0 o], s. split; [exact X|]. split; [right; right; left; reflexivity|].
  intros more H' s' X' r J. pose proof (exec_concat _ _ _ _ _ _ _ X X') as Y.
  exact (C40_clear_never_returns nat 2 _ _ _ 0 o [EInv 0 (QPush 5); ERet 0 RUnit] H' O Y eq_refl 0 r J eq_refl).
Qed.

(** * examples *)
(** two pushes and three pops by three threads, interleaved: the history and the contents *)
Definition demo : list (nat * qop nat) :=
  [(0, QPush 1); (1, QPush 2); (0, QPush 0); (1, QPop); (2, QPop)] ++ repeat (1, QPop) 6 ++ repeat (2, QPop) 5 ++ repeat (0, QSize) 9 ++ repeat (2, QPop) 12 ++ repeat (1, QPop) 4 ++ repeat (2, QPop) 15.
Example C38_example : (exists s, q_exec demo (q_init 3) =
  Ok ([EInv 0 (QPush 1); EInv 1 (QPush 2); EInv 2 QPop; ERet 0 RUnit; EInv 0 QSize; ERet 0 (RSize 2); ERet 2 (RPop (Some 2)); EInv 2 QPop; ERet 1 RUnit;
       EInv 1 QPop; ERet 2 (RPop (Some 1)); EInv 2 QPop; ERet 2 (RPop None); EInv 2 QPop], s)) /\ (forall t o, In (t, o) demo -> o <> QClear /\ o <> QAssign).
Proof.
  split; [eexists; vm_compute; reflexivity|]. intros t o J. cbn in J.
  repeat match type of J with _ \/ _ => destruct J as [J|J] end; try contradiction; inversion J; split; discriminate.
Qed.
(** clearing an empty queue: the call is made and the lock taken, then nothing moves any more *)
Example C40_example : exists s, q_exec (repeat (0, @QClear nat) 2 ++ repeat (0, QClear) 50 ++ repeat (1, QPop) 50) (q_init 2) = Ok ([EInv 0 QClear; EInv 1 QPop], s) /\ nth 0 (q_pcs s) Idle = EmLock (Some false).
Proof. eexists. split; [vm_compute; reflexivity|reflexivity]. Qed.

Print Assumptions C38_linearizable. Print Assumptions C38_order. Print Assumptions C38_progress. Print Assumptions C39_quiescent.
Print Assumptions C39_size_refuted. Print Assumptions C40_clear_never_returns.
Print Assumptions C40_clear_blocks. Print Assumptions C40_clear_refuted.
