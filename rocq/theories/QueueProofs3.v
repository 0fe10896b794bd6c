(** From steps to whole executions: linearizability, conservation of values, size, progress, and the dead end behind Clear. *)
From Coq Require Import List ZArith Bool Lia Arith Permutation.
From Verif Require Import Base QueueSpec QueueModel QueueProofs QueueProofs2.
Import ListNotations.

Section Q.
Context {V : Type}.
Implicit Types (s : qst V) (q : list V).

Lemma at_repeat n t : at_ (repeat (@Idle V) n) t = Idle.
Proof. unfold at_. revert t. induction n as [|n IH]; intros [|t]; cbn; auto. Qed.
Lemma inv_init n : inv (@q_init V n) [] [].
Proof.
  split; cbn [q_init q_heap q_head q_tail q_hm q_tm q_size q_pcs]; intros; rewrite ?at_repeat in *; cbn in *; try discriminate; auto.
  - split; discriminate.
  - split; discriminate.
  - exists 0. auto.
  - constructor.
  - replace (adjs (repeat (@Idle V) n)) with 0%Z; [reflexivity|]. induction n; cbn; auto.
Qed.

(** the annotated run grows with every step *)
Definition lin (A : list (aev V)) s q : Prop := exists st, lrun A st q /\ forall t, st t = stat (at_ (q_pcs s) t).
Lemma lin_step A s q L t o s' e : inv s q L -> lin A s q -> q_step t o s = QStep s' e ->
  exists B q' L', inv s' q' L' /\ lin (A ++ B) s' q' /\ erase (A ++ B) = erase A ++ match e with Some x => [x] | None => [] end /\ length (q_pcs s') = length (q_pcs s).
Proof.
  intros I (st & R & E) S. pose proof (q_step_ok s q L t o I) as G. rewrite S in G. destruct G as (q' & L' & I' & M & O & Len).
  assert (ER : forall B, erase (A ++ B) = erase A ++ erase B) by (intros B; clear; induction A as [|[] A IH]; cbn; rewrite ?IH; auto).
  assert (ST : forall st1 x, x = stat (at_ (q_pcs s') t) -> (forall k, k <> t -> st1 k = st k) -> forall k, sset st1 t x k = stat (at_ (q_pcs s') k)).
  { intros st1 x Ex H k. unfold sset. destruct (Nat.eqb_spec k t) as [->|N]; [exact Ex|]. rewrite O by exact N. rewrite H by exact N. apply E. }
  assert (NX : forall k, k <> t -> st k = st k) by auto.
  inversion M; subst.
  - exists [], q', L'. rewrite app_nil_r. split; [exact I'|split; [|split; [rewrite app_nil_r; reflexivity|exact Len]]]. exists st. split; [exact R|]. intros k. destruct (Nat.eq_dec k t) as [->|N]; [rewrite E; congruence|rewrite O by exact N; apply E].
  - exists [AInv t o0], q', L'. split; [exact I'|split; [|split; [apply ER|exact Len]]]. exists (sset st t (SCalled o0)). split; [apply lr_inv; auto; rewrite E; congruence|]. apply ST; auto.
  - exists [ALin t o0 r], q', L'. split; [exact I'|split; [|split; [apply ER|exact Len]]]. exists (sset st t (SDid r)). split; [eapply lr_lin; eauto; rewrite E; congruence|]. apply ST; auto.
  - exists [ARet t r], q', L'. split; [exact I'|split; [|split; [apply ER|exact Len]]]. exists (sset st t SIdle). split; [apply lr_ret; auto; rewrite E; congruence|]. apply ST; auto.
  - exists [ALin t o0 r; ARet t r], q', L'. split; [exact I'|split; [|split; [apply ER|exact Len]]]. exists (sset (sset st t (SDid r)) t SIdle). split.
    + change [ALin t o0 r; ARet t r] with ([ALin t o0 r] ++ [ARet t r]). rewrite app_assoc. apply lr_ret; [|unfold sset; rewrite Nat.eqb_refl; reflexivity]. eapply lr_lin; eauto. rewrite E. congruence.
    + apply ST; auto. intros k N. unfold sset. rewrite (proj2 (Nat.eqb_neq k t) N). reflexivity.
Qed.
Lemma exec_lin sched : forall A s q L, inv s q L -> lin A s q ->
  exists H s' q' L' A', q_exec sched s = Ok (H, s') /\ inv s' q' L' /\ lin A' s' q' /\ erase A' = erase A ++ H /\ length (q_pcs s') = length (q_pcs s).
Proof.
  induction sched as [|[t o] sched IH]; intros A s q L I R; cbn [q_exec].
  - exists [], s, q, L, A. rewrite app_nil_r. auto.
  - pose proof (q_step_ok s q L t o I) as G. destruct (q_step t o s) as [| |s1 e] eqn:S.
    + apply (IH A s q L I R).
    + destruct G.
    + destruct (lin_step A s q L t o s1 e I R S) as (B & q1 & L1 & I1 & R1 & E1 & Len1).
      destruct (IH _ _ _ _ I1 R1) as (H & s' & q' & L' & A' & X & I' & R' & E' & Len'). rewrite X. cbn [bind].
      exists (match e with Some x => x :: H | None => H end), s', q', L', A'. split; [reflexivity|split; [exact I'|split; [exact R'|split; [|congruence]]]]. rewrite E', E1, <- app_assoc. f_equal. destruct e; reflexivity.
Qed.
Theorem exec_init n sched : exists H s q L A, q_exec sched (q_init n) = Ok (H, s) /\ inv s q L /\ lin A s q /\ erase A = H /\ length (q_pcs s) = n.
Proof.
  destruct (exec_lin sched [] (@q_init V n) [] [] (inv_init n)) as (H & s & q & L & A & X & I & R & E & Len).
  - exists (fun _ => SIdle). split; [constructor|]. intros t. cbn [q_init q_pcs]. rewrite at_repeat. reflexivity.
  - exists H, s, q, L, A. rewrite Len. cbn [q_init q_pcs]. rewrite repeat_length. auto.
Qed.

(** * consequences of an annotated run *)
Definition noclear (H : list (qev V)) : Prop := forall t, ~ In (EInv t QClear) H /\ ~ In (EInv t QAssign) H.
Lemma erase_app (A B : list (aev V)) : erase (A ++ B) = erase A ++ erase B.
Proof. induction A as [|[] A IH]; cbn; rewrite ?IH; auto. Qed.
Lemma called_in A st q : @lrun V A st q -> forall t o, st t = SCalled o -> In (EInv t o) (erase A).
Proof.
  induction 1; intros k o' E; unfold sset in *; [discriminate|..]; rewrite erase_app; apply in_or_app;
    destruct (Nat.eqb_spec k t) as [->|N]; try discriminate; try (left; eauto; fail).
  inversion E; subst. right. left. reflexivity.
Qed.
Lemma noclear_app A B : noclear (erase (A ++ B)) -> noclear (erase A).
Proof. intros H t. destruct (H t) as [X Y]. rewrite erase_app in X, Y. split; intros J; [apply X|apply Y]; apply in_or_app; auto. Qed.
Lemma eff_order A st q : lrun A st q -> noclear (erase A) -> eff_push A = eff_pop A ++ q.
Proof.
  induction 1; intros NC; [reflexivity|..]; pose proof (noclear_app _ _ NC) as NC'; specialize (IHlrun NC'); unfold eff_push, eff_pop in *; rewrite !flat_map_app; cbn [flat_map]; rewrite ?app_nil_r, ?IHlrun; auto.
  pose proof (called_in _ _ _ H t o H0) as J. destruct (NC' t) as [X Y].
  inversion H1; subst; cbn; rewrite ?app_nil_r, ?app_assoc; auto; try contradiction.
  rewrite <- app_assoc. reflexivity.
Qed.
Lemma flat_seq (f g : nat -> list V) n t : t < n -> (forall k, k <> t -> g k = f k) -> exists R, Permutation (flat_map f (seq 0 n)) (f t ++ R) /\ Permutation (flat_map g (seq 0 n)) (g t ++ R).
Proof.
  intros Ht H. assert (J : In t (seq 0 n)) by (apply in_seq; lia). apply in_split in J. destruct J as (l1 & l2 & E).
  assert (ND : NoDup (seq 0 n)) by apply seq_NoDup. rewrite E in *. apply NoDup_remove_2 in ND. exists (flat_map f (l1 ++ l2)). rewrite !flat_map_app. cbn [flat_map].
  split; [rewrite (Permutation_app_comm (flat_map f l1)), <- app_assoc; apply Permutation_app_head, Permutation_app_comm|].
  replace (flat_map g l1) with (flat_map f l1). 1: replace (flat_map g l2) with (flat_map f l2).
  - rewrite (Permutation_app_comm (flat_map f l1)), <- app_assoc; apply Permutation_app_head, Permutation_app_comm.
  - rewrite !flat_map_concat_map. f_equal. apply map_ext_in. intros k K. symmetry. apply H. intros ->. apply ND. apply in_or_app; auto.
  - rewrite !flat_map_concat_map. f_equal. apply map_ext_in. intros k K. symmetry. apply H. intros ->. apply ND. apply in_or_app; auto.
Qed.
Definition held (x : status V) : list V := match x with SCalled (QPush v) => [v] | SDid (RPop (Some v)) => [v] | _ => [] end.
Lemma inflight_set n st t x : t < n -> exists R, Permutation (inflight n st) (held (st t) ++ R) /\ Permutation (inflight n (sset st t x)) (held x ++ R).
Proof.
  intros Ht. destruct (flat_seq (fun k => held (st k)) (fun k => held (sset st t x k)) n t Ht) as (R & P1 & P2).
  - intros k N. unfold sset. rewrite (proj2 (Nat.eqb_neq k t) N). reflexivity.
  - exists R. split; [exact P1|]. unfold inflight. fold held. rewrite P2. unfold sset at 1. rewrite Nat.eqb_refl. reflexivity.
Qed.
Definition tid (e : qev V) : nat := match e with EInv t _ => t | ERet t _ => t end.
Lemma lrun_idle A st q : @lrun V A st q -> forall t, (forall e, In e (erase A) -> tid e <> t) -> st t = SIdle.
Proof.
  induction 1; intros k H'; [reflexivity|..]; rewrite erase_app in H'; cbn [erase] in H'; unfold sset.
  - destruct (Nat.eqb_spec k t) as [->|N]; [elim (H' (EInv t o)); [apply in_or_app; right; left; auto|reflexivity]|]. apply IHlrun. intros e J. apply H'. apply in_or_app; auto.
  - destruct (Nat.eqb_spec k t) as [->|N]; [|apply IHlrun; intros e J; apply H'; apply in_or_app; auto]. rewrite IHlrun in H0; [discriminate|]. intros e J. apply H'. apply in_or_app; auto.
  - destruct (Nat.eqb_spec k t) as [->|N]; [reflexivity|]. apply IHlrun. intros e J. apply H'. apply in_or_app; auto.
Qed.
Lemma conserve n A st q : lrun A st q -> noclear (erase A) -> (forall e, In e (erase A) -> tid e < n) -> Permutation (pushed (erase A)) (popped (erase A) ++ q ++ inflight n st).
Proof.
  induction 1; intros NC TN.
  - cbn. replace (inflight n (fun _ => SIdle)) with (@nil V); [constructor|]. unfold inflight. induction (seq 0 n); cbn; auto.
  - assert (Ht : t < n) by (apply (TN (EInv t o)); rewrite erase_app; apply in_or_app; right; left; reflexivity).
    specialize (IHlrun (noclear_app _ _ NC) ltac:(intros; apply TN; rewrite erase_app; apply in_or_app; auto)).
    destruct (inflight_set n st t (SCalled o) Ht) as (R & P1 & P2). rewrite P2. rewrite H0 in P1. cbn [held app] in P1.
    unfold pushed, popped in *. rewrite erase_app, !flat_map_app. cbn [erase flat_map]. rewrite !app_nil_r, IHlrun, P1. destruct o; cbn [held app]; rewrite ?app_nil_r; auto.
    rewrite <- !app_assoc. apply Permutation_app_head, Permutation_app_head. apply Permutation_app_comm.
  - assert (Ht : t < n) by (apply (TN (EInv t o)); rewrite erase_app; apply in_or_app; left; eapply called_in; eauto).
    rewrite erase_app in *. cbn [erase] in *. rewrite app_nil_r in *. specialize (IHlrun NC TN).
    destruct (inflight_set n st t (SDid r) Ht) as (R & P1 & P2). rewrite P2. rewrite H0 in P1. rewrite P1 in IHlrun.
    pose proof (called_in _ _ _ H t o H0) as J. destruct (NC t) as [X Y].
    inversion H1; subst; cbn [held app] in *; try contradiction; auto.
    + rewrite IHlrun. rewrite <- !app_assoc. reflexivity.
    + rewrite IHlrun. apply Permutation_app_head. apply Permutation_middle.
  - assert (Ht : t < n) by (apply (TN (ERet t r)); rewrite erase_app; apply in_or_app; right; left; reflexivity).
    specialize (IHlrun (noclear_app _ _ NC) ltac:(intros; apply TN; rewrite erase_app; apply in_or_app; auto)).
    destruct (inflight_set n st t SIdle Ht) as (R & P1 & P2). rewrite P2. rewrite H0 in P1.
    unfold pushed, popped in *. rewrite erase_app, !flat_map_app. cbn [erase flat_map]. rewrite !app_nil_r, IHlrun, P1. destruct r as [|[v|]|b|z]; cbn [held app]; rewrite ?app_nil_r; auto.
    rewrite <- !app_assoc. apply Permutation_app_head. cbn. symmetry. apply Permutation_middle.
Qed.
Lemma exec_tid sched : forall s H s', q_exec sched s = Ok (H, s') -> forall e, In e H -> tid e < length (q_pcs s).
Proof.
  induction sched as [|[t o] sched IH]; intros s H s' X e J; cbn [q_exec] in X.
  - inversion X; subst. destruct J.
  - destruct (q_step t o s) as [| |s1 e1] eqn:S; [eapply IH; eauto|discriminate|].
    destruct (q_exec sched s1) as [[H1 s2]|?|?|?|?|] eqn:X1; try discriminate. cbn [bind] in X. inversion X; subst H s2; clear X.
    assert (K : t < length (q_pcs s) /\ length (q_pcs s1) = length (q_pcs s) /\ forall x, e1 = Some x -> tid x = t).
    { clear - S. unfold q_step in S. destruct (nth_error (q_pcs s) t) as [p|] eqn:En; [|discriminate]. split; [apply nth_error_Some; congruence|].
      unfold tau, ret, lock_head, lock_tail, goto, q_free in S.
      destruct p; repeat match type of S with context[match ?x with _ => _ end] => destruct x end; try discriminate; inversion S; subst; cbn; rewrite upd_len; split; auto; intros x Ex; inversion Ex; reflexivity. }
    destruct K as (K1 & K2 & K3). rewrite <- K2. destruct e1 as [x|].
    + destruct J as [<-|J]; [rewrite (K3 x eq_refl), K2; exact K1|]. eapply IH; eauto.
    + eapply IH; eauto.
Qed.
End Q.
