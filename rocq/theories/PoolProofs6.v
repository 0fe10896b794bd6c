(** The pool never gets stuck: whatever call is in progress can still return. *)
From Coq Require Import List ZArith Bool Lia Arith.
From Verif Require Import Base QueueSpec QueueModel QueueProofs QueueProofs2 QueueProofs3 QueueProofs4 PoolSpec PoolModel PoolProofs PoolProofs2 PoolProofs3 PoolProofs4 PoolProofs5.
Import ListNotations.

Section Q.
Context {V : Type}.
Lemma stat_idle (p : pc V) : stat p = SIdle -> p = Idle.
Proof. destruct p; cbn; try discriminate; auto; repeat match goal with c : option bool |- _ => destruct c end; try discriminate. destruct (eqo h t); discriminate. Qed.
Lemma same_op (s : qst V) t o o' : at_ (q_pcs s) t <> Idle -> q_step t o s = q_step t o' s.
Proof.
  intros N. unfold q_step. destruct (nth_error (q_pcs s) t) as [p|] eqn:E; [|reflexivity]. apply nth_error_nth with (d := Idle) in E. unfold at_ in N. rewrite E in N. destruct p; try reflexivity. congruence.
Qed.
(** thread [t] alone from its present point until its call returns [r] *)
Inductive runs (t : nat) (o : qop V) : qst V -> qret V -> qst V -> Prop :=
| r_ret s r s' : q_step t o s = QStep s' (Some (ERet t r)) -> runs t o s r s'
| r_step s s1 r s' : q_step t o s = QStep s1 None -> runs t o s1 r s' -> runs t o s r s'.
Lemma solo : forall d (s : qst V) q L t o, dist (at_ (q_pcs s) t) <= d -> inv s q L -> (forall k, k <> t -> at_ (q_pcs s) k = Idle) -> at_ (q_pcs s) t <> Idle -> nc (at_ (q_pcs s) t) = true ->
  exists r s' q' L', runs t o s r s' /\ inv s' q' L' /\ (forall k, at_ (q_pcs s') k = Idle) /\ length (q_pcs s') = length (q_pcs s) /\
    ((stat (at_ (q_pcs s) t) = SDid r /\ q' = q) \/ exists op, stat (at_ (q_pcs s) t) = SCalled op /\ seq_q op q r q').
Proof.
  induction d as [|d IH]; intros s q L t o D I OI NI NC.
  all: assert (W : q_tm s = Some t \/ (q_tm s = None /\ (q_hm s = Some t \/ q_hm s = None))).
  1, 3: (destruct (q_tm s) as [k|] eqn:Et; [left; apply (i_tm _ _ _ I) in Et; destruct (Nat.eq_dec k t) as [->|N]; [reflexivity|rewrite OI in Et by exact N; discriminate]|right; split; [reflexivity|]];
         destruct (q_hm s) as [k|] eqn:Eh; [left; apply (i_hm _ _ _ I) in Eh; destruct (Nat.eq_dec k t) as [->|N]; [reflexivity|rewrite OI in Eh by exact N; discriminate]|auto]).
  all: destruct (enabled s q L t o I NI W NC) as (s1 & e & S); destruct (step_shape s q L t o s1 e I NI NC S) as (A & B & C & E & F).
  1: lia.
  pose proof (q_step_ok s q L t o I) as G. rewrite S in G. destruct G as (q1 & L1 & I1 & LM & O & LEN).
  assert (OI1 : forall k, k <> t -> at_ (q_pcs s1) k = Idle) by (intros k N; rewrite O by exact N; apply OI; exact N).
  apply lmove_cases in LM. destruct LM as [(E2 & -> & ->)|[(oo & E1 & E2 & -> & ->)|[(oo & r & E1 & E2 & SE & ->)|[(r & E1 & E2 & -> & ->)|(oo & r & E1 & E2 & SE & ->)]]]].
  - destruct (IH s1 q L1 t o) as (r & s' & q' & L' & R & I' & AI & LE & Q); auto; [lia|intros X; apply NI; apply stat_idle; rewrite <- E2, X; reflexivity|].
    exists r, s', q', L'. split; [eapply r_step; eauto|]. split; [exact I'|]. split; [exact AI|]. split; [congruence|]. rewrite <- E2. exact Q.
  - exfalso. apply NI, stat_idle, E1.
  - destruct (IH s1 q1 L1 t o) as (r' & s' & q' & L' & R & I' & AI & LE & Q); auto; [lia|intros X; rewrite X in E2; discriminate|].
    exists r', s', q', L'. split; [eapply r_step; eauto|]. split; [exact I'|]. split; [exact AI|]. split; [congruence|]. right. exists oo. split; [exact E1|]. destruct Q as [[Q1 ->]|(op & Q1 & _)]; [|congruence]. rewrite E2 in Q1. inversion Q1; subst. exact SE.
  - exists r, s1, q, L1. split; [apply r_ret; exact S|]. split; [exact I1|]. split; [|split; [exact LEN|left; auto]]. intros k. destruct (Nat.eq_dec k t) as [->|N]; [apply stat_idle; exact E2|auto].
  - exists r, s1, q1, L1. split; [apply r_ret; exact S|]. split; [exact I1|]. split; [|split; [exact LEN|right; eauto]]. intros k. destruct (Nat.eq_dec k t) as [->|N]; [apply stat_idle; exact E2|auto].
Qed.
(** the first step of a call on an idle queue, then the rest *)
Lemma whole_call (s : qst V) q L t o : t < length (q_pcs s) -> inv s q L -> (forall k, at_ (q_pcs s) k = Idle) -> nclear o = true ->
  exists s0 r s' q' L', q_step t o s = QStep s0 (Some (EInv t o)) /\ runs t o s0 r s' /\ inv s' q' L' /\ (forall k, at_ (q_pcs s') k = Idle) /\ length (q_pcs s') = length (q_pcs s) /\ seq_q o q r q'.
Proof.
  intros Ht I AI NO. assert (S : q_step t o s = QStep (goto s t (start_pc o)) (Some (EInv t o))).
  { unfold q_step. destruct (nth_error (q_pcs s) t) as [p|] eqn:En; [|apply nth_error_None in En; lia]. apply nth_error_nth with (d := Idle) in En. pose proof (AI t) as X. unfold at_ in X. rewrite X in En. subst p. reflexivity. }
  pose proof (q_step_ok s q L t o I) as G. rewrite S in G. destruct G as (q1 & L1 & I1 & LM & O & LEN).
  assert (A0 : at_ (q_pcs (goto s t (start_pc o))) t = start_pc o) by (cbn [goto q_pcs]; apply at_same; exact Ht).
  assert (Q1 : q1 = q) by (inversion LM; auto). subst q1.
  destruct (solo (dist (at_ (q_pcs (goto s t (start_pc o))) t)) (goto s t (start_pc o)) q L1 t o) as (r & s' & q' & L' & R & I' & AI' & LE & Q).
  - lia.
  - exact I1.
  - intros k N. rewrite O by exact N. apply AI.
  - rewrite A0. destruct o; discriminate.
  - rewrite A0. destruct o; cbn in NO; try discriminate; reflexivity.
  - exists (goto s t (start_pc o)), r, s', q', L'. split; [exact S|]. split; [exact R|]. split; [exact I'|]. split; [exact AI'|]. split; [congruence|]. rewrite A0 in Q. destruct Q as [[Q _]|(op & Q & SE)]; [destruct o; discriminate|].
    assert (op = o) by (destruct o; cbn in *; try discriminate; congruence). subst op. exact SE.
Qed.
(** an empty queue is empty *)
Lemma empty_unique (s : qst V) L q2 L2 : inv s [] L -> (forall k, at_ (q_pcs s) k = Idle) -> inv s q2 L2 -> q2 = [].
Proof.
  intros I AI J. pose proof (i_head _ _ _ I) as A. pose proof (i_head _ _ _ J) as B. assert (O : opc (q_pcs s) (q_hm s) = Idle) by (unfold opc; destruct (q_hm s); auto). rewrite O in A, B. cbn [hpart] in A, B.
  destruct A as (a & A1 & A2). destruct B as (b & B1 & B2). assert (a = b) by congruence. subst b. destruct L as [|? ?]; cbn in A2; [|contradiction]. subst a.
  destruct q2 as [|v q2]; [reflexivity|]. exfalso. destruct L2 as [|x L2]; cbn in B2; [contradiction|]. destruct B2 as [-> _]. apply (i_last _ _ _ J). left. reflexivity.
Qed.
End Q.
