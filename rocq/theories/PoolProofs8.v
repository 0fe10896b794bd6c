(** More events of the pool: NumTasks, Wait without threads. *)
From Coq Require Import List ZArith Bool Lia Arith.
From Verif Require Import Base QueueSpec QueueModel QueueProofs QueueProofs2 QueueProofs3 QueueProofs4 PoolSpec PoolModel PoolProofs PoolProofs2 PoolProofs3 PoolProofs4 PoolProofs5 PoolProofs6 PoolProofs7.
Import ListNotations.

Section P.
Context {M : Type}.
Implicit Types (H : list (pev M)) (s : pst M).
Ltac nope S e1 := exfalso; inversion S as [[E0 E]]; destruct e1 as [|? [|? [|? ?]]]; discriminate.
Lemma num_event debug x s s' e1 e2 z : p_step debug x s = PStep s' (e1 ++ ENum z :: e2) -> p_main s = MNum /\ e1 = [] /\ exists qs t, q_step 0 QSize (p_q s) = QStep qs (Some (ERet t (RSize z))).
Proof.
  intros S. destruct x as [o tmo|w]; cbn [p_step] in S.
  - unfold main_step in S. destruct (p_main s) as [|i| |l|k i|i d|].
    + destruct o as [b| |k| | |]; repeat match type of S with context[match ?x with _ => _ end] => destruct x end; try discriminate; nope S e1.
    + destruct (q_step 0 (QPush i) (p_q s)) as [| |qs [[t oo|t r]|]]; try discriminate; nope S e1.
    + destruct (q_step 0 QSize (p_q s)) as [| |qs [[t oo|t []]|]]; try discriminate; try (nope S e1). inversion S as [[E0 E]]. destruct e1 as [|? [|? ?]]; inversion E; subst. eauto.
    + destruct l as [|f r]; [nope S e1|]. destruct (isdone s f); [|destruct tmo; [|discriminate]]; nope S e1.
    + destruct (Nat.ltb i k); [destruct (Nat.ltb i (length (p_w s)))|]; nope S e1.
    + destruct (Nat.ltb i (p_nthr s)); [destruct (nth_error (p_w s) i) as [[]|]|destruct d]; try discriminate; nope S e1.
    + discriminate.
  - unfold work_step in S. destruct (nth_error (p_w s) w) as [[| | |i j|]|]; try discriminate.
    + nope S e1.
    + destruct (q_step (Datatypes.S w) QPop (p_q s)) as [| |qs [[t oo|t [| [i|] | |]]|]]; try discriminate; nope S e1.
    + destruct (nth_error (p_bodies s) i) as [b|]; [|discriminate]. destruct (nth_error b j); nope S e1.
Qed.
Lemma gone_event debug x s s' e1 e2 : p_step debug x s = PStep s' (e1 ++ EGone :: e2) -> p_main s' = MGone /\ e2 = [].
Proof.
  intros S. destruct x as [o tmo|w]; cbn [p_step] in S.
  - unfold main_step in S. destruct (p_main s) as [|i| |l|k i|i d|].
    + destruct o as [b| |k| | |]; repeat match type of S with context[match ?x with _ => _ end] => destruct x end; try discriminate; try (nope S e1).
      inversion S as [[E0 E]]. destruct e1 as [|? [|? [|? ?]]]; inversion E; subst. auto.
    + destruct (q_step 0 (QPush i) (p_q s)) as [| |qs [[t oo|t r]|]]; try discriminate; nope S e1.
    + destruct (q_step 0 QSize (p_q s)) as [| |qs [[t oo|t []]|]]; try discriminate; nope S e1.
    + destruct l as [|f r]; [nope S e1|]. destruct (isdone s f); [|destruct tmo; [|discriminate]]; nope S e1.
    + destruct (Nat.ltb i k); [destruct (Nat.ltb i (length (p_w s)))|]; nope S e1.
    + destruct (Nat.ltb i (p_nthr s)); [destruct (nth_error (p_w s) i) as [[]|]|destruct d]; try discriminate; try (nope S e1).
      inversion S as [[E0 E]]. destruct e1 as [|? [|? ?]]; inversion E; subst. auto.
    + discriminate.
  - unfold work_step in S. destruct (nth_error (p_w s) w) as [[| | |i j|]|]; try discriminate.
    + nope S e1.
    + destruct (q_step (Datatypes.S w) QPop (p_q s)) as [| |qs [[t oo|t [| [i|] | |]]|]]; try discriminate; nope S e1.
    + destruct (nth_error (p_bodies s) i) as [b|]; [|discriminate]. destruct (nth_error b j); nope S e1.
Qed.
Lemma gone_stuck debug : forall sched s, p_main s = MGone -> (forall w, nth_error (p_w s) w = None \/ nth_error (p_w s) w = Some WOff) -> p_exec debug sched s = Ok ([], s).
Proof.
  induction sched as [|x r IH]; intros s G W; cbn [p_exec]; [reflexivity|].
  assert (E : p_step debug x s = PBlock) by (destruct x as [o tmo|w]; cbn [p_step]; [unfold main_step; rewrite G; reflexivity|unfold work_step; destruct (W w) as [-> | ->]; reflexivity]).
  rewrite E. apply IH; assumption.
Qed.
Lemma wait_event debug x s s' e1 e2 : p_step debug x s = PStep s' (e1 ++ EWait :: e2) -> p_main s = MIdle /\ e1 = [] /\ e2 = [] /\ s' = set_main s (MWait (p_fut s)).
Proof.
  intros S. destruct x as [o tmo|w]; cbn [p_step] in S.
  - unfold main_step in S. destruct (p_main s) as [|i| |l|k i|i d|].
    + destruct o as [b| |k| | |]; try (repeat match type of S with context[match ?x with _ => _ end] => destruct x end; try discriminate; nope S e1).
      inversion S as [[E0 E]]. destruct e1 as [|? [|? ?]]; inversion E; subst. auto.
    + destruct (q_step 0 (QPush i) (p_q s)) as [| |qs [[t oo|t r]|]]; try discriminate; nope S e1.
    + destruct (q_step 0 QSize (p_q s)) as [| |qs [[t oo|t []]|]]; try discriminate; try (nope S e1).
    + destruct l as [|f r]; [nope S e1|]. destruct (isdone s f); [|destruct tmo; [|discriminate]]; nope S e1.
    + destruct (Nat.ltb i k); [destruct (Nat.ltb i (length (p_w s)))|]; nope S e1.
    + destruct (Nat.ltb i (p_nthr s)); [destruct (nth_error (p_w s) i) as [[]|]|destruct d]; try discriminate; nope S e1.
    + discriminate.
  - unfold work_step in S. destruct (nth_error (p_w s) w) as [[| | |i j|]|]; try discriminate.
    + nope S e1.
    + destruct (q_step (Datatypes.S w) QPop (p_q s)) as [| |qs [[t oo|t [| [i|] | |]]|]]; try discriminate; nope S e1.
    + destruct (nth_error (p_bodies s) i) as [b|]; [|discriminate]. destruct (nth_error b j); nope S e1.
Qed.
Lemma size_value (qs qs' : qst nat) q L t z : inv qs q L -> (forall k, k <> 0 -> at_ (q_pcs qs) k = Idle) -> q_step 0 QSize qs = QStep qs' (Some (ERet t (RSize z))) -> z = (Z.of_nat (length q) mod 2 ^ 64)%Z.
Proof.
  intros I OI S. assert (X : at_ (q_pcs qs) 0 = SzRead /\ z = q_size qs).
  { unfold q_step in S. destruct (nth_error (q_pcs qs) 0) as [p|] eqn:En; [|discriminate]. apply nth_error_nth with (d := Idle) in En. fold (at_ (q_pcs qs) 0) in En. rewrite En. unfold tau, ret, lock_head, lock_tail, goto, q_free in S.
    destruct p; repeat match type of S with context[match ?x with _ => _ end] => destruct x end; try discriminate; inversion S; auto. }
  destruct X as [X ->]. rewrite (i_size _ _ _ I). change (2 ^ 64)%Z with size_max. f_equal. assert (Z : adjs (q_pcs qs) = 0%Z); [|rewrite Z; lia].
  assert (AZ : forall k, adj (at_ (q_pcs qs) k) = 0%Z) by (intros k; destruct (Nat.eq_dec k 0) as [->|N]; [rewrite X; reflexivity|rewrite OI by exact N; reflexivity]).
  clear - AZ. unfold at_ in AZ. induction (q_pcs qs) as [|p l IH]; [reflexivity|]. change (adjs (p :: l)) with (adj p + adjs l)%Z. rewrite IH by (intros k; apply (AZ (S k))). pose proof (AZ 0) as E. cbn in E. rewrite E. reflexivity.
Qed.
(** Wait without threads *)
Lemma stuck_wait debug sched : forall s l H H1 H2 s', p_main s = MWait l -> (forall w, wk s w = WOff) -> p_exec debug sched s = Ok (H, s') -> H = H1 ++ EWaited :: H2 -> ~ In EWaited H1 -> forall e, In e H1 -> exists i, e = ETimeout i.
Proof.
  induction sched as [|x r IH]; intros s l H H1 H2 s' EM OFF X EH NW e J; cbn [p_exec] in X.
  - inversion X; subst. destruct H1; discriminate.
  - destruct x as [o tmo|w]; cbn [p_step] in X.
    + unfold main_step in X. rewrite EM in X. destruct l as [|f l].
      * destruct (p_exec debug r (set_main (set_fut s []) MIdle)) as [[H3 s3]| | | | |]; cbn in X; try discriminate. injection X as X1 X2. rewrite <- X1 in EH. destruct H1 as [|y H1]; [destruct J|]. cbn in EH. inversion EH; subst. exfalso. apply NW. left. reflexivity.
      * destruct (isdone s f); [|destruct tmo].
        -- destruct (p_exec debug r (set_main s (MWait l))) as [[H3 s3]| | | | |] eqn:XX; cbn in X; try discriminate. injection X as X1 X2. subst H3. apply (IH (set_main s (MWait l)) l H H1 H2 s3); [reflexivity|exact OFF|exact XX|exact EH|exact NW|exact J].
        -- destruct (p_exec debug r (set_main s (MWait l))) as [[H3 s3]| | | | |] eqn:XX; cbn in X; try discriminate. injection X as X1 X2. rewrite <- X1 in EH. destruct H1 as [|y H1]; [destruct J|]. cbn in EH. inversion EH; subst y.
           destruct J as [<-|J]; [eauto|]. apply (IH (set_main s (MWait l)) l H3 H1 H2 s3); [reflexivity|exact OFF|exact XX|assumption| |exact J]. intros Y. apply NW. right. exact Y.
        -- eapply (IH s (f :: l)); eauto.
    + assert (NB : work_step w s = PBlock). { unfold work_step. pose proof (OFF w) as Y. unfold wk in Y. destruct (nth_error (p_w s) w) as [p|] eqn:N; [|reflexivity]. apply nth_error_nth with (d := WOff) in N. rewrite N in Y. subst p. reflexivity. }
      rewrite NB in X. eapply (IH s l); eauto.
Qed.
Lemma timeout_dec id H : In (ETimeout id) H \/ ~ In (ETimeout id) H.
Proof.
  destruct (existsb (fun e => match e with ETimeout i => Nat.eqb i id | _ => false end) H) eqn:E.
  - left. apply existsb_exists in E. destruct E as (e & J & E). destruct e; try discriminate. apply Nat.eqb_eq in E. subst. exact J.
  - right. intros J. rewrite <- not_true_iff_false in E. apply E, existsb_exists. exists (ETimeout id). split; [exact J|apply Nat.eqb_refl].
Qed.
End P.
