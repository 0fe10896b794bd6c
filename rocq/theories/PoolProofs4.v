(** Every step of the pool preserves the invariant: workers outside the queue, whole executions. *)
From Coq Require Import List ZArith Bool Lia Arith.
From Verif Require Import Base QueueSpec QueueModel QueueProofs QueueProofs2 QueueProofs3 QueueProofs4 PoolSpec PoolModel PoolProofs PoolProofs2 PoolProofs3.
Import ListNotations.

Section P.
Context {M : Type} (m0 : M).
Implicit Types (s : pst M) (H : list (pev M)).

Lemma worker_frame s q L H T w p T' ev s' : pinv m0 s q L H T ->
  s' = mkP (p_q s) (p_run s) (p_nthr s) (p_fut s) (p_bodies s) (p_done s') (p_main s) (upd w (fun _ => p) (p_w s)) (p_mem s') ->
  w < length (p_w s) -> wk s w <> WOff -> wk s w <> WPop \/ p = WPop -> p <> WOff -> (p_run s = true -> p <> WOver) ->
  (forall k, T' k = LNone <-> T k = LNone) -> (forall k, T' k = LMain <-> T k = LMain) -> (forall k, T' k = LFin <-> In k (p_done s')) ->
  (forall k, T k = LFin -> T' k = LFin) ->
  (forall k, T' k = LQueue <-> T k = LQueue) -> (forall k v, T' k = LHeld v <-> T k = LHeld v) ->
  (forall k j, T' k = LRun w j <-> p = WRun k j) -> (forall k v j, v <> w -> (T' k = LRun v j <-> T k = LRun v j)) ->
  (forall k j, T' k = LRun w j -> j <= length (body_of s k)) ->
  (forall k, past k (body_of s k) (T' k) = past k (body_of s k) (T k) ++ filter (about k) ev) ->
  added ev = [] -> p_mem s' = replay (p_bodies s) ev (p_mem s) ->
  exists q' L' T', pinv m0 s' q' L' (H ++ ev) T'.
Proof.
  intros I ES WL AON PP PN PO T1 T2 T3 T3' T4 T5 T7 T8 TJ HV AV RV. exists q, L, T'.
  assert (WS : forall k, wk s' k = if Nat.eqb k w then p else wk s k).
  { intros k. rewrite ES. unfold wk. cbn [p_w]. rewrite upd_nth. destruct (Nat.ltb_spec w (length (p_w s))); [reflexivity|lia]. }
  assert (ST : forall t, st s' t = st s t) by (intros t; rewrite ES; reflexivity).
  assert (BO : forall k, body_of s' k = body_of s k) by (intros k; rewrite ES; reflexivity).
  assert (EB : p_bodies s' = p_bodies s) by (rewrite ES; reflexivity). assert (EMn : p_main s' = p_main s) by (rewrite ES; reflexivity).
  assert (EN : p_nthr s' = p_nthr s) by (rewrite ES; reflexivity). assert (ER : p_run s' = p_run s) by (rewrite ES; reflexivity).
  assert (EF : p_fut s' = p_fut s) by (rewrite ES; reflexivity). assert (EQ : p_q s' = p_q s) by (rewrite ES; reflexivity).
  assert (EL : length (p_w s') = length (p_w s)) by (rewrite ES; cbn; apply upd_len). clear ES.
  split.
  - rewrite EQ. apply I.
  - rewrite EQ, EL. apply I.
  - rewrite ST, EMn. apply I.
  - intros k. rewrite WS, ST. pose proof (v_work _ _ _ _ _ _ I k) as V. destruct (Nat.eqb_spec k w) as [->|N]; [|exact V].
    destruct PP as [PP| ->]; [|destruct (wk s w); auto]. assert (st s (S w) = SIdle) as -> by (destruct (wk s w); congruence). destruct p; auto.
  - intros k. rewrite T1, EB. apply I.
  - intros k. rewrite T2, ST, EMn. apply I.
  - apply I.
  - intros k. rewrite T4. apply I.
  - intros k v. rewrite ST, T5. apply I.
  - intros k v j. rewrite WS. destruct (Nat.eqb_spec v w) as [->|N]; [apply T7|]. rewrite (T8 k v j N). apply I.
  - intros k v j X. rewrite BO. destruct (Nat.eq_dec v w) as [->|N]; [apply TJ; exact X|]. apply (T8 k v j N) in X. revert X. apply I.
  - exact T3.
  - intros k. rewrite filter_app', (v_hist _ _ _ _ _ _ I k), BO. symmetry. apply HV.
  - rewrite added_app, AV, app_nil_r, EB. apply I.
  - rewrite replay_app, RV, EB. f_equal. apply I.
  - rewrite EL, EN. apply I.
  - intros k. rewrite WS, EN. destruct (Nat.eqb_spec k w) as [->|N]; [intros _; apply (v_off _ _ _ _ _ _ I); exact AON|apply I].
  - intros k. rewrite EN. intros X. rewrite WS, EMn. pose proof (v_on _ _ _ _ _ _ I k X) as Y. destruct (Nat.eqb_spec k w) as [->|N]; [|exact Y].
    destruct (p_main s); auto. split; [intros _; exact PN|intros _; apply Y; exact AON].
  - rewrite EMn, EN, ER. apply I.
  - rewrite ER. intros X k. rewrite WS. destruct (Nat.eqb_spec k w) as [->|N]; [apply PO; exact X|apply (v_alive _ _ _ _ _ _ I X)].
  - rewrite EF, EB, EMn. apply I.
  - destruct (v_wait _ _ _ _ _ _ I) as [Y Z]. rewrite EF, EB, EMn. split.
    + intros k J. apply more. destruct (Y k J) as [?|[?|?]]; auto.
    + destruct (p_main s); auto. intros k J. apply more. destruct (Z k J) as [?|[?|?]]; auto.
  - destruct (v_fifo _ _ _ _ _ _ I) as (k & F1 & F2 & F3 & F4). exists k. rewrite EB. split; [exact F1|]. split; [exact F2|]. split; intros i X; [apply F3, T2, X|]. rewrite T1, T2. apply F4, X.
  - rewrite EQ. apply I.
Qed.

Lemma work_ok s q L H T w : pinv m0 s q L H T -> pgoal m0 H (work_step w s).
Proof.
  intros I. unfold work_step. destruct (nth_error (p_w s) w) as [[| | |id j|]|] eqn:EW; try exact Logic.I.
  all: assert (WL : w < length (p_w s)) by (apply nth_error_Some; congruence).
  all: match type of EW with _ = Some ?x => assert (WW : wk s w = x) by (unfold wk; eapply nth_error_nth; exact EW) end.
  - cbn [pgoal]. assert (NR : forall k j, T k <> LRun w j) by (intros k j X; apply (v_run _ _ _ _ _ _ I) in X; congruence).
    apply (worker_frame s q L H T w (if p_run s then WPop else WOver) T []); auto; try tauto; try congruence.
    + left; congruence.
    + destruct (p_run s); discriminate.
    + intros ->. discriminate.
    + intros k. apply I.
    + intros k j. split; [intros X; destruct (NR k j X)|destruct (p_run s); discriminate].
    + intros k j X. destruct (NR k j X).
    + intros k. symmetry. apply app_nil_r.
  - eapply pop_step; eauto.
  - assert (TI : T id = LRun w j) by (apply (v_run _ _ _ _ _ _ I); exact WW). pose proof (v_j _ _ _ _ _ _ I id w j TI) as JL.
    assert (IB : id < length (p_bodies s)) by (destruct (Nat.lt_ge_cases id (length (p_bodies s))) as [|X]; auto; apply (v_none _ _ _ _ _ _ I) in X; congruence).
    assert (NR : forall k i, k <> id -> T k <> LRun w i) by (intros k i N X; apply (v_run _ _ _ _ _ _ I) in X; congruence).
    destruct (nth_error (p_bodies s) id) as [b|] eqn:EB; [|exfalso; apply nth_error_None in EB; lia].
    assert (BB : body_of s id = b) by (unfold body_of; eapply nth_error_nth; exact EB). rewrite BB in JL.
    destruct (nth_error b j) as [a|] eqn:Ea; cbn [pgoal].
    + assert (JB : j < length b) by (apply nth_error_Some; congruence).
      assert (OTH : forall k p, (forall i, p <> LRun w i) -> (tset T id (LRun w (S j)) k = p <-> T k = p)).
      { intros k p N1. destruct (Nat.eq_dec k id) as [->|N]; [rewrite tset_same, TI; split; intros X; subst p; destruct (N1 _ eq_refl)|rewrite tset_other by exact N; tauto]. }
      apply (worker_frame s q L H T w (WRun id (S j)) (tset T id (LRun w (S j))) [EAct id j]); auto; try discriminate; try (intros; apply OTH; congruence).
      * congruence.
      * left; congruence.
      * intros k. rewrite OTH by discriminate. apply I.
      * intros k i. destruct (Nat.eq_dec k id) as [->|N]; [rewrite tset_same; split; intros X; inversion X; reflexivity|]. rewrite tset_other by exact N. split; [intros X; destruct (NR k i N X)|congruence].
      * intros k i. destruct (Nat.eq_dec k id) as [->|N]; [rewrite tset_same; intros X; inversion X; subst; lia|]. rewrite tset_other by exact N. intros X. destruct (NR k i N X).
      * intros k. cbn [filter about]. rewrite (Nat.eqb_sym id k). destruct (Nat.eq_dec k id) as [->|N].
        -- rewrite Nat.eqb_refl, tset_same, TI. cbn [past]. rewrite seq_S, map_app. reflexivity.
        -- rewrite (proj2 (Nat.eqb_neq k id) N), tset_other, app_nil_r by exact N. reflexivity.
      * unfold replay. cbn [set_mem p_mem fold_left act]. rewrite EB, Ea. reflexivity.
    + apply nth_error_None in Ea. assert (j = length b) by lia. subst j.
      assert (OTH : forall k p, p <> LFin -> (forall i, p <> LRun w i) -> (tset T id LFin k = p <-> T k = p)).
      { intros k p N0 N1. destruct (Nat.eq_dec k id) as [->|N]; [rewrite tset_same, TI; split; intros X; [congruence|subst p; destruct (N1 _ eq_refl)]|rewrite tset_other by exact N; tauto]. }
      apply (worker_frame s q L H T w WCheck (tset T id LFin) [EFin id]); auto; try discriminate; try (intros; apply OTH; congruence).
      * congruence.
      * left; congruence.
      * intros k. cbn [add_done p_done set_w In]. destruct (Nat.eq_dec k id) as [->|N]; [rewrite tset_same; tauto|]. rewrite tset_other by exact N. rewrite (v_fin _ _ _ _ _ _ I). split; [auto|]. intros [X|X]; congruence.
      * intros k X. destruct (Nat.eq_dec k id) as [->|N]; [rewrite tset_same; reflexivity|]. rewrite tset_other by exact N. exact X.
      * intros k i. destruct (Nat.eq_dec k id) as [->|N]; [rewrite tset_same; split; discriminate|]. rewrite tset_other by exact N. split; [intros X; destruct (NR k i N X)|discriminate].
      * intros k i. destruct (Nat.eq_dec k id) as [->|N]; [rewrite tset_same; discriminate|]. rewrite tset_other by exact N. intros X. destruct (NR k i N X).
      * intros k. cbn [filter about]. rewrite (Nat.eqb_sym id k). destruct (Nat.eq_dec k id) as [->|N].
        -- rewrite Nat.eqb_refl, tset_same, TI, BB. cbn [past]. reflexivity.
        -- rewrite (proj2 (Nat.eqb_neq k id) N), tset_other, app_nil_r by exact N. reflexivity.
Qed.
Lemma main_ok debug o tmo s q L H T : pinv m0 s q L H T -> pgoal m0 H (main_step debug o tmo s).
Proof.
  intros I. destruct (p_main s) as [|id| |l|k i|i d|] eqn:EM.
  - destruct o as [b| |k| | |]; try (eapply main_quiet; [exact I|rewrite EM; exact Logic.I|intros b _; discriminate]).
    unfold main_step. rewrite EM. cbn [pgoal]. eapply add_ok; eauto.
  - unfold main_step. rewrite EM. eapply push_step; eauto.
  - unfold main_step. rewrite EM. eapply num_step; eauto.
  - eapply main_quiet; [exact I|rewrite EM; exact Logic.I|intros b X; congruence].
  - eapply main_quiet; [exact I|rewrite EM; exact Logic.I|intros b X; congruence].
  - eapply main_quiet; [exact I|rewrite EM; exact Logic.I|intros b X; congruence].
  - eapply main_quiet; [exact I|rewrite EM; exact Logic.I|intros b X; congruence].
Qed.
Lemma step_pinv debug x s q L H T : pinv m0 s q L H T -> pgoal m0 H (p_step debug x s).
Proof. intros I. destruct x; [eapply main_ok|eapply work_ok]; eauto. Qed.
Lemma exec_pinv debug sched : forall s q L H T, pinv m0 s q L H T ->
  match p_exec debug sched s with Ok (e, s') => exists q' L' T', pinv m0 s' q' L' (H ++ e) T' | Abort => True | _ => False end.
Proof.
  induction sched as [|x r IH]; intros s q L H T I; cbn [p_exec].
  - exists q, L, T. rewrite app_nil_r. exact I.
  - pose proof (step_pinv debug x s q L H T I) as G. destruct (p_step debug x s) as [| | |s' e]; cbn [pgoal] in G.
    + apply (IH _ _ _ _ _ I).
    + destruct G.
    + exact Logic.I.
    + destruct G as (q' & L' & T' & I'). specialize (IH _ _ _ _ _ I'). destruct (p_exec debug r s') as [[e' s'']| | | | |]; cbn; auto.
      destruct IH as (q2 & L2 & T2 & I2). exists q2, L2, T2. rewrite app_assoc. exact I2.
Qed.
Lemma exec_app debug r1 r2 s H1 s1 : p_exec debug r1 s = Ok (H1, s1) -> p_exec debug (r1 ++ r2) s = match p_exec debug r2 s1 with Ok (H2, s2) => Ok (H1 ++ H2, s2) | Abort => Abort | UB => UB | Throw => Throw | Deadlock => Deadlock | Fuel => Fuel end.
Proof.
  revert s H1. induction r1 as [|x r IH]; intros s H1 E; cbn [p_exec app] in *.
  - inversion E; subst. destruct (p_exec debug r2 s1) as [[? ?]| | | | |]; reflexivity.
  - destruct (p_step debug x s) as [| | |s' e]; try discriminate.
    + apply IH. exact E.
    + destruct (p_exec debug r s') as [[H' s'']| | | | |] eqn:E'; cbn in E; try discriminate. inversion E; subst. rewrite (IH _ _ E'). destruct (p_exec debug r2 s1) as [[? ?]| | | | |]; cbn; rewrite ?app_assoc; reflexivity.
Qed.
End P.
