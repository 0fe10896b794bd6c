(** Every step of the pool preserves the invariant. *)
From Coq Require Import List ZArith Bool Lia Arith.
From Verif Require Import Base QueueSpec QueueModel QueueProofs QueueProofs2 QueueProofs3 QueueProofs4 PoolSpec PoolModel PoolProofs.
Import ListNotations.

Section P.
Context {M : Type} (m0 : M).
Implicit Types (s : pst M) (H : list (pev M)).
Definition pgoal H (r : pres M) : Prop := match r with PBad => False | PStep s' e => exists q' L' T', pinv m0 s' q' L' (H ++ e) T' | _ => True end.

Ltac fd := first [apply Forall_nil | apply Forall_cons; [exact Logic.I|fd]].
Lemma qinv_op {V} t (o : qop V) q q' t' o' : q_step t o q = QStep q' (Some (EInv t' o')) -> o' = o.
Proof.
  unfold q_step. destruct (nth_error (q_pcs q) t) as [p|]; [|discriminate]. unfold tau, ret, lock_head, lock_tail, goto, q_free.
  destruct p; intros S; repeat match type of S with context[match ?x with _ => _ end] => destruct x end; try discriminate; inversion S; auto.
Qed.
(** what a queue step of thread [t] does *)
Lemma qmove s q L H T t o qs e : pinv m0 s q L H T -> nclear o = true -> q_step t o (p_q s) = QStep qs e ->
  exists q' L', inv qs q' L' /\ lmove t (st s t) (stat (at_ (q_pcs qs) t)) q q' e /\ (forall k, k <> t -> at_ (q_pcs qs) k = at_ (q_pcs (p_q s)) k) /\
  length (q_pcs qs) = length (q_pcs (p_q s)) /\ forall k, nc (at_ (q_pcs qs) k) = true.
Proof.
  intros I NO S. pose proof (q_step_ok _ _ _ t o (v_q _ _ _ _ _ _ I)) as G. rewrite S in G. destruct G as (q' & L' & I' & LM & O & Len).
  exists q', L'. split; [exact I'|]. split; [exact LM|]. split; [exact O|]. split; [exact Len|]. intros k. eapply nc_step; [apply (v_q _ _ _ _ _ _ I)|apply (v_nc _ _ _ _ _ _ I)|exact NO|exact S].
Qed.
Lemma wk_set s w p k : wk (set_w s w p) k = if Nat.eqb k w then (if Nat.ltb w (length (p_w s)) then p else WOff) else wk s k.
Proof. unfold wk, set_w. cbn [p_w]. apply upd_nth. Qed.

Ltac qt I EM := refine (quiet _ _ _ _ _ _ _ _ I _ _ _ _ _ _ _ _ _ _ _ _ _ _ _ _);
  [fd|reflexivity|reflexivity|reflexivity|reflexivity|first [reflexivity|apply upd_len]|rewrite EM; exact Logic.I|first [left; exact Logic.I|right; reflexivity|rewrite EM; left; exact Logic.I]|..].
(** the user's thread, outside the queue *)
Lemma main_quiet debug o tmo s q L H T : pinv m0 s q L H T -> resting (p_main s) -> (forall b, p_main s = MIdle -> o <> PAdd b) -> pgoal H (main_step debug o tmo s).
Proof.
  intros I R NA. pose proof I as I0.
  pose proof (v_nthr _ _ _ _ _ _ I) as V1. pose proof (v_off _ _ _ _ _ _ I) as V2. pose proof (v_on _ _ _ _ _ _ I) as V3. pose proof (v_join _ _ _ _ _ _ I) as V4.
  pose proof (v_alive _ _ _ _ _ _ I) as V5. pose proof (v_futin _ _ _ _ _ _ I) as [V6 V6']. pose proof (v_wait _ _ _ _ _ _ I) as V7.
  assert (SAME : forall w, (forall id j, wk s w = WRun id j <-> wk s w = WRun id j) /\ (wk s w = WPop -> st s (S w) = SIdle \/ wk s w = WPop)) by (intros; split; [tauto|auto]).
  assert (KEEP : forall e id, id < length (p_bodies s) -> In id (p_fut s) \/ T id = LFin \/ In (ETimeout id) (H ++ e)).
  { intros e id J. apply more, V7, J. }
  unfold main_step. destruct (p_main s) as [|id| |l|k i|i d|] eqn:EM; try destruct R; unfold pgoal.
  - destruct o as [b| |k| | |].
    + exfalso. eapply NA; reflexivity.
    + qt I EM. all: try exact SAME; try exact V1; try exact V2; try exact V3; try exact V5; try exact Logic.I.
      * split; [exact V6|exact V6].
      * split; [apply KEEP|]. intros id J. left. exact J.
    + destruct (p_run s) eqn:ER.
      * destruct debug; [exact Logic.I|]. qt I EM.
        all: try exact SAME; try exact V1; try exact V2; try (rewrite EM; try exact V3; try exact V5; try exact Logic.I).
        -- rewrite ER. exact V5.
        -- split; [exact V6|exact Logic.I].
        -- split; [apply KEEP|first [exact Logic.I|rewrite EM; exact Logic.I]].
      * destruct (p_nthr s) as [|x] eqn:EN; [|exact Logic.I]. qt I EM; cbn -[wk st]; rewrite ?EN.
        -- exact SAME.
        -- lia.
        -- exact V2.
        -- lia.
        -- auto.
        -- intros _ w X. change (wk (set_main (set_run s true) (MSpawn (Z.to_nat k) 0)) w) with (wk s w) in X. assert (Y : wk s w <> WOff) by congruence. apply V2 in Y. lia.
        -- split; [exact V6|exact Logic.I].
        -- split; [apply KEEP|exact Logic.I].
    + qt I EM; cbn -[wk st].
      * exact SAME.
      * exact V1.
      * exact V2.
      * intros w Hw. split; [intros _; apply V3; exact Hw|lia].
      * split; [lia|reflexivity].
      * discriminate.
      * split; [exact V6|exact Logic.I].
      * split; [apply KEEP|exact Logic.I].
    + qt I EM; cbn -[wk st]; auto. all: try (split; [exact V6|exact Logic.I]).
    + destruct (p_run s) eqn:ER.
      * qt I EM; cbn -[wk st].
        -- exact SAME.
        -- exact V1.
        -- exact V2.
        -- intros w Hw. split; [intros _; apply V3; exact Hw|lia].
        -- split; [lia|reflexivity].
        -- discriminate.
        -- split; [exact V6|exact Logic.I].
        -- split; [apply KEEP|exact Logic.I].
      * destruct (p_nthr s) as [|x] eqn:EN; [|exact Logic.I]. qt I EM; cbn -[wk st]; rewrite ?EN.
        -- exact SAME.
        -- lia.
        -- exact V2.
        -- lia.
        -- auto.
        -- rewrite ER. discriminate.
        -- split; [exact V6|exact Logic.I].
        -- split; [apply KEEP|exact Logic.I].
  - destruct l as [|f r].
    + qt I EM; cbn -[wk st]. all: try exact SAME; try exact V1; try exact V2; try exact V3; try exact V5; try exact Logic.I.
      * split; [intros ? []|exact Logic.I].
      * destruct V7 as [A B]. split; [|exact Logic.I]. intros id J. apply more. right. destruct (A id J) as [X|X]; [destruct (B id X) as [[]|Y]; exact Y|exact X].
    + destruct (isdone s f) eqn:DN.
      * qt I EM; cbn -[wk st]. all: try exact SAME; try exact V1; try exact V2; try exact V3; try exact V5; try exact Logic.I.
        -- split; [exact V6|]. intros id J. apply V6'. right. exact J.
        -- destruct V7 as [A B]. split; [intros id J; apply more, A, J|]. intros id J. apply more. destruct (B id J) as [[<-|X]|X]; auto. right. left.
           apply (v_fin _ _ _ _ _ _ I). unfold isdone in DN. apply existsb_exists in DN. destruct DN as (y & Y & E). apply Nat.eqb_eq in E. subst. exact Y.
      * destruct tmo; [|exact Logic.I]. qt I EM; cbn -[wk st]. all: try exact SAME; try exact V1; try exact V2; try exact V3; try exact V5; try exact Logic.I.
        -- split; [exact V6|]. intros id J. apply V6'. right. exact J.
        -- destruct V7 as [A B]. split; [intros id J; apply more, A, J|]. intros id J. rewrite in_app_iff. destruct (B id J) as [[<-|X]|[X|X]]; auto. right; right; right; left; reflexivity.
  - destruct V4 as [V4 V4']. destruct (Nat.ltb_spec i k) as [Hi|Hi].
    + destruct (Nat.ltb_spec i (length (p_w s))) as [Hw|Hw].
      * assert (OFF : wk s i = WOff) by (destruct (wk s i) eqn:E; auto; assert (X : wk s i <> WOff) by congruence; apply V2 in X; lia).
        set (s' := set_main (set_nthr (set_w s i WCheck) (S i)) (MSpawn k (S i))).
        assert (WS : forall w, wk s' w = if Nat.eqb w i then WCheck else wk s w).
        { intros w. change (wk s' w) with (wk (set_w s i WCheck) w). rewrite wk_set. destruct (Nat.ltb_spec i (length (p_w s))); [reflexivity|lia]. }
        qt I EM.
        -- intros w. rewrite WS. destruct (Nat.eqb_spec w i) as [->|]; [|apply SAME]. rewrite OFF. split; [split; discriminate|discriminate].
        -- cbn. rewrite upd_len. lia.
        -- intros w. rewrite WS. cbn -[wk st]. destruct (Nat.eqb_spec w i) as [->|]; [lia|]. intros X. apply V2 in X. lia.
        -- cbn -[wk st s']. intros w X. change (p_nthr s') with (S i) in X. rewrite WS. destruct (Nat.eqb_spec w i) as [->|]; [discriminate|apply V3; lia].
        -- cbn. auto.
        -- intros _ w. rewrite WS. destruct (Nat.eqb_spec w i) as [->|]; [discriminate|apply V5; auto].
        -- split; [exact V6|exact Logic.I].
        -- split; [apply KEEP|exact Logic.I].
      * qt I EM; cbn -[wk st]. all: try exact SAME; try exact V1; try exact V2; try exact V3; try exact Logic.I; try discriminate.
        -- split; [exact V6|exact Logic.I].
        -- split; [apply KEEP|exact Logic.I].
    + qt I EM; cbn -[wk st]. all: try exact SAME; try exact V1; try exact V2; try exact V3; try exact V5; try exact Logic.I.
      * split; [exact V6|exact Logic.I].
      * split; [apply KEEP|exact Logic.I].
  - destruct V4 as [V4 V4']. destruct (Nat.ltb_spec i (p_nthr s)) as [Hi|Hi].
    + destruct (nth_error (p_w s) i) as [[]|] eqn:En; try exact Logic.I.
      assert (OV : wk s i = WOver) by (unfold wk; eapply nth_error_nth; exact En).
      set (s' := set_main (set_w s i WOff) (MJoin (S i) d)).
      assert (WS : forall w, wk s' w = if Nat.eqb w i then WOff else wk s w).
      { intros w. change (wk s' w) with (wk (set_w s i WOff) w). rewrite wk_set. destruct (Nat.ltb_spec i (length (p_w s))); reflexivity. }
      qt I EM.
      * intros w. rewrite WS. destruct (Nat.eqb_spec w i) as [->|]; [|apply SAME]. rewrite OV. split; [split; discriminate|discriminate].
      * cbn. rewrite upd_len. lia.
      * intros w. rewrite WS. cbn -[wk st]. destruct (Nat.eqb_spec w i) as [->|]; [congruence|apply V2].
      * cbn -[wk st s']. intros w X. rewrite WS. specialize (V3 w X). destruct (Nat.eqb_spec w i) as [->|NE].
        -- split; [lia|congruence].
        -- split; intros Y; [apply (proj1 V3)|pose proof (proj2 V3 Y)]; lia.
      * cbn. split; [lia|exact V4'].
      * intros X. change (p_run s' = true) with (p_run s = true) in X. rewrite V4' in X. discriminate.
      * split; [exact V6|exact Logic.I].
      * split; [apply KEEP|exact Logic.I].
    + assert (i = p_nthr s) as -> by lia. assert (OFF : forall w, wk s w = WOff).
      { intros w. destruct (wk s w) eqn:E; auto; (assert (X : wk s w <> WOff) by congruence; pose proof (V2 w X) as Y; apply (V3 w Y) in X; lia). }
      destruct d; qt I EM; cbn -[wk st]; try exact SAME; try exact Logic.I; try lia.
      all: try (intros w X; change (wk _ w) with (wk s w) in X; rewrite OFF in X; congruence).
      all: try (intros X; rewrite V4' in X; discriminate).
      all: try (split; [exact V6|exact Logic.I]).
      all: try (split; [apply KEEP|exact Logic.I]).
      split; [reflexivity|exact V4'].
  - exact Logic.I.
Qed.
End P.
