(** Every step of the pool preserves the invariant: steps that touch the queue or a task. *)
From Coq Require Import List ZArith Bool Lia Arith.
From Verif Require Import Base QueueSpec QueueModel QueueProofs QueueProofs2 QueueProofs3 QueueProofs4 PoolSpec PoolModel PoolProofs PoolProofs2.
Import ListNotations.

Section P.
Context {M : Type} (m0 : M).
Implicit Types (s : pst M) (H : list (pev M)).
Lemma tset_same T id p : tset T id p id = p. Proof. unfold tset. rewrite Nat.eqb_refl. reflexivity. Qed.
Lemma tset_other T id p k : k <> id -> tset T id p k = T k. Proof. intros N. unfold tset. rewrite (proj2 (Nat.eqb_neq k id) N). reflexivity. Qed.
Lemma known s q L H T id j : pinv m0 s q L H T -> In (EAct id j) H -> id < length (p_bodies s).
Proof.
  intros I J. destruct (Nat.lt_ge_cases id (length (p_bodies s))) as [|X]; auto. apply (v_none _ _ _ _ _ _ I) in X.
  pose proof (v_hist _ _ _ _ _ _ I id) as E. rewrite X in E. cbn in E. assert (Y : In (EAct id j) (filter (about id) H)) by (apply filter_In; split; [exact J|cbn; apply Nat.eqb_refl]).
  rewrite E in Y. destruct Y.
Qed.

Lemma add_ok s q L H T b : pinv m0 s q L H T -> p_main s = MIdle -> let id := length (p_bodies s) in
  exists q' L' T', pinv m0 (set_main (set_fut (add_body s b) (p_fut s ++ [id])) (MPush id)) q' L' (H ++ [EAdd id b]) T'.
Proof.
  intros I EM id. exists q, L, (tset T id LMain). pose proof (v_main _ _ _ _ _ _ I) as S0. rewrite EM in S0.
  assert (TN : T id = LNone) by (apply (v_none _ _ _ _ _ _ I); unfold id; lia).
  set (s' := set_main (set_fut (add_body s b) (p_fut s ++ [id])) (MPush id)).
  assert (ST : forall t, st s' t = st s t) by reflexivity. assert (WK : forall w, wk s' w = wk s w) by reflexivity.
  assert (BO : forall k, k <> id -> body_of s' k = body_of s k).
  { intros k N. unfold body_of. cbn [s' set_main set_fut add_body p_bodies]. destruct (Nat.lt_ge_cases k id); [apply app_nth1; auto|]. rewrite !nth_overflow; [reflexivity|fold id; lia|rewrite app_length; cbn; fold id; lia]. }
  assert (BI : body_of s' id = b) by (unfold body_of; cbn [s' set_main set_fut add_body p_bodies]; rewrite app_nth2 by (fold id; lia); fold id; rewrite Nat.sub_diag; reflexivity).
  assert (LB : length (p_bodies s') = S id) by (cbn [s' set_main set_fut add_body p_bodies]; rewrite app_length; cbn; unfold id; lia).
  assert (OTH : forall k p, p <> LMain -> p <> LNone -> (tset T id LMain k = p <-> T k = p)).
  { intros k p N1 N2. destruct (Nat.eq_dec k id) as [->|N]; [rewrite tset_same, TN; split; congruence|rewrite tset_other by exact N; tauto]. }
  split.
  - apply I.
  - apply I.
  - cbn -[st]. rewrite ST. auto.
  - intros w. rewrite WK, ST. apply I.
  - intros k. rewrite LB. destruct (Nat.eq_dec k id) as [->|N]; [rewrite tset_same; split; [discriminate|lia]|]. rewrite tset_other by exact N. rewrite (v_none _ _ _ _ _ _ I). fold id. lia.
  - intros k. rewrite ST, S0. cbn -[st]. destruct (Nat.eq_dec k id) as [->|N].
    + rewrite tset_same. split; auto. intros _. split; [reflexivity|discriminate].
    + rewrite tset_other by exact N. rewrite (v_lmain _ _ _ _ _ _ I), EM. split; intros [X _]; [discriminate|inversion X; congruence].
  - apply I.
  - intros k. rewrite OTH by discriminate. apply I.
  - intros k w. rewrite OTH by discriminate. apply I.
  - intros k w j. rewrite OTH by discriminate. apply I.
  - intros k w j. rewrite OTH by discriminate. intros X. rewrite BO by (intros ->; congruence). revert X. apply I.
  - intros k. rewrite OTH by discriminate. apply I.
  - intros k. rewrite filter_app', (v_hist _ _ _ _ _ _ I k). cbn [filter about]. rewrite (Nat.eqb_sym id k). destruct (Nat.eq_dec k id) as [->|N].
    + rewrite Nat.eqb_refl, TN, tset_same, BI. reflexivity.
    + rewrite (proj2 (Nat.eqb_neq k id) N), app_nil_r, tset_other, BO by exact N. reflexivity.
  - rewrite added_app, (v_added _ _ _ _ _ _ I). reflexivity.
  - rewrite replay_app. cbn [s' set_main set_fut add_body p_bodies p_mem]. rewrite (replay_grow (p_bodies s) b H) by (intros i j J; apply (known _ _ _ _ _ i j I J)). unfold replay at 1. cbn [fold_left act]. apply I.
  - apply I.
  - apply I.
  - intros w X. cbn -[wk]. pose proof (v_on _ _ _ _ _ _ I w X) as Y. rewrite EM in Y. exact Y.
  - exact Logic.I.
  - apply I.
  - rewrite LB. split; [|exact Logic.I]. intros k J. cbn [s' set_main set_fut add_body p_fut] in J. apply in_app_or in J. destruct J as [J|[<-|[]]]; [|lia]. apply (proj1 (v_futin _ _ _ _ _ _ I)) in J. fold id in J. lia.
  - split; [|exact Logic.I]. intros k X. rewrite LB in X. cbn [s' set_main set_fut add_body p_fut].
    destruct (Nat.eq_dec k id) as [->|NE]; [left; apply in_or_app; right; left; reflexivity|]. rewrite tset_other by exact NE. apply more.
    destruct (proj1 (v_wait _ _ _ _ _ _ I) k) as [Y|Y]; [fold id; lia| |]; auto. left. apply in_or_app. auto.
  - destruct (v_fifo _ _ _ _ _ _ I) as (k & F1 & F2 & F3 & F4). exists k. rewrite LB. fold id in F2. assert (E : k + length q = id).
    { destruct (F4 id F2) as [X|X]; [rewrite <- (F3 id X); reflexivity|]. destruct (Nat.eq_dec (k + length q) id) as [|NE]; auto. exfalso.
      destruct (F4 (k + length q) (le_n _)) as [Y|Y]; [|apply (v_none _ _ _ _ _ _ I) in Y; fold id in Y; lia]. apply (v_lmain _ _ _ _ _ _ I) in Y. destruct Y; congruence. }
    split; [exact F1|]. split; [lia|]. split.
    + intros i. destruct (Nat.eq_dec i id) as [->|N]; [lia|]. rewrite tset_other by exact N. apply F3.
    + intros i X. destruct (Nat.eq_dec i id) as [->|N]; [rewrite tset_same; auto|]. rewrite tset_other by exact N. apply F4; exact X.
  - apply I.
Qed.

Lemma lmove_cases {V} t (a b : status V) q q' e : lmove t a b q q' e ->
  (b = a /\ q' = q /\ e = None) \/ (exists o, a = SIdle /\ b = SCalled o /\ q' = q /\ e = Some (EInv t o)) \/ (exists o r, a = SCalled o /\ b = SDid r /\ seq_q o q r q' /\ e = None) \/
  (exists r, a = SDid r /\ b = SIdle /\ q' = q /\ e = Some (ERet t r)) \/ (exists o r, a = SCalled o /\ b = SIdle /\ seq_q o q r q' /\ e = Some (ERet t r)).
Proof. destruct 1; [left; auto|right; left; eauto|right; right; left; eauto 6|right; right; right; left; eauto|right; right; right; right; eauto 6]. Qed.
(** a queue step that moves at most one task *)
Lemma push_step s q L H T id o : pinv m0 s q L H T -> p_main s = MPush id -> o = QPush id ->
  pgoal m0 H (match q_step 0 o (p_q s) with
      | QBlock => PBlock | QBad => PBad
      | QStep q (Some (ERet _ _)) => PStep (set_main (set_q s q) MIdle) [EAdded id]
      | QStep q _ => PStep (set_q s q) []
      end).
Proof.
  intros I EM ->. pose proof (q_step_ok _ _ _ 0 (QPush id) (v_q _ _ _ _ _ _ I)) as G0. destruct (q_step 0 (QPush id) (p_q s)) as [| |qs e] eqn:SQ; [exact Logic.I|destruct G0|]. clear G0.
  destruct (qmove m0 s q L H T 0 (QPush id) qs e I eq_refl SQ) as (q' & L' & I' & LM & O & LEN & NC).
  pose proof (v_main _ _ _ _ _ _ I) as VM. rewrite EM in VM.
  set (a := st s 0) in *. set (b := stat (at_ (q_pcs qs) 0)) in *.
  (* the five kinds of steps *)
  assert (K : (q' = q /\ (b = a \/ (a = SIdle /\ b = SCalled (QPush id)) \/ (a = SDid RUnit /\ b = SIdle)) /\ (b = SIdle -> a = SIdle \/ exists t r, e = Some (ERet t r)) /\ (forall t r, e = Some (ERet t r) -> a = SDid RUnit /\ b = SIdle)) \/
              (q' = q ++ [id] /\ a = SCalled (QPush id) /\ (b = SDid RUnit /\ e = None \/ exists t r, b = SIdle /\ e = Some (ERet t r)))).
  { apply lmove_cases in LM; destruct LM as [(E2 & -> & ->)|[(oo & E1 & E2 & -> & ->)|[(oo & r & E1 & E2 & SE & ->)|[(r & E1 & E2 & -> & ->)|(oo & r & E1 & E2 & SE & ->)]]]].
    - left. split; [reflexivity|]. split; [left; congruence|]. split; [left; congruence|]. intros t r X. discriminate.
    - left. assert (oo = QPush id) by (eapply qinv_op; exact SQ). subst oo. split; [reflexivity|]. split; [right; left; split; congruence|]. split; [left; congruence|]. intros t r X. discriminate.
    - right. assert (oo = QPush id) by (destruct VM as [X|[X|X]]; congruence). subst oo. inversion SE; clear SE; subst. split; [reflexivity|]. split; [congruence|]. left. split; [congruence|reflexivity].
    - left. split; [reflexivity|]. assert (r = RUnit) by (destruct VM as [X|[X|X]]; congruence). subst r. split; [right; right; split; congruence|]. split; [right; eauto|]. intros t r X. split; congruence.
    - right. assert (oo = QPush id) by (destruct VM as [X|[X|X]]; congruence). subst oo. inversion SE; clear SE; subst. split; [reflexivity|]. split; [congruence|]. right. exists 0, RUnit. split; [congruence|reflexivity]. }
  clear VM.
  set (s1 := set_q s qs).
  assert (STO : forall w, st s1 (S w) = st s (S w)) by (intros w; unfold st; cbn [s1 set_q p_q]; rewrite O by discriminate; reflexivity).
  destruct K as [(-> & B & RI & RT)|(-> & A & B)].
  - (* the task stays where it is *)
    assert (R : forall main', (main' = MPush id /\ (forall t r, e <> Some (ERet t r)) \/ main' = MIdle /\ exists t r, e = Some (ERet t r)) -> forall ev, Forall dull ev -> (forall k, ~ In (ETimeout k) ev) ->
       exists q' L' T', pinv m0 (set_main s1 main') q' L' (H ++ ev) T').
    { intros main' MM ev DU NT. exists q, L', T. destruct (dull_facts ev DU) as (D1 & D2 & D3). set (s' := set_main s1 main').
      assert (ST0 : st s' 0 = b) by reflexivity. split.
      - exact I'.
      - cbn. rewrite LEN. apply I.
      - cbn -[st]. rewrite ST0. destruct MM as [[-> NR]|[-> (t & r & E)]]; [|destruct (RT t r E); auto].
        pose proof (v_main _ _ _ _ _ _ I) as VM. rewrite EM in VM. fold a in VM. destruct B as [->|[[_ ->]|[_ ->]]]; auto.
      - intros w. change (st s' (S w)) with (st s1 (S w)). rewrite STO. apply I.
      - apply I.
      - intros k. rewrite (v_lmain _ _ _ _ _ _ I), EM, ST0. fold a. cbn. destruct MM as [[-> NR]|[-> (t & r & E)]].
        + destruct B as [->|[[-> ->]|[-> E]]]; [tauto|split; intros [X _]; split; auto; discriminate|]. exfalso. destruct (RI E) as [X|(t & r & X)]; [congruence|]. exact (NR t r X).
        + destruct (RT t r E) as [-> _]. split; intros [X Y]; [congruence|discriminate].
      - apply I.
      - apply I.
      - intros k w. change (st s' (S w)) with (st s1 (S w)). rewrite STO. apply I.
      - apply I.
      - apply I.
      - apply I.
      - intros k. rewrite filter_app', D1, app_nil_r. apply I.
      - rewrite added_app, D2, app_nil_r. apply I.
      - rewrite replay_app, D3. apply I.
      - apply I.
      - apply I.
      - intros w X. pose proof (v_on _ _ _ _ _ _ I w X) as Y. rewrite EM in Y. cbn -[wk]. destruct MM as [[-> _]|[-> _]]; exact Y.
      - cbn. destruct MM as [[-> _]|[-> _]]; exact Logic.I.
      - apply I.
      - split; [apply (v_futin _ _ _ _ _ _ I)|]. cbn. destruct MM as [[-> _]|[-> _]]; exact Logic.I.
      - split; [intros k X; apply more; apply (proj1 (v_wait _ _ _ _ _ _ I)), X|]. cbn. destruct MM as [[-> _]|[-> _]]; exact Logic.I.
      - apply I.
      - exact NC. }
    assert (SM : s1 = set_main s1 (MPush id)) by (unfold set_main, s1, set_q; cbn; rewrite EM; reflexivity).
    destruct e as [[t oo|t r]|]; cbn [pgoal].
    + rewrite SM. apply R; [left; split; [reflexivity|discriminate]|constructor|intros k []].
    + apply R; [right; eauto|repeat constructor|intros k [X|[]]; discriminate].
    + rewrite SM. apply R; [left; split; [reflexivity|discriminate]|constructor|intros k []].
  - (* the task enters the queue *)
    assert (TI : T id = LMain) by (apply (v_lmain _ _ _ _ _ _ I); split; [exact EM|fold a; rewrite A; discriminate]).
    assert (OTH : forall k p, p <> LMain -> p <> LQueue -> (tset T id LQueue k = p <-> T k = p)).
    { intros k p N1 N2. destruct (Nat.eq_dec k id) as [->|N]; [rewrite tset_same, TI; split; congruence|rewrite tset_other by exact N; tauto]. }
    assert (NI : ~ In id q) by (intros X; apply (v_queue _ _ _ _ _ _ I) in X; congruence).
    assert (R : forall main', (main' = MPush id /\ b = SDid RUnit \/ main' = MIdle /\ b = SIdle) -> forall ev, Forall dull ev -> (forall k, ~ In (ETimeout k) ev) ->
       exists q' L' T', pinv m0 (set_main s1 main') q' L' (H ++ ev) T').
    { intros main' MM ev DU NT. exists (q ++ [id]), L', (tset T id LQueue). destruct (dull_facts ev DU) as (D1 & D2 & D3). set (s' := set_main s1 main').
      assert (ST0 : st s' 0 = b) by reflexivity. split.
      - exact I'.
      - cbn. rewrite LEN. apply I.
      - cbn -[st]. rewrite ST0. destruct MM as [[-> ->]|[-> ->]]; auto.
      - intros w. change (st s' (S w)) with (st s1 (S w)). rewrite STO. apply I.
      - intros k. rewrite OTH by discriminate. apply I.
      - intros k. rewrite ST0. cbn. destruct (Nat.eq_dec k id) as [->|N].
        + rewrite tset_same. split; [discriminate|]. intros [X Y]. destruct MM as [[-> E]|[-> _]]; congruence.
        + rewrite tset_other by exact N. rewrite (v_lmain _ _ _ _ _ _ I), EM. split; intros [X _]; [congruence|]. destruct MM as [[-> _]|[-> _]]; congruence.
      - apply NoDup_Add with (a := id) (l := q); [|split; [apply I|exact NI]]. rewrite <- (app_nil_r q) at 1. apply Add_app.
      - intros k. rewrite in_app_iff. cbn. destruct (Nat.eq_dec k id) as [->|N]; [rewrite tset_same; tauto|]. rewrite tset_other by exact N. rewrite (v_queue _ _ _ _ _ _ I). split; [auto|]. intros [X|[X|[]]]; congruence.
      - intros k w. rewrite OTH by discriminate. change (st s' (S w)) with (st s1 (S w)). rewrite STO. apply I.
      - intros k w j. rewrite OTH by discriminate. apply I.
      - intros k w j. rewrite OTH by discriminate. apply I.
      - intros k. rewrite OTH by discriminate. apply I.
      - intros k. rewrite filter_app', D1, app_nil_r, (v_hist _ _ _ _ _ _ I k). change (body_of s' k) with (body_of s k). destruct (Nat.eq_dec k id) as [->|N]; [rewrite tset_same, TI; reflexivity|rewrite tset_other by exact N; reflexivity].
      - rewrite added_app, D2, app_nil_r. apply I.
      - rewrite replay_app, D3. apply I.
      - apply I.
      - apply I.
      - intros w X. pose proof (v_on _ _ _ _ _ _ I w X) as Y. rewrite EM in Y. cbn -[wk]. destruct MM as [[-> _]|[-> _]]; exact Y.
      - cbn. destruct MM as [[-> _]|[-> _]]; exact Logic.I.
      - apply I.
      - split; [apply (v_futin _ _ _ _ _ _ I)|]. cbn. destruct MM as [[-> _]|[-> _]]; exact Logic.I.
      - split; [|cbn; destruct MM as [[-> _]|[-> _]]; exact Logic.I]. intros k X. rewrite OTH by discriminate. apply more, (proj1 (v_wait _ _ _ _ _ _ I)), X.
      - destruct (v_fifo _ _ _ _ _ _ I) as (k & F1 & F2 & F3 & F4). exists k. pose proof (F3 id TI) as E. rewrite app_length. cbn [length]. split; [|split; [|split]].
        + rewrite Nat.add_1_r, seq_S, <- F1, <- E. reflexivity.
        + change (p_bodies s') with (p_bodies s). destruct (Nat.lt_ge_cases id (length (p_bodies s))) as [|X]; [lia|]. apply (v_none _ _ _ _ _ _ I) in X. congruence.
        + intros i. destruct (Nat.eq_dec i id) as [->|N]; [rewrite tset_same; discriminate|]. rewrite tset_other by exact N. intros X. apply F3 in X. lia.
        + intros i X. rewrite tset_other by lia. apply F4. lia.
      - exact NC. }
    assert (SM : s1 = set_main s1 (MPush id)) by (unfold set_main, s1, set_q; cbn; rewrite EM; reflexivity).
    destruct B as [[B ->]|(t & r & B & ->)]; cbn [pgoal].
    + rewrite SM. apply R; [left; auto|constructor|intros k []].
    + apply R; [right; auto|repeat constructor|intros k [X|[]]; discriminate].
Qed.

Lemma num_step s q L H T : pinv m0 s q L H T -> p_main s = MNum ->
  pgoal m0 H (match q_step 0 QSize (p_q s) with
      | QBlock => PBlock | QBad => PBad
      | QStep q (Some (ERet _ (RSize z))) => PStep (set_main (set_q s q) MIdle) [ENum z]
      | QStep q _ => PStep (set_q s q) []
      end).
Proof.
  intros I EM. pose proof (q_step_ok _ _ _ 0 (QSize (V := nat)) (v_q _ _ _ _ _ _ I)) as G0. destruct (q_step 0 QSize (p_q s)) as [| |qs e] eqn:SQ; [exact Logic.I|destruct G0|]. clear G0.
  destruct (qmove m0 s q L H T 0 QSize qs e I eq_refl SQ) as (q' & L' & I' & LM & O & LEN & NC).
  pose proof (v_main _ _ _ _ _ _ I) as VM. rewrite EM in VM.
  set (a := st s 0) in *. set (b := stat (at_ (q_pcs qs) 0)) in *.
  assert (K : q' = q /\ (((forall t r, e <> Some (ERet t r)) /\ (b = SIdle \/ b = SCalled QSize \/ exists z, b = SDid (RSize z))) \/ (b = SIdle /\ exists t z, e = Some (ERet t (RSize z))))).
  { apply lmove_cases in LM; destruct LM as [(E2 & -> & ->)|[(oo & E1 & E2 & -> & ->)|[(oo & r & E1 & E2 & SE & ->)|[(r & E1 & E2 & -> & ->)|(oo & r & E1 & E2 & SE & ->)]]]].
    - split; [reflexivity|]. left. split; [discriminate|]. rewrite E2. exact VM.
    - assert (oo = QSize) by (eapply qinv_op; exact SQ). subst oo. split; [reflexivity|]. left. split; [discriminate|]. auto.
    - assert (oo = QSize) by (destruct VM as [X|[X|[z X]]]; congruence). subst oo. inversion SE; clear SE; subst. split; [reflexivity|]. left. split; [discriminate|]. right; right; eauto.
    - split; [reflexivity|]. right. split; [congruence|]. destruct VM as [X|[X|[z X]]]; try congruence. exists 0, z. congruence.
    - assert (oo = QSize) by (destruct VM as [X|[X|[z X]]]; congruence). subst oo. inversion SE; clear SE; subst. split; [reflexivity|]. right. split; [congruence|]. eauto. }
  destruct K as [-> K]. clear VM.
  set (s1 := set_q s qs).
  assert (STO : forall w, st s1 (S w) = st s (S w)) by (intros w; unfold st; cbn [s1 set_q p_q]; rewrite O by discriminate; reflexivity).
  assert (R : forall main', (main' = MNum /\ (b = SIdle \/ b = SCalled QSize \/ exists z, b = SDid (RSize z)) \/ main' = MIdle /\ b = SIdle) -> forall ev, Forall dull ev ->
       exists q' L' T', pinv m0 (set_main s1 main') q' L' (H ++ ev) T').
  { intros main' MM ev DU. exists q, L', T. destruct (dull_facts ev DU) as (D1 & D2 & D3). set (s' := set_main s1 main').
    assert (ST0 : st s' 0 = b) by reflexivity. split.
    - exact I'.
    - cbn. rewrite LEN. apply I.
    - cbn -[st]. rewrite ST0. destruct MM as [[-> X]|[-> X]]; auto.
    - intros w. change (st s' (S w)) with (st s1 (S w)). rewrite STO. apply I.
    - apply I.
    - intros k. rewrite (v_lmain _ _ _ _ _ _ I), EM. cbn. split; intros [X _]; [discriminate|]. destruct MM as [[-> _]|[-> _]]; discriminate.
    - apply I.
    - apply I.
    - intros k w. change (st s' (S w)) with (st s1 (S w)). rewrite STO. apply I.
    - apply I.
    - apply I.
    - apply I.
    - intros k. rewrite filter_app', D1, app_nil_r. apply I.
    - rewrite added_app, D2, app_nil_r. apply I.
    - rewrite replay_app, D3. apply I.
    - apply I.
    - apply I.
    - intros w X. pose proof (v_on _ _ _ _ _ _ I w X) as Y. rewrite EM in Y. cbn -[wk]. destruct MM as [[-> _]|[-> _]]; exact Y.
    - cbn. destruct MM as [[-> _]|[-> _]]; exact Logic.I.
    - apply I.
    - split; [apply (v_futin _ _ _ _ _ _ I)|]. cbn. destruct MM as [[-> _]|[-> _]]; exact Logic.I.
    - split; [intros k X; apply more; apply (proj1 (v_wait _ _ _ _ _ _ I)), X|]. cbn. destruct MM as [[-> _]|[-> _]]; exact Logic.I.
    - apply I.
    - exact NC. }
  assert (SM : s1 = set_main s1 MNum) by (unfold set_main, s1, set_q; cbn; rewrite EM; reflexivity).
  destruct K as [[NR K]|(K & t & z & ->)]; cbn [pgoal].
  - assert (GG : exists q' L' T', pinv m0 s1 q' L' (H ++ []) T') by (rewrite SM; apply R; [left; auto|constructor]).
    destruct e as [[t oo|t r]|]; [exact GG|exfalso; exact (NR t r eq_refl)|exact GG].
  - apply R; [right; auto|repeat constructor].
Qed.

Lemma app_inv_len {A} (a b c d : list A) : a ++ b = c ++ d -> length a = length c -> a = c /\ b = d.
Proof. revert c. induction a as [|x a IH]; intros [|y c] E L; cbn in *; try discriminate; auto. inversion E; subst. destruct (IH c) as [-> ->]; auto. Qed.
(** a step of worker [w] inside TryPop *)
Lemma pop_step s q L H T w : pinv m0 s q L H T -> nth_error (p_w s) w = Some WPop ->
  pgoal m0 H (match q_step (S w) QPop (p_q s) with
      | QBlock => PBlock | QBad => PBad
      | QStep q (Some (ERet _ (RPop (Some id)))) => PStep (set_w (set_q s q) w (WRun id 0)) [EStart id]
      | QStep q (Some (ERet _ _)) => PStep (set_w (set_q s q) w WCheck) []
      | QStep q _ => PStep (set_q s q) []
      end).
Proof.
  intros I EW. assert (WLt : w < length (p_w s)) by (apply nth_error_Some; congruence). assert (WW : wk s w = WPop) by (unfold wk; eapply nth_error_nth; exact EW).
  pose proof (q_step_ok _ _ _ (S w) (QPop (V := nat)) (v_q _ _ _ _ _ _ I)) as G0. destruct (q_step (S w) QPop (p_q s)) as [| |qs e] eqn:SQ; [exact Logic.I|destruct G0|]. clear G0.
  destruct (qmove m0 s q L H T (S w) QPop qs e I eq_refl SQ) as (q' & L' & I' & LM & O & LEN & NC).
  pose proof (v_work _ _ _ _ _ _ I w) as VM. rewrite WW in VM.
  set (a := st s (S w)) in *. set (b := stat (at_ (q_pcs qs) (S w))) in *.
  assert (NRT : forall id, T id <> LRun w 0) by (intros id X; apply (v_run _ _ _ _ _ _ I) in X; congruence).
  assert (ST0 : st (set_q s qs) 0 = st s 0) by (unfold st; cbn [set_q p_q]; rewrite O by discriminate; reflexivity).
  assert (STB : st (set_q s qs) (S w) = b) by reflexivity.
  assert (STO : forall k, k <> w -> st (set_q s qs) (S k) = st s (S k)) by (intros k N; unfold st; cbn [set_q p_q]; rewrite O by congruence; reflexivity).
  assert (AON : wk s w <> WOff) by congruence.
  (* everything that does not depend on where the task goes *)
  assert (R : forall q' T' p ev, inv qs q' L' -> NoDup q' ->
     (p = WPop /\ (b = SIdle \/ b = SCalled QPop \/ exists r, b = SDid (RPop r)) \/ p = WCheck /\ b = SIdle \/ (exists id, p = WRun id 0) /\ b = SIdle) ->
     (forall k, T' k = LNone <-> T k = LNone) -> (forall k, T' k = LMain <-> T k = LMain) -> (forall k, T' k = LFin <-> T k = LFin) ->
     (forall k, T' k = LQueue <-> In k q') ->
     (forall k, T' k = LHeld w <-> b = SDid (RPop (Some k))) -> (forall k v, v <> w -> (T' k = LHeld v <-> T k = LHeld v)) ->
     (forall k j, T' k = LRun w j <-> p = WRun k j) -> (forall k v j, v <> w -> (T' k = LRun v j <-> T k = LRun v j)) ->
     (forall k, filter (about k) ev = [] /\ past k (body_of s k) (T' k) = past k (body_of s k) (T k) \/ past k (body_of s k) (T' k) = past k (body_of s k) (T k) ++ filter (about k) ev) ->
     added ev = [] -> (forall bs m, replay bs ev m = m) -> (exists d, q = d ++ q') ->
     exists q' L' T', pinv m0 (set_w (set_q s qs) w p) q' L' (H ++ ev) T').
  { intros q1 T' p ev I1 ND PB T1 T2 T3 T4 T5 T6 T7 T8 HV AV RV [dq DQ]. exists q1, L', T'. set (s' := set_w (set_q s qs) w p).
    assert (WS : forall k, wk s' k = if Nat.eqb k w then p else wk s k).
    { intros k. change (wk s' k) with (wk (set_w (set_q s qs) w p) k). rewrite wk_set. cbn [set_q p_w]. destruct (Nat.ltb_spec w (length (p_w s))); [reflexivity|lia]. }
    assert (ST : forall t, st s' t = st (set_q s qs) t) by reflexivity.
    assert (PN : p <> WOff) by (destruct PB as [[-> _]|[[-> _]|[[id ->] _]]]; discriminate).
    assert (PO : p <> WOver) by (destruct PB as [[-> _]|[[-> _]|[[id ->] _]]]; discriminate).
    split.
    - exact I1.
    - cbn. rewrite LEN, upd_len. apply I.
    - rewrite ST, ST0. apply I.
    - intros k. rewrite WS, ST. destruct (Nat.eqb_spec k w) as [->|N].
      + rewrite STB. destruct PB as [[-> X]|[[-> X]|[[id ->] X]]]; exact X.
      + rewrite (STO k N). apply I.
    - intros k. rewrite T1. apply I.
    - intros k. rewrite T2, ST, ST0. apply I.
    - exact ND.
    - exact T4.
    - intros k v. rewrite ST. destruct (Nat.eq_dec v w) as [->|N]; [rewrite STB; apply T5|]. rewrite (T6 k v N), (STO v N). apply I.
    - intros k v j. rewrite WS. destruct (Nat.eqb_spec v w) as [->|N]; [apply T7|]. rewrite (T8 k v j N). apply I.
    - intros k v j X. destruct (Nat.eq_dec v w) as [->|N].
      + apply T7 in X. destruct PB as [[-> _]|[[-> _]|[[id ->] _]]]; try discriminate. inversion X. lia.
      + apply (T8 k v j N) in X. change (body_of s' k) with (body_of s k). revert X. apply I.
    - intros k. rewrite T3. apply I.
    - intros k. rewrite filter_app', (v_hist _ _ _ _ _ _ I k). change (body_of s' k) with (body_of s k). destruct (HV k) as [[X Y]|X]; [rewrite X, app_nil_r; auto|auto].
    - rewrite added_app, AV, app_nil_r. apply I.
    - rewrite replay_app, RV. apply I.
    - cbn. rewrite upd_len. apply I.
    - intros k. rewrite WS. destruct (Nat.eqb_spec k w) as [->|N]; [intros _; apply (v_off _ _ _ _ _ _ I); exact AON|apply I].
    - intros k X. rewrite WS. pose proof (v_on _ _ _ _ _ _ I k X) as Y. cbn [s' set_w set_q p_main]. destruct (Nat.eqb_spec k w) as [->|N]; [|exact Y].
      destruct (p_main s); auto. split; [intros _; exact PN|intros _; apply Y; exact AON].
    - apply I.
    - intros X k. rewrite WS. destruct (Nat.eqb_spec k w) as [->|N]; [exact PO|apply (v_alive _ _ _ _ _ _ I X)].
    - apply I.
    - destruct (v_wait _ _ _ _ _ _ I) as [Y Z]. split.
      + intros k J. rewrite T3. apply more, Y. exact J.
      + cbn [s' set_w set_q p_main]. destruct (p_main s); auto. intros k J. rewrite T3. apply more, Z. exact J.
    - destruct (v_fifo _ _ _ _ _ _ I) as (k & F1 & F2 & F3 & F4). assert (LQ : length q = length dq + length q1) by (rewrite DQ, app_length; reflexivity). exists (k + length dq). split; [|split; [|split]].
      + rewrite DQ in F1 at 1. rewrite LQ, seq_app in F1. apply app_inv_len in F1; [apply F1|rewrite seq_length; reflexivity].
      + change (p_bodies s') with (p_bodies s). lia.
      + intros i X. apply T2 in X. apply F3 in X. lia.
      + intros i X. rewrite T1, T2. apply F4. lia.
    - exact NC. }
  assert (QT : forall k, T k = LQueue <-> In k q) by apply I. assert (ND : NoDup q) by apply I.
  assert (HT : forall k, T k = LHeld w <-> a = SDid (RPop (Some k))) by (intros; apply I).
  assert (RT : forall k j, T k <> LRun w j) by (intros k j X; apply (v_run _ _ _ _ _ _ I) in X; congruence).
  assert (SELF : set_q s qs = set_w (set_q s qs) w WPop).
  { unfold set_w, set_q. cbn. f_equal. clear - EW. revert w EW. induction (p_w s) as [|x l IH]; intros [|w] EW; cbn in *; try discriminate; [congruence|f_equal; apply IH; exact EW]. }
  (* moves that leave all tasks where they are *)
  assert (STAY : q' = q -> forall p, (p = WPop /\ (b = SIdle \/ b = SCalled QPop \/ exists r, b = SDid (RPop r)) \/ p = WCheck /\ b = SIdle) -> (forall k, a = SDid (RPop (Some k)) <-> b = SDid (RPop (Some k))) ->
     exists q' L' T', pinv m0 (set_w (set_q s qs) w p) q' L' (H ++ []) T').
  { intros -> p PB AB. apply (R q T p []); auto; try tauto.
    - intros k. rewrite HT. apply AB.
    - intros k j. split; [intros X; destruct (RT k j X)|]. destruct PB as [[-> _]|[-> _]]; discriminate.
    - exists []. reflexivity. }
  apply lmove_cases in LM; destruct LM as [(E2 & -> & ->)|[(oo & E1 & E2 & -> & ->)|[(oo & r & E1 & E2 & SE & ->)|[(r & E1 & E2 & -> & ->)|(oo & r & E1 & E2 & SE & ->)]]]]; cbn [pgoal].
  - rewrite SELF. apply STAY; [reflexivity|left; split; [reflexivity|]|intros k; split; congruence]. assert (b = a) as -> by congruence. exact VM.
  - assert (oo = QPop) by (eapply qinv_op; exact SQ). subst oo. rewrite SELF. apply STAY; [reflexivity|left; split; [reflexivity|auto]|intros k; split; congruence].
  - assert (oo = QPop) by (destruct VM as [X|[X|[z X]]]; congruence). subst oo. rewrite SELF. inversion SE; clear SE; subst.
    + apply STAY; [reflexivity|left; split; [reflexivity|eauto]|intros k; split; congruence].
    + rename v into id. assert (TI : T id = LQueue) by (apply QT; left; reflexivity). inversion ND as [|? ? NI ND']; subst.
      assert (OTH : forall k p, p <> LQueue -> p <> LHeld w -> (tset T id (LHeld w) k = p <-> T k = p)).
      { intros k p N1 N2. destruct (Nat.eq_dec k id) as [->|N]; [rewrite tset_same, TI; split; congruence|rewrite tset_other by exact N; tauto]. }
      apply (R q' (tset T id (LHeld w)) WPop []); auto; try (intros; apply OTH; congruence).
      * left. split; [reflexivity|eauto].
      * intros k. destruct (Nat.eq_dec k id) as [->|N]; [rewrite tset_same; split; [discriminate|tauto]|]. rewrite tset_other by exact N. rewrite QT. cbn. split; [intros [X|X]; congruence|auto].
      * intros k. destruct (Nat.eq_dec k id) as [->|N]; [rewrite tset_same; split; [congruence|reflexivity]|]. rewrite tset_other by exact N. rewrite HT. split; congruence.
      * intros k j. rewrite OTH by discriminate. split; [intros X; destruct (RT k j X)|discriminate].
      * intros k. left. split; [reflexivity|]. destruct (Nat.eq_dec k id) as [->|N]; [rewrite tset_same, TI; reflexivity|rewrite tset_other by exact N; reflexivity].
      * exists [id]. reflexivity.
  - destruct VM as [X|[X|[z X]]]; try congruence. assert (r = RPop z) by congruence. subst r. assert (B : b = SIdle) by congruence. destruct z as [id|].
    + assert (TI : T id = LHeld w) by (apply HT; exact X).
      assert (OTH : forall k p, p <> LHeld w -> p <> LRun w 0 -> (tset T id (LRun w 0) k = p <-> T k = p)).
      { intros k p N1 N2. destruct (Nat.eq_dec k id) as [->|N]; [rewrite tset_same, TI; split; congruence|rewrite tset_other by exact N; tauto]. }
      apply (R q (tset T id (LRun w 0)) (WRun id 0) [EStart id]); auto; try (intros; apply OTH; congruence).
      * right; right. eauto.
      * intros k. rewrite OTH by discriminate. apply QT.
      * intros k. rewrite B. destruct (Nat.eq_dec k id) as [->|N]; [rewrite tset_same; split; discriminate|]. rewrite tset_other by exact N. rewrite HT. split; congruence.
      * intros k j. destruct (Nat.eq_dec k id) as [->|N]; [rewrite tset_same; split; intros Z; inversion Z; reflexivity|]. rewrite tset_other by exact N. split; [intros Z; destruct (RT k j Z)|congruence].
      * intros k. cbn [filter about]. rewrite (Nat.eqb_sym id k). destruct (Nat.eq_dec k id) as [->|N]; [right; rewrite Nat.eqb_refl, tset_same, TI; reflexivity|left; rewrite (proj2 (Nat.eqb_neq k id) N), tset_other by exact N; split; reflexivity].
      * exists []. reflexivity.
    + apply STAY; [reflexivity|right; auto|intros k; split; congruence].
  - assert (oo = QPop) by (destruct VM as [X|[X|[z X]]]; congruence). subst oo. assert (B : b = SIdle) by congruence. inversion SE; clear SE; subst.
    + apply STAY; [reflexivity|right; auto|intros k; split; congruence].
    + rename v into id. assert (TI : T id = LQueue) by (apply QT; left; reflexivity). inversion ND as [|? ? NI ND']; subst.
      assert (OTH : forall k p, p <> LQueue -> p <> LRun w 0 -> (tset T id (LRun w 0) k = p <-> T k = p)).
      { intros k p N1 N2. destruct (Nat.eq_dec k id) as [->|N]; [rewrite tset_same, TI; split; congruence|rewrite tset_other by exact N; tauto]. }
      apply (R q' (tset T id (LRun w 0)) (WRun id 0) [EStart id]); auto; try (intros; apply OTH; congruence).
      * right; right. eauto.
      * intros k. destruct (Nat.eq_dec k id) as [->|N]; [rewrite tset_same; split; [discriminate|tauto]|]. rewrite tset_other by exact N. rewrite QT. cbn. split; [intros [X|X]; congruence|auto].
      * intros k. rewrite B. destruct (Nat.eq_dec k id) as [->|N]; [rewrite tset_same; split; discriminate|]. rewrite tset_other by exact N. rewrite HT. split; congruence.
      * intros k j. destruct (Nat.eq_dec k id) as [->|N]; [rewrite tset_same; split; intros Z; inversion Z; reflexivity|]. rewrite tset_other by exact N. split; [intros Z; destruct (RT k j Z)|congruence].
      * intros k. cbn [filter about]. rewrite (Nat.eqb_sym id k). destruct (Nat.eq_dec k id) as [->|N]; [right; rewrite Nat.eqb_refl, tset_same, TI; reflexivity|left; rewrite (proj2 (Nat.eqb_neq k id) N), tset_other by exact N; split; reflexivity].
      * exists [id]. reflexivity.
Qed.
End P.
