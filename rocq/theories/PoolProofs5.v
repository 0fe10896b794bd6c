(** Consequences of the pool's invariant for histories. *)
From Coq Require Import List ZArith Bool Lia Arith.
From Verif Require Import Base QueueSpec QueueModel QueueProofs QueueProofs2 QueueProofs3 QueueProofs4 PoolSpec PoolModel PoolProofs PoolProofs2 PoolProofs3 PoolProofs4.
Import ListNotations.

Section P.
Context {M : Type} (m0 : M).
Implicit Types (s : pst M) (H : list (pev M)).

(** * calls and phases *)
Definition mcall (p : mpc) : option call :=
  match p with MIdle | MGone => None | MPush id => Some (CAdd id) | MNum => Some CNum | MWait _ => Some CWait | MSpawn _ _ => Some CLaunch | MJoin _ false => Some CStop | MJoin _ true => Some CDestroy end.
Definition phinv s H : Prop := calling H = mcall (p_main s) /\
  match p_main s with
  | MSpawn k i => phase_of H = Up k /\ i <= k
  | MJoin _ _ => True
  | _ => match phase_of H with Down => p_run s = false /\ p_nthr s = 0 | Up k => p_run s = true /\ p_nthr s = k | Broken => p_run s = false end
  end.
Lemma calling_app H e : calling (H ++ e) = fold_left calls e (calling H).
Proof. apply fold_left_app. Qed.
Lemma phase_app H e : phase_of (H ++ e) = fold_left phases e (phase_of H).
Proof. apply fold_left_app. Qed.
Lemma phinv_step debug x s q L H T : pinv m0 s q L H T -> phinv s H -> match p_step debug x s with PStep s' e => phinv s' (H ++ e) | _ => True end.
Proof.
  intros I [C P]. assert (NIL : H ++ [] = H) by apply app_nil_r. pose proof (v_join _ _ _ _ _ _ I) as J. destruct x as [o tmo|w]; cbn [p_step].
  - unfold main_step. destruct (p_main s) as [|id| |l|k i|i d|] eqn:EM.
    + destruct o as [b| |k| | |]; try (unfold phinv; rewrite calling_app, phase_app, C; cbn; auto).
      * destruct (p_run s) eqn:ER.
        -- destruct debug; [exact Logic.I|]. unfold phinv. rewrite calling_app, phase_app, C, EM. cbn. split; [reflexivity|]. destruct (phase_of H); rewrite ?ER in *; tauto || (destruct P; discriminate) || discriminate.
        -- destruct (p_nthr s) eqn:EN; [|exact Logic.I]. unfold phinv. rewrite calling_app, phase_app, C. cbn. split; [reflexivity|]. split; [|lia]. destruct (phase_of H); auto. destruct P; discriminate.
      * destruct (p_run s) eqn:ER.
        -- unfold phinv. rewrite calling_app, phase_app, C. cbn. auto.
        -- destruct (p_nthr s) eqn:EN; [|exact Logic.I]. unfold phinv. rewrite calling_app, phase_app, C. cbn. auto.
    + destruct (q_step 0 (QPush id) (p_q s)) as [| |qs [[t oo|t r]|]]; try exact Logic.I; unfold phinv; cbn; rewrite ?NIL, ?EM; auto. rewrite calling_app, phase_app. cbn. auto.
    + destruct (q_step 0 QSize (p_q s)) as [| |qs [[t oo|t r]|]]; try exact Logic.I; unfold phinv; cbn; rewrite ?NIL, ?EM; auto. destruct r; cbn; rewrite ?NIL, ?EM; auto. rewrite calling_app, phase_app. cbn. auto.
    + destruct l as [|f r]; [unfold phinv; rewrite calling_app, phase_app; cbn; auto|]. destruct (isdone s f); [unfold phinv; cbn; rewrite NIL; auto|]. destruct tmo; [|exact Logic.I]. unfold phinv. rewrite calling_app, phase_app, C. cbn. auto.
    + destruct (Nat.ltb_spec i k); [destruct (Nat.ltb i (length (p_w s)))|].
      * unfold phinv. cbn. rewrite NIL. destruct P. split; [auto|]. split; [auto|lia].
      * unfold phinv. rewrite calling_app, phase_app. cbn. auto.
      * unfold phinv. rewrite calling_app, phase_app. cbn. destruct P as [-> P]. destruct J as [J1 J2]. split; [reflexivity|]. split; [exact J2|lia].
    + destruct (Nat.ltb_spec i (p_nthr s)).
      * destruct (nth_error (p_w s) i) as [[]|]; try exact Logic.I. unfold phinv. cbn. rewrite NIL. destruct d; auto.
      * destruct J as [J1 J2]. destruct d; unfold phinv; rewrite calling_app, phase_app; cbn; auto.
    + exact Logic.I.
  - assert (K : forall s' e, p_main s' = p_main s -> p_run s' = p_run s -> p_nthr s' = p_nthr s -> fold_left calls e (calling H) = calling H -> fold_left phases e (phase_of H) = phase_of H -> phinv s' (H ++ e)).
    { intros s' e E1 E2 E3 E4 E5. unfold phinv. rewrite calling_app, phase_app, E4, E5, E1, E2, E3. auto. }
    unfold work_step. destruct (nth_error (p_w s) w) as [[| | |id j|]|]; try exact Logic.I.
    + apply K; reflexivity.
    + destruct (q_step (S w) QPop (p_q s)) as [| |qs [[t oo|t r]|]]; try exact Logic.I; try (apply K; reflexivity). destruct r as [| [id|] | |]; apply K; reflexivity.
    + destruct (nth_error (p_bodies s) id) as [b|]; [|exact Logic.I]. destruct (nth_error b j); apply K; reflexivity.
Qed.
Definition ok s H : Prop := (exists q L T, pinv m0 s q L H T) /\ phinv s H.
Lemma ok_init W : ok (p_init W m0) [].
Proof. split; [exists [], [], (fun _ => LNone); apply inv_pi|]. split; [reflexivity|]. cbn. auto. Qed.
Lemma ok_step debug x s H : ok s H -> match p_step debug x s with PBad => False | PStep s' e => ok s' (H ++ e) | _ => True end.
Proof.
  intros [(q & L & T & I) P]. pose proof (step_pinv m0 debug x s q L H T I) as A. pose proof (phinv_step debug x s q L H T I P) as B.
  destruct (p_step debug x s); cbn [pgoal] in A; auto. split; auto.
Qed.
Lemma ok_exec debug sched : forall s H, ok s H -> match p_exec debug sched s with Ok (e, s') => ok s' (H ++ e) | Abort => True | _ => False end.
Proof.
  induction sched as [|x r IH]; intros s H I; cbn [p_exec]; [rewrite app_nil_r; exact I|].
  pose proof (ok_step debug x s H I) as G. destruct (p_step debug x s) as [| | |s' e]; auto; [apply IH; exact I|]. specialize (IH _ _ G). destruct (p_exec debug r s') as [[e' s'']| | | | |]; cbn; auto. rewrite app_assoc. exact IH.
Qed.
(** the step that produces an event *)
Lemma exec_split debug sched : forall s H s' H1 e H2, p_exec debug sched s = Ok (H, s') -> H = H1 ++ e :: H2 ->
  exists r1 x r2 H0 s1 s2 e1 e2 H3, sched = r1 ++ x :: r2 /\ p_exec debug r1 s = Ok (H0, s1) /\ p_step debug x s1 = PStep s2 (e1 ++ e :: e2) /\ H1 = H0 ++ e1 /\ p_exec debug r2 s2 = Ok (H3, s') /\ H2 = e2 ++ H3.
Proof.
  induction sched as [|x r IH]; intros s H s' H1 e H2 E EH; cbn [p_exec] in E.
  - inversion E; subst. destruct H1; discriminate.
  - destruct (p_step debug x s) as [| | |s1 ev] eqn:S; try discriminate.
    + destruct (IH _ _ _ _ _ _ E EH) as (r1 & y & r2 & H0 & a & b & e1 & e2 & H3 & Q1 & Q2 & Q3 & Q4 & Q5 & Q6). exists (x :: r1), y, r2, H0, a, b, e1, e2, H3. subst r. cbn [p_exec]. rewrite S. repeat split; auto.
    + destruct (p_exec debug r s1) as [[H' s'']| | | | |] eqn:E'; cbn in E; try discriminate. injection E as E1 E2. subst s''. assert (EQ : ev ++ H' = H1 ++ e :: H2) by congruence. clear EH E1.
      assert (CS : (exists e2, ev = H1 ++ e :: e2 /\ H2 = e2 ++ H') \/ exists H1', H1 = ev ++ H1' /\ H' = H1' ++ e :: H2).
      { clear - EQ. revert H1 EQ. induction ev as [|y ev IH]; intros H1 EQ; [right; exists H1; auto|]. destruct H1 as [|z H1]; cbn in EQ; inversion EQ; subst.
        - left. exists ev. auto.
        - destruct (IH _ H3) as [(e2 & -> & ->)|(H1' & -> & ->)]; [left; exists e2; auto|right; exists H1'; auto]. }
      destruct CS as [(e2 & -> & ->)|(H1' & -> & ->)].
      * exists [], x, r, [], s, s1, H1, e2, H'. repeat split; auto.
      * destruct (IH _ _ _ _ _ _ E' eq_refl) as (r1 & y & r2 & H0 & a & b & e1 & e2 & H3 & Q1 & Q2 & Q3 & Q4 & Q5 & Q6). exists (x :: r1), y, r2, (ev ++ H0), a, b, e1, e2, H3. subst r H1'. cbn [p_exec]. rewrite S, Q2. cbn. rewrite app_assoc. repeat split; auto.
Qed.
(** where an abort comes from *)
Lemma exec_abort debug sched : forall s, p_exec debug sched s = Abort -> exists r1 x r2 H s1, sched = r1 ++ x :: r2 /\ p_exec debug r1 s = Ok (H, s1) /\ p_step debug x s1 = PDie.
Proof.
  induction sched as [|x r IH]; intros s E; cbn [p_exec] in E; [discriminate|]. destruct (p_step debug x s) as [| | |s1 ev] eqn:S; try discriminate.
  - destruct (IH _ E) as (r1 & y & r2 & H & s2 & -> & Q2 & Q3). exists (x :: r1), y, r2, H, s2. cbn [p_exec]. rewrite S. auto.
  - exists [], x, r, [], s. auto.
  - destruct (p_exec debug r s1) as [[H' s'']| | | | |] eqn:E'; cbn in E; try discriminate. destruct (IH _ E') as (r1 & y & r2 & H & s2 & -> & Q2 & Q3). exists (x :: r1), y, r2, (ev ++ H), s2. cbn [p_exec]. rewrite S, Q2. auto.
Qed.
Lemma die_cases debug x s H : ok s H -> p_step debug x s = PDie -> exists o tmo, x = Main o tmo /\ calling H = None /\
  ((exists k n, o = PLaunch k /\ debug = true /\ phase_of H = Up n) \/ (phase_of H = Broken /\ ((exists k, o = PLaunch k) \/ o = PDestroy))).
Proof.
  intros [(q & L & T & I) [C P]] D. destruct x as [o tmo|w]; cbn [p_step] in D.
  - exists o, tmo. split; [reflexivity|]. unfold main_step in D. destruct (p_main s) as [|id| |l|k i|i d|] eqn:EM.
    + split; [exact C|]. destruct o as [b| |k| | |]; try discriminate.
      * destruct (p_run s) eqn:ER.
        -- destruct debug; [|discriminate]. left. destruct (phase_of H) as [|n|]; [destruct P; discriminate| |discriminate]. eauto 6.
        -- destruct (p_nthr s) eqn:EN; [discriminate|]. right. destruct (phase_of H) as [|n'|]; [destruct P; discriminate|destruct P; discriminate|]. eauto.
      * destruct (p_run s) eqn:ER; [discriminate|]. destruct (p_nthr s) eqn:EN; [discriminate|]. right. destruct (phase_of H) as [|n'|]; [destruct P; discriminate|destruct P; discriminate|]. eauto.
    + destruct (q_step 0 (QPush id) (p_q s)) as [| |qs [[t oo|t r]|]]; discriminate.
    + destruct (q_step 0 QSize (p_q s)) as [| |qs [[t oo|t []]|]]; discriminate.
    + destruct l as [|f r]; [discriminate|]. destruct (isdone s f); [discriminate|]. destruct tmo; discriminate.
    + destruct (Nat.ltb i k); [destruct (Nat.ltb i (length (p_w s)))|]; discriminate.
    + destruct (Nat.ltb i (p_nthr s)); [destruct (nth_error (p_w s) i) as [[]|]; discriminate|]. destruct d; discriminate.
    + discriminate.
  - exfalso. unfold work_step in D. destruct (nth_error (p_w s) w) as [[| | |id j|]|]; try discriminate.
    + destruct (q_step (S w) QPop (p_q s)) as [| |qs [[t oo|t [| [id|] | |]]|]]; discriminate.
    + destruct (nth_error (p_bodies s) id) as [b|]; [|discriminate]. destruct (nth_error b j); discriminate.
Qed.

(** * tasks *)
Lemma place_dec (p : place) : p = LNone \/ p = LMain \/ p = LQueue \/ (exists w, p = LHeld w) \/ (exists w j, p = LRun w j) \/ p = LFin.
Proof. destruct p; eauto 8. Qed.
Lemma in_hist s q L H T id e : pinv m0 s q L H T -> about id e = true -> (In e H <-> In e (past id (body_of s id) (T id))).
Proof. intros I A. rewrite <- (v_hist _ _ _ _ _ _ I id), filter_In. tauto. Qed.
Lemma past_prefix id b p : (forall w j, p = LRun w j -> j <= length b) -> prefix (past id b p) (life id b : list (pev M)).
Proof.
  intros J. unfold prefix, life. destruct p as [| | | |w' j'|]; cbn [past].
  - eexists; reflexivity.
  - exists (EStart id :: map (EAct id) (seq 0 (length b)) ++ [EFin id]). reflexivity.
  - exists (EStart id :: map (EAct id) (seq 0 (length b)) ++ [EFin id]). reflexivity.
  - exists (EStart id :: map (EAct id) (seq 0 (length b)) ++ [EFin id]). reflexivity.
  - exists (map (EAct id) (seq j' (length b - j')) ++ [EFin id]). pose proof (J w' j' eq_refl). cbn. rewrite app_assoc, <- map_app. change (seq j') with (seq (0 + j')). rewrite <- seq_app. replace (j' + (length b - j')) with (length b) by lia. reflexivity.
  - exists []. rewrite app_nil_r. reflexivity.
Qed.
Lemma prefix_hist s q L H T id : pinv m0 s q L H T -> (id < length (added H) -> prefix (filter (about id) H) (life id (nth id (added H) []))) /\ (length (added H) <= id -> filter (about id) H = []).
Proof.
  intros I. rewrite (v_added _ _ _ _ _ _ I), (v_hist _ _ _ _ _ _ I id). split; intros J.
  - apply past_prefix. intros w j. apply I.
  - apply (v_none _ _ _ _ _ _ I) in J. rewrite J. reflexivity.
Qed.
Lemma fin_hist s q L H T id : pinv m0 s q L H T -> (In (EFin id) H <-> T id = LFin).
Proof.
  intros I. rewrite (in_hist s q L H T id (EFin id) I) by (cbn; apply Nat.eqb_refl).
  destruct (T id); cbn [past life]; split; intros X; try discriminate; auto; try (exfalso; destruct X as [X|[]]; discriminate).
  - destruct X.
  - exfalso. destruct X as [X|[X|X]]; try discriminate. apply in_map_iff in X. destruct X as (y & X & _). discriminate.
  - clear X. right. right. apply in_or_app. right. left. reflexivity.
Qed.
Lemma start_hist s q L H T id : pinv m0 s q L H T -> (In (EStart id) H <-> (exists w j, T id = LRun w j) \/ T id = LFin).
Proof.
  intros I. rewrite (in_hist s q L H T id (EStart id) I) by (cbn; apply Nat.eqb_refl).
  destruct (T id); cbn [past life]; split; intros X; try (destruct X as [(? & ? & X)|X]; discriminate); auto; try (exfalso; destruct X as [X|[]]; discriminate).
  - destruct X.
  - left. eauto.
  - right. left. reflexivity.
  - right. left. reflexivity.
Qed.
(** a step that makes Wait return *)
Lemma waited_step debug x s q L H T s' e1 e2 id : pinv m0 s q L H T -> p_step debug x s = PStep s' (e1 ++ EWaited :: e2) -> id < length (added (H ++ e1)) -> ~ In (ETimeout id) (H ++ e1) -> In (EFin id) (H ++ e1).
Proof.
  intros I S J N. assert (EM : p_main s = MWait [] /\ e1 = []).
  { destruct x as [o tmo|w]; cbn [p_step] in S.
    - unfold main_step in S. destruct (p_main s) as [|i| |l|k i|i d|].
      + destruct o as [b| |k| | |]; repeat match type of S with context[match ?x with _ => _ end] => destruct x end; try discriminate; inversion S as [[E0 E]]; destruct e1 as [|? [|? [|? ?]]]; discriminate.
      + destruct (q_step 0 (QPush i) (p_q s)) as [| |qs [[t oo|t r]|]]; try discriminate; inversion S as [[E0 E]]; destruct e1 as [|? [|? [|? ?]]]; discriminate.
      + destruct (q_step 0 QSize (p_q s)) as [| |qs [[t oo|t []]|]]; try discriminate; inversion S as [[E0 E]]; destruct e1 as [|? [|? [|? ?]]]; discriminate.
      + destruct l as [|f r]; [split; auto; inversion S as [[E0 E]]; destruct e1 as [|? [|? [|? ?]]]; auto; discriminate|]. destruct (isdone s f); [|destruct tmo; [|discriminate]]; inversion S as [[E0 E]]; destruct e1 as [|? [|? [|? ?]]]; discriminate.
      + destruct (Nat.ltb i k); [destruct (Nat.ltb i (length (p_w s)))|]; inversion S as [[E0 E]]; destruct e1 as [|? [|? [|? ?]]]; discriminate.
      + destruct (Nat.ltb i (p_nthr s)); [destruct (nth_error (p_w s) i) as [[]|]|destruct d]; try discriminate; inversion S as [[E0 E]]; destruct e1 as [|? [|? [|? ?]]]; discriminate.
      + discriminate.
    - unfold work_step in S. destruct (nth_error (p_w s) w) as [[| | |i j|]|]; try discriminate.
      + inversion S as [[E0 E]]; destruct e1 as [|? [|? [|? ?]]]; discriminate.
      + destruct (q_step (Datatypes.S w) QPop (p_q s)) as [| |qs [[t oo|t [| [i|] | |]]|]]; try discriminate; inversion S as [[E0 E]]; destruct e1 as [|? [|? [|? ?]]]; discriminate.
      + destruct (nth_error (p_bodies s) i) as [b|]; [|discriminate]. destruct (nth_error b j); inversion S as [[E0 E]]; destruct e1 as [|? [|? [|? ?]]]; discriminate. }
  destruct EM as [EM ->]. rewrite app_nil_r in *. rewrite (v_added _ _ _ _ _ _ I) in J. apply (fin_hist _ _ _ _ _ _ I).
  pose proof (v_wait _ _ _ _ _ _ I) as [A B]. rewrite EM in B. destruct (A id J) as [X|[X|X]]; [|exact X|tauto]. destruct (B id X) as [[]|[Y|Y]]; tauto.
Qed.
(** a step that makes StopThreads return *)
Lemma stopped_step debug x s s' e1 e2 : p_step debug x s = PStep s' (e1 ++ EStopped :: e2) -> exists i, p_main s = MJoin i false /\ p_nthr s <= i /\ e1 = [] /\ e2 = [] /\ s' = set_main (set_nthr s 0) MIdle.
Proof.
  intros S. destruct x as [o tmo|w]; cbn [p_step] in S.
  - unfold main_step in S. destruct (p_main s) as [|i| |l|k i|i d|].
    + exfalso. destruct o as [b| |k| | |]; repeat match type of S with context[match ?x with _ => _ end] => destruct x end; try discriminate; inversion S as [[E0 E]]; destruct e1 as [|? [|? [|? ?]]]; discriminate.
    + exfalso. destruct (q_step 0 (QPush i) (p_q s)) as [| |qs [[t oo|t r]|]]; try discriminate; inversion S as [[E0 E]]; destruct e1 as [|? [|? [|? ?]]]; discriminate.
    + exfalso. destruct (q_step 0 QSize (p_q s)) as [| |qs [[t oo|t []]|]]; try discriminate; inversion S as [[E0 E]]; destruct e1 as [|? [|? [|? ?]]]; discriminate.
    + exfalso. destruct l as [|f r]; [inversion S as [[E0 E]]; destruct e1 as [|? [|? [|? ?]]]; discriminate|]. destruct (isdone s f); [|destruct tmo; [|discriminate]]; inversion S as [[E0 E]]; destruct e1 as [|? [|? [|? ?]]]; discriminate.
    + exfalso. destruct (Nat.ltb i k); [destruct (Nat.ltb i (length (p_w s)))|]; inversion S as [[E0 E]]; destruct e1 as [|? [|? [|? ?]]]; discriminate.
    + destruct (Nat.ltb_spec i (p_nthr s)); [exfalso; destruct (nth_error (p_w s) i) as [[]|]; try discriminate; inversion S as [[E0 E]]; destruct e1 as [|? [|? [|? ?]]]; discriminate|].
      destruct d; inversion S as [[E0 E]]; [exfalso; destruct e1 as [|? [|? [|? ?]]]; discriminate|]. exists i. destruct e1 as [|? [|? ?]]; inversion E; auto.
    + discriminate.
  - exfalso. unfold work_step in S. destruct (nth_error (p_w s) w) as [[| | |i j|]|]; try discriminate.
    + inversion S as [[E0 E]]; destruct e1 as [|? [|? [|? ?]]]; discriminate.
    + destruct (q_step (Datatypes.S w) QPop (p_q s)) as [| |qs [[t oo|t [| [i|] | |]]|]]; try discriminate; inversion S as [[E0 E]]; destruct e1 as [|? [|? [|? ?]]]; discriminate.
    + destruct (nth_error (p_bodies s) i) as [b|]; [|discriminate]. destruct (nth_error b j); inversion S as [[E0 E]]; destruct e1 as [|? [|? [|? ?]]]; discriminate.
Qed.
(** without workers every task is finished, queued, or being added *)
Lemma off_places s q L H T : pinv m0 s q L H T -> (forall w, wk s w = WOff) -> forall id, id < length (p_bodies s) -> T id = LFin \/ T id = LQueue \/ T id = LMain.
Proof.
  intros I OFF id J. destruct (place_dec (T id)) as [X|[X|[X|[(w & X)|[(w & j & X)|X]]]]]; auto; exfalso.
  - apply (v_none _ _ _ _ _ _ I) in X. lia.
  - apply (v_held _ _ _ _ _ _ I) in X. pose proof (v_work _ _ _ _ _ _ I w) as V. rewrite OFF in V. congruence.
  - apply (v_run _ _ _ _ _ _ I) in X. rewrite OFF in X. discriminate.
Qed.
Lemma joined_off s q L H T i d : pinv m0 s q L H T -> p_main s = MJoin i d -> p_nthr s <= i -> forall w, wk s w = WOff.
Proof.
  intros I EM N w. destruct (wk s w) eqn:E; auto; exfalso; (assert (X : wk s w <> WOff) by congruence; pose proof (v_off _ _ _ _ _ _ I w X) as Y; pose proof (v_on _ _ _ _ _ _ I w Y) as Z; rewrite EM in Z; apply Z in X; lia).
Qed.
Lemma fifo_places s q L H T id id' : pinv m0 s q L H T -> id < id' -> T id = LQueue -> T id' = LQueue \/ T id' = LMain \/ T id' = LNone.
Proof.
  intros I Lt X. destruct (v_fifo _ _ _ _ _ _ I) as (k & F1 & F2 & F3 & F4). apply (v_queue _ _ _ _ _ _ I) in X. rewrite F1 in X. apply in_seq in X.
  destruct (Nat.lt_ge_cases id' (k + length q)) as [Y|Y]; [|destruct (F4 id' Y); auto]. left. apply (v_queue _ _ _ _ _ _ I). rewrite F1. apply in_seq. lia.
Qed.
(** the number of tasks that have not started *)
Lemma waiting_len s q L H T : pinv m0 s q L H T -> (forall w, wk s w = WOff) -> (forall id, T id <> LMain) -> waiting H = length q.
Proof.
  intros I OFF NM. unfold waiting. rewrite (v_added _ _ _ _ _ _ I). apply Permutation.Permutation_length, Permutation.NoDup_Permutation.
  - apply NoDup_filter, seq_NoDup.
  - apply I.
  - intros id. rewrite filter_In, in_seq, <- (v_queue _ _ _ _ _ _ I). split.
    + intros [J N]. destruct (off_places s q L H T I OFF id) as [X|[X|X]]; [lia| |exact X|destruct (NM id X)]. exfalso.
      assert (Y : In (EStart id) H) by (apply (start_hist _ _ _ _ _ _ I); auto). apply negb_true_iff in N. rewrite <- not_true_iff_false in N. apply N, existsb_exists. exists (EStart id). split; [exact Y|apply Nat.eqb_refl].
    + intros X. split.
      * split; [lia|]. destruct (Nat.lt_ge_cases id (length (p_bodies s))) as [|Y]; [lia|]. apply (v_none _ _ _ _ _ _ I) in Y. congruence.
      * apply negb_true_iff. rewrite <- not_true_iff_false. intros Y. apply existsb_exists in Y. destruct Y as (e & Y & E). destruct e; try discriminate. apply Nat.eqb_eq in E. subst. apply (start_hist _ _ _ _ _ _ I) in Y. destruct Y as [(w & j & Y)|Y]; congruence.
Qed.
End P.
