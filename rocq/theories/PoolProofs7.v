(** The pool never gets stuck, continued: workers, Wait, StopThreads. *)
From Coq Require Import List ZArith Bool Lia Arith.
From Verif Require Import Base QueueSpec QueueModel QueueProofs QueueProofs2 QueueProofs3 QueueProofs4 PoolSpec PoolModel PoolProofs PoolProofs2 PoolProofs3 PoolProofs4 PoolProofs5 PoolProofs6.
Import ListNotations.

Section P.
Context {M : Type} (m0 : M) (debug : bool).
Implicit Types (s : pst M) (H : list (pev M)).
Definition patient (sched : list (move M)) : Prop := forall o tmo, In (Main o tmo) sched -> tmo = false.
Lemma patient_app a b : patient a -> patient b -> patient (a ++ b).
Proof. intros A B o t J. apply in_app_or in J. destruct J; eauto. Qed.
Lemma patient_work w n : patient (repeat (Work w) n).
Proof. intros o t J. apply repeat_spec in J. discriminate. Qed.
Lemma patient_main o n : patient (repeat (Main o false) n).
Proof. intros o' t J. apply repeat_spec in J. congruence. Qed.
Lemma patient_step x s s' e : (forall o tmo, x = Main o tmo -> tmo = false) -> p_step debug x s = PStep s' e -> no_timeout e.
Proof.
  intros P S id J. destruct x as [o tmo|w]; cbn [p_step] in S.
  - rewrite (P o tmo eq_refl) in S. unfold main_step in S. destruct (p_main s) as [|i| |l|k i|i d|].
    + destruct o as [b| |k| | |]; repeat match type of S with context[match ?x with _ => _ end] => destruct x end; try discriminate; inversion S as [[E0 E]]; subst; repeat (destruct J as [J|J]; try discriminate); destruct J.
    + destruct (q_step 0 (QPush i) (p_q s)) as [| |qs [[t oo|t r]|]]; try discriminate; inversion S as [[E0 E]]; subst; repeat (destruct J as [J|J]; try discriminate); destruct J.
    + destruct (q_step 0 QSize (p_q s)) as [| |qs [[t oo|t []]|]]; try discriminate; inversion S as [[E0 E]]; subst; repeat (destruct J as [J|J]; try discriminate); destruct J.
    + destruct l as [|f r]; [|destruct (isdone s f); [|discriminate]]; inversion S as [[E0 E]]; subst; repeat (destruct J as [J|J]; try discriminate); destruct J.
    + destruct (Nat.ltb i k); [destruct (Nat.ltb i (length (p_w s)))|]; inversion S as [[E0 E]]; subst; repeat (destruct J as [J|J]; try discriminate); destruct J.
    + destruct (Nat.ltb i (p_nthr s)); [destruct (nth_error (p_w s) i) as [[]|]|destruct d]; try discriminate; inversion S as [[E0 E]]; subst; repeat (destruct J as [J|J]; try discriminate); destruct J.
    + discriminate.
  - unfold work_step in S. destruct (nth_error (p_w s) w) as [[| | |i j|]|]; try discriminate.
    + inversion S as [[E0 E]]; subst; destruct J.
    + destruct (q_step (Datatypes.S w) QPop (p_q s)) as [| |qs [[t oo|t [| [i|] | |]]|]]; try discriminate; inversion S as [[E0 E]]; subst; repeat (destruct J as [J|J]; try discriminate); destruct J.
    + destruct (nth_error (p_bodies s) i) as [b|]; [|discriminate]. destruct (nth_error b j); inversion S as [[E0 E]]; subst; repeat (destruct J as [J|J]; try discriminate); destruct J.
Qed.
Lemma patient_exec sched : forall s H s', patient sched -> p_exec debug sched s = Ok (H, s') -> no_timeout H.
Proof.
  induction sched as [|x r IH]; intros s H s' P E; cbn [p_exec] in E; [inversion E; subst; intros id []|].
  assert (P' : patient r) by (intros o t J; apply (P o t); right; exact J). destruct (p_step debug x s) as [| | |s1 e] eqn:S; try discriminate; [eapply IH; eauto|].
  destruct (p_exec debug r s1) as [[H' s'']| | | | |] eqn:E'; cbn in E; try discriminate. inversion E; subst. intros id J. apply in_app_or in J. destruct J as [J|J]; [|apply (IH _ _ _ P' E' id J)].
  apply (patient_step x s s1 e) with (id := id); auto. intros o t ->. apply (P o t). left. reflexivity.
Qed.

(** [reach s s']: some patient schedule leads from [s] to [s'] *)
Definition reach s s' : Prop := exists sched e, patient sched /\ p_exec debug sched s = Ok (e, s').
Lemma reach_refl s : reach s s.
Proof. exists [], []. split; [intros ? ? []|reflexivity]. Qed.
Lemma reach_trans s s1 s2 : reach s s1 -> reach s1 s2 -> reach s s2.
Proof.
  intros (a & e & A1 & A2) (b & f & B1 & B2). exists (a ++ b), (e ++ f). split; [apply patient_app; auto|]. rewrite (exec_app debug a b s e s1 A2), B2. reflexivity.
Qed.
Lemma reach_step x s s' e : (forall o tmo, x = Main o tmo -> tmo = false) -> p_step debug x s = PStep s' e -> reach s s'.
Proof. intros P S. exists [x], e. split; [intros o t [->|[]]; apply (P o t eq_refl)|]. cbn [p_exec]. rewrite S. cbn. rewrite app_nil_r. reflexivity. Qed.
Lemma reach_ok s H s' : ok m0 s H -> reach s s' -> exists H', ok m0 s' H'.
Proof. intros O (a & e & _ & A). pose proof (ok_exec m0 debug a s H O) as X. rewrite A in X. eauto. Qed.

Definition still s : Prop := forall t, at_ (q_pcs (p_q s)) t = Idle.
Lemma set_w_main s w p : p_main (set_w s w p) = p_main s. Proof. reflexivity. Qed.
Lemma wk_nth s w p : wk s w = p -> p <> WOff -> nth_error (p_w s) w = Some p.
Proof. intros E N. unfold wk in E. destruct (nth_error (p_w s) w) as [x|] eqn:X; [apply nth_error_nth with (d := WOff) in X; congruence|]. apply nth_error_None in X. rewrite nth_overflow in E by exact X. congruence. Qed.

(** a worker alone in the queue *)
Lemma drive_pop w r q' qs : runs (S w) QPop qs (RPop r) q' -> forall s, p_q s = qs -> nth_error (p_w s) w = Some WPop ->
  reach s (set_w (set_q s q') w (match r with Some id => WRun id 0 | None => WCheck end)).
Proof.
  intros R. remember (RPop r) as rr eqn:Er. induction R as [qs rr q' S|qs q1 rr q' S R IH]; intros s E N; subst.
  - destruct r; (eapply (reach_step (Work w)); [intros; discriminate|]; cbn [p_step]; unfold work_step; rewrite N, S; reflexivity).
  - eapply reach_trans; [|apply (IH eq_refl (set_q s q1)); [reflexivity|exact N]]. eapply (reach_step (Work w)); [intros; discriminate|]. cbn [p_step]. unfold work_step. rewrite N, S. reflexivity.
Qed.
Lemma drive_push id r q' qs : runs 0 (QPush id) qs r q' -> forall s, p_q s = qs -> p_main s = MPush id -> reach s (set_main (set_q s q') MIdle).
Proof.
  intros R. induction R as [qs rr q' S|qs q1 rr q' S R IH]; intros s E N; subst.
  - eapply (reach_step (Main PWait false)); [intros o t X; congruence|]. cbn [p_step]. unfold main_step. rewrite N, S. reflexivity.
  - eapply reach_trans; [|apply (IH (set_q s q1)); [reflexivity|exact N]]. eapply (reach_step (Main PWait false)); [intros o t X; congruence|]. cbn [p_step]. unfold main_step. rewrite N, S. reflexivity.
Qed.
Lemma drive_num r q' qs : runs 0 QSize qs (RSize r) q' -> forall s, p_q s = qs -> p_main s = MNum -> reach s (set_main (set_q s q') MIdle).
Proof.
  intros R. remember (RSize r) as rr eqn:Er. induction R as [qs rr q' S|qs q1 rr q' S R IH]; intros s E N; subst.
  - eapply (reach_step (Main PWait false)); [intros o t X; congruence|]. cbn [p_step]. unfold main_step. rewrite N, S. reflexivity.
  - eapply reach_trans; [|apply (IH eq_refl (set_q s q1)); [reflexivity|exact N]]. eapply (reach_step (Main PWait false)); [intros o t X; congruence|]. cbn [p_step]. unfold main_step. rewrite N, S. reflexivity.
Qed.
(** a worker finishes its task *)
Definition calm s s' : Prop := p_run s' = p_run s /\ p_nthr s' = p_nthr s /\ p_main s' = p_main s.
Lemma calm_refl s : calm s s. Proof. repeat split. Qed.
Lemma calm_trans s a b : calm s a -> calm a b -> calm s b.
Proof. intros (A & B & C) (D & E & F). repeat split; congruence. Qed.
Lemma run_task : forall d s H w id j, ok m0 s H -> wk s w = WRun id j -> length (body_of s id) - j <= d ->
  exists s', reach s s' /\ calm s s' /\ p_q s' = p_q s /\ p_w s' = upd w (fun _ => WCheck) (p_w s).
Proof.
  assert (U2 : forall (l : list wpc) w a b, upd w (fun _ => a) (upd w (fun _ => b) l) = upd w (fun _ => a) l) by (induction l as [|x l IHl]; intros [|w] a b; cbn; f_equal; auto).
  assert (FIN : forall s H w id j, ok m0 s H -> wk s w = WRun id j -> nth_error (body_of s id) j = None -> exists s', reach s s' /\ calm s s' /\ p_q s' = p_q s /\ p_w s' = upd w (fun _ => WCheck) (p_w s)).
  { intros s H w id j [(q & L & T & I) P] E N. assert (TI : T id = LRun w j) by (apply (v_run _ _ _ _ _ _ I); exact E).
    assert (IB : id < length (p_bodies s)) by (destruct (Nat.lt_ge_cases id (length (p_bodies s))) as [|X]; auto; apply (v_none _ _ _ _ _ _ I) in X; congruence).
    exists (add_done (set_w s w WCheck) id). split; [|repeat split]. eapply (reach_step (Work w)); [intros; discriminate|]. cbn [p_step]. unfold work_step. rewrite (wk_nth s w _ E) by discriminate.
    unfold body_of in N. destruct (nth_error (p_bodies s) id) as [b|] eqn:B; [|apply nth_error_None in B; lia]. apply nth_error_nth with (d := []) in B. rewrite B in N. rewrite N. reflexivity. }
  induction d as [|d IH]; intros s H w id j O E D.
  - eapply FIN; eauto. apply nth_error_None. lia.
  - destruct (nth_error (body_of s id) j) as [a|] eqn:N; [|eapply FIN; eauto].
    pose proof O as [(q & L & T & I) P]. assert (TI : T id = LRun w j) by (apply (v_run _ _ _ _ _ _ I); exact E).
    assert (IB : id < length (p_bodies s)) by (destruct (Nat.lt_ge_cases id (length (p_bodies s))) as [|X]; auto; apply (v_none _ _ _ _ _ _ I) in X; congruence).
    pose (s1 := set_mem (set_w s w (WRun id (S j))) (a (p_mem s))).
    assert (ST : p_step debug (Work w) s = PStep s1 [EAct id j]).
    { cbn [p_step]. unfold work_step. rewrite (wk_nth s w _ E) by discriminate. unfold body_of in N. destruct (nth_error (p_bodies s) id) as [b|] eqn:B; [|apply nth_error_None in B; lia]. apply nth_error_nth with (d := []) in B. rewrite B in N. rewrite N. reflexivity. }
    pose proof (ok_step m0 debug (Work w) s H O) as O1. rewrite ST in O1.
    assert (WL : w < length (p_w s)) by (apply nth_error_Some; rewrite (wk_nth s w _ E) by discriminate; discriminate).
    destruct (IH s1 _ w id (S j) O1) as (s' & R & C & Q & W).
    + change (wk s1 w) with (wk (set_w s w (WRun id (S j))) w). rewrite wk_set, Nat.eqb_refl. destruct (Nat.ltb_spec w (length (p_w s))); [reflexivity|lia].
    + change (body_of s1 id) with (body_of s id). assert (j < length (body_of s id)) by (apply nth_error_Some; congruence). lia.
    + exists s'. split; [eapply reach_trans; [eapply (reach_step (Work w)); [intros; discriminate|exact ST]|exact R]|]. split; [exact C|]. split; [exact Q|]. rewrite W. cbn [s1 set_mem set_w p_w]. apply U2.
Qed.
(** a worker gets back to the top of its loop; what happens to the queue *)
Definition popped (p : wpc) (q q' : list nat) : Prop := match p with WPop => match q with [] => q' = [] | _ :: r => q' = r end | _ => q' = q end.
Lemma to_check s H w q L : ok m0 s H -> still s -> inv (p_q s) q L -> (wk s w = WCheck \/ wk s w = WPop \/ exists id j, wk s w = WRun id j) ->
  exists s' q' L', reach s s' /\ calm s s' /\ still s' /\ inv (p_q s') q' L' /\ popped (wk s w) q q' /\ p_w s' = upd w (fun _ => WCheck) (p_w s).
Proof.
  assert (U2 : forall (l : list wpc) w a b, upd w (fun _ => a) (upd w (fun _ => b) l) = upd w (fun _ => a) l) by (induction l as [|x l IHl]; intros [|k] a b; cbn; f_equal; auto).
  intros O ST I [E|[E|(id & j & E)]].
  - exists s, q, L. split; [apply reach_refl|]. split; [apply calm_refl|]. rewrite E. split; [exact ST|]. split; [exact I|]. split; [reflexivity|]. pose proof (wk_nth s w _ E ltac:(discriminate)) as N. clear - N. revert w N. induction (p_w s) as [|x l IH]; intros [|w] N; cbn in *; try discriminate; [congruence|f_equal; auto].
  - pose proof (wk_nth s w _ E ltac:(discriminate)) as N. assert (WL : w < length (p_w s)) by (apply nth_error_Some; congruence). pose proof O as [(q0 & L0 & T & PI) P].
    destruct (whole_call (p_q s) q L (S w) QPop) as (s0 & r & qs & q' & L' & S0 & R & I' & AI & LE & SE); [rewrite (v_len _ _ _ _ _ _ PI); lia|exact I|exact ST|reflexivity|].
    assert (RP : exists x, r = RPop x /\ popped WPop q q') by (inversion SE; subst; eexists; split; reflexivity). destruct RP as (x & -> & POP).
    assert (R1 : reach s (set_w (set_q s qs) w (match x with Some id => WRun id 0 | None => WCheck end))).
    { eapply reach_trans; [|eapply (drive_pop w x qs s0 R (set_q s s0)); [reflexivity|exact N]]. eapply (reach_step (Work w)); [intros; discriminate|]. cbn [p_step]. unfold work_step. rewrite N, S0. reflexivity. }
    destruct x as [id|].
    + destruct (reach_ok s H _ O R1) as [H1 O1]. set (s1 := set_w (set_q s qs) w (WRun id 0)) in *.
      assert (W1 : wk s1 w = WRun id 0). { change (wk s1 w) with (wk (set_w (set_q s qs) w (WRun id 0)) w). rewrite wk_set, Nat.eqb_refl. cbn [set_q p_w]. destruct (Nat.ltb_spec w (length (p_w s))); [reflexivity|lia]. }
      destruct (run_task _ s1 H1 w id 0 O1 W1 (le_n _)) as (s' & R2 & C2 & Q2 & W2). exists s', q', L'. split; [eapply reach_trans; eauto|]. split; [exact C2|]. unfold still. rewrite Q2, E. split; [exact AI|]. split; [exact I'|]. split; [exact POP|].
      rewrite W2. cbn [s1 set_w set_q p_w]. apply U2.
    + exists (set_w (set_q s qs) w WCheck), q', L'. rewrite E. split; [exact R1|]. split; [repeat split|]. split; [exact AI|]. split; [exact I'|]. split; [exact POP|]. reflexivity.
  - destruct (run_task _ s H w id j O E (le_n _)) as (s' & R2 & C2 & Q2 & W2). exists s', q, L. unfold still. rewrite Q2, E. split; [exact R2|]. split; [exact C2|]. split; [exact ST|]. split; [exact I|]. split; [reflexivity|]. exact W2.
Qed.
(** all calls on the queue that have begun get finished *)
Definition keeps s s' : Prop := p_run s' = p_run s /\ p_nthr s' = p_nthr s /\ match p_main s with MPush _ | MNum => p_main s' = p_main s \/ p_main s' = MIdle | _ => p_main s' = p_main s end.
Lemma keeps_trans s a b : keeps s a -> keeps a b -> keeps s b.
Proof.
  intros (A & B & C) (D & E & F). split; [congruence|]. split; [congruence|]. destruct (p_main s) eqn:X; try (rewrite C in F; congruence).
  - destruct C as [C|C]; rewrite C in F; auto.
  - destruct C as [C|C]; rewrite C in F; auto.
Qed.
Lemma settle : forall d s H, total (q_pcs (p_q s)) <= d -> ok m0 s H -> exists s', reach s s' /\ keeps s s' /\ still s'.
Proof.
  induction d as [|d IH]; intros s H D O; pose proof O as [(q & L & T & I) P]; destruct (some_enabled (p_q s) q L QPop (v_q _ _ _ _ _ _ I) (v_nc _ _ _ _ _ _ I)) as [AI|(t & q1 & e & NI & S)];
   try (exists s; split; [apply reach_refl|split; [unfold keeps; destruct (p_main s); auto|exact AI]]).
  all: destruct (step_shape (p_q s) q L t QPop q1 e (v_q _ _ _ _ _ _ I) NI (v_nc _ _ _ _ _ _ I t) S) as (A & B & C & E & F); pose proof (total_upd (q_pcs (p_q s)) t (at_ (q_pcs q1) t) E) as TU; rewrite <- C in TU.
  1: lia.
  assert (K : exists x s1 ev, (forall o tmo, x = Main o tmo -> tmo = false) /\ p_step debug x s = PStep s1 ev /\ p_q s1 = q1 /\ keeps s s1).
  { destruct t as [|w].
    - pose proof (v_main _ _ _ _ _ _ I) as VM. assert (NS : st s 0 <> SIdle) by (intros X; apply NI, stat_idle, X). destruct (p_main s) as [|id| |l|k i|i d'|] eqn:EM; try (exfalso; exact (NS VM)).
      + rewrite (same_op (p_q s) 0 QPop (QPush id) NI) in S. destruct e as [[t oo|t r]|].
        * exists (Main PWait false), (set_q s q1), []. split; [congruence|]. split; [cbn [p_step]; unfold main_step; rewrite EM, S; reflexivity|]. split; [reflexivity|]. unfold keeps. rewrite EM. cbn. rewrite ?EM. auto.
        * exists (Main PWait false), (set_main (set_q s q1) MIdle), [EAdded id]. split; [congruence|]. split; [cbn [p_step]; unfold main_step; rewrite EM, S; reflexivity|]. split; [reflexivity|]. unfold keeps. rewrite EM. cbn. rewrite ?EM. auto.
        * exists (Main PWait false), (set_q s q1), []. split; [congruence|]. split; [cbn [p_step]; unfold main_step; rewrite EM, S; reflexivity|]. split; [reflexivity|]. unfold keeps. rewrite EM. cbn. rewrite ?EM. auto.
      + rewrite (same_op (p_q s) 0 QPop QSize NI) in S. assert (X : exists s1 ev, p_step debug (Main PWait false) s = PStep s1 ev /\ p_q s1 = q1 /\ keeps s s1).
        { cbn [p_step]. unfold main_step. rewrite EM, S. unfold keeps. rewrite EM. destruct e as [[t oo|t []]|]; eexists; eexists; (split; [reflexivity|]); cbn; rewrite ?EM; auto. }
        destruct X as (s1 & ev & X1 & X2 & X3). exists (Main PWait false), s1, ev. split; [congruence|]. auto.
    - pose proof (v_work _ _ _ _ _ _ I w) as VM. assert (NS : st s (Datatypes.S w) <> SIdle) by (intros X; apply NI, stat_idle, X). destruct (wk s w) eqn:EW; try (exfalso; exact (NS VM)).
      pose proof (wk_nth s w _ EW ltac:(discriminate)) as N.
      assert (X : exists s1 ev, p_step debug (Work w) s = PStep s1 ev /\ p_q s1 = q1 /\ keeps s s1).
      { cbn [p_step]. unfold work_step. rewrite N, S. unfold keeps. destruct e as [[t oo|t [| [id|] | |]]|]; eexists; eexists; (split; [reflexivity|]); cbn; destruct (p_main s); auto. }
      destruct X as (s1 & ev & X1 & X2 & X3). exists (Work w), s1, ev. split; [discriminate|]. auto. }
  destruct K as (x & s1 & ev & K1 & K2 & K3 & K4). pose proof (ok_step m0 debug x s H O) as O1. rewrite K2 in O1.
  destruct (IH s1 (H ++ ev) ltac:(rewrite K3; lia) O1) as (s' & R & KK & ST). exists s'. split; [eapply reach_trans; [eapply reach_step; eauto|exact R]|]. split; [eapply keeps_trans; eauto|exact ST].
Qed.
(** the first [n] workers get to the top of their loop *)
Definition top (p : wpc) : Prop := p = WOff \/ p = WCheck \/ p = WOver.
Lemma wk_upd s s' w p : p_w s' = upd w (fun _ => p) (p_w s) -> forall k, wk s' k = if Nat.eqb k w then (if Nat.ltb w (length (p_w s)) then p else WOff) else wk s k.
Proof. intros E k. unfold wk. rewrite E. apply upd_nth. Qed.
Lemma all_top : forall n s H q L, ok m0 s H -> still s -> inv (p_q s) q L ->
  exists s' q' L', reach s s' /\ calm s s' /\ still s' /\ inv (p_q s') q' L' /\ (forall w, w < n -> top (wk s' w)) /\ (forall w, wk s' w = wk s w \/ wk s' w = WCheck).
Proof.
  induction n as [|n IH]; intros s H q L O ST I.
  - exists s, q, L. split; [apply reach_refl|]. split; [apply calm_refl|]. split; [exact ST|]. split; [exact I|]. split; [lia|auto].
  - destruct (IH s H q L O ST I) as (s1 & q1 & L1 & R1 & C1 & S1 & I1 & T1 & W1). destruct (reach_ok s H s1 O R1) as [H1 O1].
    destruct (wk s1 n) eqn:E.
    1, 5: exists s1, q1, L1; split; [exact R1|]; split; [exact C1|]; split; [exact S1|]; split; [exact I1|]; split; [|exact W1]; intros w Lt; destruct (Nat.eq_dec w n) as [->|N]; [rewrite E; unfold top; auto|apply T1; lia].
    all: destruct (to_check s1 H1 n q1 L1 O1 S1 I1 ltac:(rewrite E; eauto)) as (s2 & q2 & L2 & R2 & C2 & S2 & I2 & _ & W2); exists s2, q2, L2; split; [eapply reach_trans; eauto|]; split; [eapply calm_trans; eauto|]; split; [exact S2|]; split; [exact I2|];
      assert (WL : n < length (p_w s1)) by (apply nth_error_Some; rewrite (wk_nth s1 n _ E) by discriminate; discriminate);
      (split; [intros w Lt|intros w]; rewrite (wk_upd s1 s2 n _ W2 w); destruct (Nat.eqb_spec w n) as [->|N]; [destruct (Nat.ltb_spec n (length (p_w s1))); [unfold top; auto|lia]|apply T1; lia|destruct (Nat.ltb_spec n (length (p_w s1))); [auto|lia]|apply W1]).
Qed.
(** worker [w] works through the queue *)
Lemma drain : forall q L s H w, ok m0 s H -> still s -> inv (p_q s) q L -> wk s w = WCheck -> p_run s = true ->
  exists s' L', reach s s' /\ calm s s' /\ still s' /\ inv (p_q s') [] L' /\ (forall k, wk s' k = wk s k).
Proof.
  induction q as [|v q IH]; intros L s H w O ST I E R.
  - exists s, L. split; [apply reach_refl|]. split; [apply calm_refl|]. auto.
  - pose proof (wk_nth s w _ E ltac:(discriminate)) as N. assert (WL : w < length (p_w s)) by (apply nth_error_Some; congruence).
    assert (R1 : reach s (set_w s w WPop)). { eapply (reach_step (Work w)); [intros; discriminate|]. cbn [p_step]. unfold work_step. rewrite N, R. reflexivity. }
    destruct (reach_ok s H _ O R1) as [H1 O1]. set (s1 := set_w s w WPop) in *.
    assert (W1 : wk s1 w = WPop). { change (wk s1 w) with (wk (set_w s w WPop) w). rewrite wk_set, Nat.eqb_refl. destruct (Nat.ltb_spec w (length (p_w s))); [reflexivity|lia]. }
    destruct (to_check s1 H1 w (v :: q) L O1 ST I ltac:(auto)) as (s2 & q2 & L2 & R2 & C2 & S2 & I2 & P2 & W2). rewrite W1 in P2. cbn in P2. subst q2. destruct (reach_ok s1 H1 s2 O1 R2) as [H2 O2].
    assert (WK : forall k, wk s2 k = wk s k).
    { intros k. rewrite (wk_upd s1 s2 w _ W2 k). destruct (Nat.eqb_spec k w) as [->|NE].
      - cbn [s1 set_w p_w]. rewrite upd_len. destruct (Nat.ltb_spec w (length (p_w s))); [auto|lia].
      - change (wk s1 k) with (wk (set_w s w WPop) k). rewrite wk_set. rewrite (proj2 (Nat.eqb_neq k w) NE). reflexivity. }
    destruct (IH L2 s2 H2 w O2 S2 I2) as (s' & L' & R' & C' & S' & I' & W'); [rewrite WK; exact E|rewrite (proj1 C2); exact R|].
    exists s', L'. split; [eapply reach_trans; [exact R1|eapply reach_trans; eauto]|]. split; [eapply calm_trans; [exact C2|exact C']|]. split; [exact S'|]. split; [exact I'|]. intros k. rewrite W'. apply WK.
Qed.
Lemma wait_loop : forall l s, p_main s = MWait l -> (forall f, In f l -> isdone s f = true) -> exists s', reach s s' /\ p_main s' = MIdle.
Proof.
  induction l as [|f l IH]; intros s E D.
  - exists (set_main (set_fut s []) MIdle). split; [|reflexivity]. eapply (reach_step (Main PWait false)); [congruence|]. cbn [p_step]. unfold main_step. rewrite E. reflexivity.
  - destruct (IH (set_main s (MWait l)) eq_refl) as (s' & R & X); [intros g J; apply D; right; exact J|]. exists s'. split; [|exact X]. eapply reach_trans; [|exact R].
    eapply (reach_step (Main PWait false)); [congruence|]. cbn [p_step]. unfold main_step. rewrite E, (D f (or_introl eq_refl)). reflexivity.
Qed.
Lemma wait_returns s H l : ok m0 s H -> p_main s = MWait l -> p_run s = true -> 0 < p_nthr s -> exists s', reach s s' /\ p_main s' = MIdle.
Proof.
  intros O EM ER N. destruct (settle _ s H (le_n _) O) as (s1 & R1 & K1 & S1). destruct (reach_ok s H s1 O R1) as [H1 O1].
  assert (EM1 : p_main s1 = MWait l) by (destruct K1 as (_ & _ & K); rewrite EM in K; congruence).
  pose proof O1 as [(q1 & L1 & T1 & I1) _]. destruct (all_top (length (p_w s1)) s1 H1 q1 L1 O1 S1 (v_q _ _ _ _ _ _ I1)) as (s2 & q2 & L2 & R2 & C2 & S2 & I2 & TP & _). destruct (reach_ok s1 H1 s2 O1 R2) as [H2 O2].
  destruct K1 as (K1 & K2 & _). destruct C2 as (C21 & C22 & C23). pose proof O2 as [(q2' & L2' & T2 & PI2) _].
  assert (TP2 : forall w, top (wk s2 w)).
  { intros w. destruct (Nat.lt_ge_cases w (length (p_w s1))) as [X|X]; [apply TP; exact X|]. left. destruct (wk s2 w) eqn:E; auto; exfalso; (assert (Y : wk s2 w <> WOff) by congruence; apply (v_off _ _ _ _ _ _ PI2) in Y; rewrite C22 in Y; pose proof (v_nthr _ _ _ _ _ _ I1); lia). }
  assert (W0 : wk s2 0 = WCheck).
  { pose proof (v_on _ _ _ _ _ _ PI2 0 ltac:(lia)) as X. rewrite C23, EM1 in X. pose proof (v_alive _ _ _ _ _ _ PI2 ltac:(congruence) 0) as Y. destruct (TP2 0) as [Z|[Z|Z]]; congruence. }
  destruct (drain q2 L2 s2 H2 0 O2 S2 I2 W0 ltac:(congruence)) as (s3 & L3 & R3 & (C31 & C32 & C33) & S3 & I3 & W3). destruct (reach_ok s2 H2 s3 O2 R3) as [H3 O3]. pose proof O3 as [(q3 & L3' & T3 & PI3) _].
  destruct (wait_loop l s3) as (s' & R' & X).
  - congruence.
  - intros f J. assert (FB : f < length (p_bodies s3)). { pose proof (v_futin _ _ _ _ _ _ PI3) as [_ FI]. rewrite C33, C23, EM1 in FI. apply FI; exact J. }
    assert (TF : T3 f = LFin).
    { destruct (place_dec (T3 f)) as [Y|[Y|[Y|[(w & Y)|[(w & j & Y)|Y]]]]]; auto; exfalso.
      - apply (v_none _ _ _ _ _ _ PI3) in Y. lia.
      - apply (v_lmain _ _ _ _ _ _ PI3) in Y. destruct Y as [Y _]. congruence.
      - apply (v_queue _ _ _ _ _ _ PI3) in Y. rewrite (empty_unique (p_q s3) L3 q3 L3' I3 S3 (v_q _ _ _ _ _ _ PI3)) in Y. destruct Y.
      - apply (v_held _ _ _ _ _ _ PI3) in Y. unfold st in Y. rewrite S3 in Y. discriminate.
      - apply (v_run _ _ _ _ _ _ PI3) in Y. rewrite W3 in Y. destruct (TP2 w) as [Z|[Z|Z]]; congruence. }
    apply (v_fin _ _ _ _ _ _ PI3) in TF. unfold isdone. apply existsb_exists. exists f. split; [exact TF|apply Nat.eqb_refl].
  - exists s'. split; [|exact X]. eapply reach_trans; [exact R1|]. eapply reach_trans; [exact R2|]. eapply reach_trans; eauto.
Qed.
(** once told to stop, every worker ends *)
Lemma all_over : forall n s, p_run s = false -> (forall w, top (wk s w)) -> exists s', reach s s' /\ calm s s' /\ (forall w, wk s' w = if Nat.ltb w n then (match wk s w with WCheck => WOver | p => p end) else wk s w).
Proof.
  induction n as [|n IH]; intros s R TP.
  - exists s. split; [apply reach_refl|]. split; [apply calm_refl|]. intros w. destruct (Nat.ltb_spec w 0); [lia|reflexivity].
  - destruct (IH s R TP) as (s1 & R1 & C1 & W1). destruct (wk s1 n) eqn:E.
    2: { pose proof (wk_nth s1 n _ E ltac:(discriminate)) as N. assert (WL : n < length (p_w s1)) by (apply nth_error_Some; congruence). exists (set_w s1 n WOver). split; [|split].
      - eapply reach_trans; [exact R1|]. eapply (reach_step (Work n)); [intros; discriminate|]. cbn [p_step]. unfold work_step. rewrite N. rewrite (proj1 C1), R. reflexivity.
      - exact C1.
      - intros w. rewrite wk_set, W1. destruct (Nat.eqb_spec w n) as [->|NE].
        + rewrite W1 in E. destruct (Nat.ltb_spec n n); [lia|]. rewrite E. destruct (Nat.ltb_spec n (length (p_w s1))); [|lia]. destruct (Nat.ltb_spec n (S n)); [reflexivity|lia].
        + destruct (Nat.ltb_spec w n), (Nat.ltb_spec w (S n)); auto; lia. }
    all: exists s1; split; [exact R1|]; split; [exact C1|]; intros w; rewrite W1; destruct (Nat.ltb_spec w n), (Nat.ltb_spec w (S n)); auto; try lia; assert (w = n) by lia; subst w; rewrite W1 in E; destruct (Nat.ltb_spec n n); try lia; rewrite E; reflexivity.
Qed.
Lemma join_loop : forall d s i b, p_main s = MJoin i b -> p_nthr s - i <= d -> (forall w, i <= w < p_nthr s -> wk s w = WOver) -> exists s', reach s s' /\ (p_main s' = MIdle \/ p_main s' = MGone).
Proof.
  assert (FIN : forall s i b, p_main s = MJoin i b -> p_nthr s <= i -> exists s', reach s s' /\ (p_main s' = MIdle \/ p_main s' = MGone)).
  { intros s i b E N. destruct b; [exists (set_main (set_nthr s 0) MGone)|exists (set_main (set_nthr s 0) MIdle)]; (split; [|cbn; auto]); (eapply (reach_step (Main PWait false)); [congruence|]); cbn [p_step]; unfold main_step; rewrite E; destruct (Nat.ltb_spec i (p_nthr s)); try lia; reflexivity. }
  induction d as [|d IH]; intros s i b E D W.
  - eapply FIN; eauto. lia.
  - destruct (Nat.le_gt_cases (p_nthr s) i) as [X|X]; [eapply FIN; eauto|]. pose proof (wk_nth s i _ (W i ltac:(lia)) ltac:(discriminate)) as N.
    destruct (IH (set_main (set_w s i WOff) (MJoin (S i) b)) (S i) b eq_refl) as (s' & R & Y).
    + cbn. lia.
    + intros w J. cbn [set_main set_w p_nthr] in J. change (wk (set_w s i WOff) w = WOver). rewrite wk_set. destruct (Nat.eqb_spec w i); [lia|]. apply W. lia.
    + exists s'. split; [|exact Y]. eapply reach_trans; [|exact R]. eapply (reach_step (Main PWait false)); [congruence|]. cbn [p_step]. unfold main_step. rewrite E. destruct (Nat.ltb_spec i (p_nthr s)); [|lia]. rewrite N. reflexivity.
Qed.
Lemma join_returns s H i b : ok m0 s H -> p_main s = MJoin i b -> exists s', reach s s' /\ (p_main s' = MIdle \/ p_main s' = MGone).
Proof.
  intros O EM. destruct (settle _ s H (le_n _) O) as (s1 & R1 & K1 & S1). destruct (reach_ok s H s1 O R1) as [H1 O1].
  assert (EM1 : p_main s1 = MJoin i b) by (destruct K1 as (_ & _ & K); rewrite EM in K; congruence).
  pose proof O1 as [(q1 & L1 & T1 & I1) _]. destruct (all_top (length (p_w s1)) s1 H1 q1 L1 O1 S1 (v_q _ _ _ _ _ _ I1)) as (s2 & q2 & L2 & R2 & C2 & S2 & I2 & TP & _). destruct (reach_ok s1 H1 s2 O1 R2) as [H2 O2].
  destruct C2 as (C21 & C22 & C23). pose proof O2 as [(q2' & L2' & T2 & PI2) _].
  assert (TP2 : forall w, top (wk s2 w)).
  { intros w. destruct (Nat.lt_ge_cases w (length (p_w s1))) as [X|X]; [apply TP; exact X|]. left. destruct (wk s2 w) eqn:E; auto; exfalso; (assert (Y : wk s2 w <> WOff) by congruence; apply (v_off _ _ _ _ _ _ PI2) in Y; rewrite C22 in Y; pose proof (v_nthr _ _ _ _ _ _ I1); lia). }
  pose proof (v_join _ _ _ _ _ _ PI2) as J. rewrite C23, EM1 in J. destruct J as [J1 J2].
  destruct (all_over (p_nthr s2) s2 J2 TP2) as (s3 & R3 & (C31 & C32 & C33) & W3).
  destruct (join_loop (p_nthr s3 - i) s3 i b) as (s' & R' & X); [congruence|lia| |].
  - intros w Hw. rewrite W3. rewrite C32 in Hw. destruct (Nat.ltb_spec w (p_nthr s2)); [|lia]. pose proof (v_on _ _ _ _ _ _ PI2 w ltac:(lia)) as Y. rewrite C23, EM1 in Y. pose proof (proj1 Y ltac:(lia)) as Z. destruct (TP2 w) as [E|[E|E]]; rewrite E in *; congruence.
  - exists s'. split; [|exact X]. eapply reach_trans; [exact R1|]. eapply reach_trans; [exact R2|]. eapply reach_trans; eauto.
Qed.
Lemma spawn_loop : forall d s k i, p_main s = MSpawn k i -> k - i <= d -> exists s', reach s s' /\ p_main s' = MIdle.
Proof.
  induction d as [|d IH]; intros s k i E D.
  - exists (set_main s MIdle). split; [|reflexivity]. eapply (reach_step (Main PWait false)); [congruence|]. cbn [p_step]. unfold main_step. rewrite E. destruct (Nat.ltb_spec i k); [lia|]. reflexivity.
  - destruct (Nat.ltb_spec i k) as [X|X]; [destruct (Nat.ltb i (length (p_w s))) eqn:Y|].
    + destruct (IH (set_main (set_nthr (set_w s i WCheck) (S i)) (MSpawn k (S i))) k (S i) eq_refl ltac:(lia)) as (s' & R & Z). exists s'. split; [|exact Z]. eapply reach_trans; [|exact R].
      eapply (reach_step (Main PWait false)); [congruence|]. cbn [p_step]. unfold main_step. rewrite E, Y. destruct (Nat.ltb_spec i k); [|lia]. reflexivity.
    + exists (set_main (set_run s false) MIdle). split; [|reflexivity]. eapply (reach_step (Main PWait false)); [congruence|]. cbn [p_step]. unfold main_step. rewrite E, Y. destruct (Nat.ltb_spec i k); [|lia]. reflexivity.
    + exists (set_main s MIdle). split; [|reflexivity]. eapply (reach_step (Main PWait false)); [congruence|]. cbn [p_step]. unfold main_step. rewrite E. destruct (Nat.ltb_spec i k); [lia|]. reflexivity.
Qed.
Lemma queue_returns s H : ok m0 s H -> match p_main s with MPush _ | MNum => True | _ => False end -> exists s', reach s s' /\ p_main s' = MIdle.
Proof.
  intros O EM. destruct (settle _ s H (le_n _) O) as (s1 & R1 & (_ & _ & K1) & S1). destruct (reach_ok s H s1 O R1) as [H1 O1]. pose proof O1 as [(q1 & L1 & T1 & I1) _].
  assert (LL : 0 < length (q_pcs (p_q s1))) by (rewrite (v_len _ _ _ _ _ _ I1); lia).
  destruct (p_main s) as [|id| |l|k i|i d|] eqn:E; try destruct EM; (destruct K1 as [K1|K1]; [|exists s1; auto]).
  - destruct (whole_call (p_q s1) q1 L1 0 (QPush id) LL (v_q _ _ _ _ _ _ I1) S1 eq_refl) as (s0 & r & qs & q' & L' & S0 & R & _).
    exists (set_main (set_q s1 qs) MIdle). split; [|reflexivity]. eapply reach_trans; [exact R1|]. eapply reach_trans; [|eapply (drive_push id r qs s0 R (set_q s1 s0)); [reflexivity|exact K1]].
    eapply (reach_step (Main PWait false)); [congruence|]. cbn [p_step]. unfold main_step. rewrite K1, S0. reflexivity.
  - destruct (whole_call (p_q s1) q1 L1 0 QSize LL (v_q _ _ _ _ _ _ I1) S1 eq_refl) as (s0 & r & qs & q' & L' & S0 & R & _ & _ & _ & SE).
    assert (RZ : exists z, r = RSize z) by (inversion SE; eauto). destruct RZ as [z ->].
    exists (set_main (set_q s1 qs) MIdle). split; [|reflexivity]. eapply reach_trans; [exact R1|]. eapply reach_trans; [|eapply (drive_num z qs s0 R (set_q s1 s0)); [reflexivity|exact K1]].
    eapply (reach_step (Main PWait false)); [congruence|]. cbn [p_step]. unfold main_step. rewrite K1, S0. reflexivity.
Qed.
(** whatever is being called can return *)
Lemma call_returns s H : ok m0 s H -> (calling H = Some CWait -> exists k, phase_of H = Up (S k)) -> exists s', reach s s' /\ (p_main s' = MIdle \/ p_main s' = MGone).
Proof.
  intros O W. pose proof O as [_ [C P]]. destruct (p_main s) as [|id| |l|k i|i d|] eqn:EM.
  - exists s. split; [apply reach_refl|auto].
  - destruct (queue_returns s H O) as (s' & R & X); [rewrite EM; exact I|]. eauto.
  - destruct (queue_returns s H O) as (s' & R & X); [rewrite EM; exact I|]. eauto.
  - destruct (W C) as [k K]. rewrite K in P. destruct (wait_returns s H l O EM) as (s' & R & X); [apply P|lia|]. eauto.
  - destruct (spawn_loop (k - i) s k i EM (le_n _)) as (s' & R & X). eauto.
  - eapply join_returns; eauto.
  - exists s. split; [apply reach_refl|auto].
Qed.
End P.
