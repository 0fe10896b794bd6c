(** Every call of a solver on its pool can return: the runs of ParSolveModel exist. *)
From Coq Require Import List ZArith Bool Lia Arith.
From Verif Require Import Base Lin StatsModel TrajModel IlqrModel IlqrSpec QueueSpec QueueModel PoolSpec PoolModel PoolProofs PoolProofs2 PoolProofs3 PoolProofs4 PoolProofs5 PoolProofs7 ParModel ParProofs.
From Verif Require Import TaskModel TaskSpec TaskProofs2 P_Task ParSolveModel ParSolveProofs.
Import ListNotations.

Section P.
Context {M : Type}.
Implicit Types (s : pst M) (H : list (pev M)).
Definition quiet (e : pev M) : bool := match e with EStart _ | EAct _ _ | EFin _ | ETimeout _ => true | _ => false end.
Lemma quiet_asked H : forallb quiet H = true -> asked H = [].
Proof. induction H as [|[] H IH]; cbn; try discriminate; auto. Qed.
Lemma quiet_phase H p : forallb quiet H = true -> fold_left phases H p = p.
Proof. revert p. induction H as [|[] H IH]; cbn; intros p; try discriminate; auto. Qed.
Lemma quiet_thrown H : forallb quiet H = true -> ~ In EThrown H.
Proof. intros Q J. rewrite forallb_forall in Q. specialize (Q _ J). discriminate. Qed.
Definition ret_of (c : call) (r : pev M) : Prop :=
  match c with
  | CAdd id => r = EAdded id | CNum => exists z, r = ENum z | CWait => r = EWaited | CLaunch => r = ELaunched \/ r = EThrown
  | CStop => r = EStopped | CDestroy => r = EGone
  end.
Lemma busy_step debug x s s' e c : p_step debug x s = PStep s' e -> mcall (p_main s) = Some c ->
  (forallb quiet e = true /\ mcall (p_main s') = Some c) \/
  (exists r, e = [r] /\ ret_of c r /\ mcall (p_main s') = None /\ (p_main s' = MGone -> c = CDestroy) /\ (r = EThrown -> exists k i, p_main s = MSpawn k i /\ length (p_w s) <= i < k)).
Proof.
  intros E C. destruct x as [o tmo|w]; cbn [p_step] in E.
  - unfold main_step in E. destruct (p_main s) as [|id| |l|k i|i d|] eqn:EM; try discriminate C.
    + destruct (q_step 0 (QPush id) (p_q s)) as [| |qs [[t oo|t r]|]]; try discriminate; injection E as <- <-; cbn; rewrite ?EM; auto.
      right. injection C as <-. exists (EAdded id). repeat split; discriminate.
    + destruct (q_step 0 QSize (p_q s)) as [| |qs [[t oo|t r]|]]; try discriminate; try (destruct r as [| | |z]); try (injection E as <- <-; cbn; rewrite ?EM; now auto).
      injection E as <- <-. right. injection C as <-. exists (ENum z). split; [reflexivity|]. split; [exists z; reflexivity|]. repeat split; discriminate.
    + destruct l as [|f r]; [|destruct (isdone s f); [|destruct tmo; [|discriminate]]]; injection E as <- <-; cbn; auto.
      right. injection C as <-. exists EWaited. repeat split; discriminate.
    + injection C as <-. destruct (Nat.ltb_spec i k) as [L|L]; [destruct (Nat.ltb_spec i (length (p_w s))) as [L2|L2]|]; injection E as <- <-; cbn; auto; right.
      * exists EThrown. split; [reflexivity|]. split; [right; reflexivity|]. split; [reflexivity|]. split; [discriminate|]. intros _. exists k, i. auto.
      * exists ELaunched. split; [reflexivity|]. split; [left; reflexivity|]. repeat split; discriminate.
    + destruct (Nat.ltb i (p_nthr s)).
      * destruct (nth_error (p_w s) i) as [[]|]; try discriminate. injection E as <- <-. left. split; [reflexivity|]. exact C.
      * destruct d; injection E as <- <-; injection C as <-; right; [exists EGone|exists EStopped]; repeat split; try discriminate; auto.
  - left. rewrite <- C. clear C. unfold work_step in E. destruct (nth_error (p_w s) w) as [[| | |id j|]|]; try discriminate.
    + injection E as <- <-. split; reflexivity.
    + destruct (q_step (S w) QPop (p_q s)) as [| |qs [[t oo|t r]|]]; try discriminate; try (injection E as <- <-; split; reflexivity). destruct r as [| [id|] | |]; injection E as <- <-; split; reflexivity.
    + destruct (nth_error (p_bodies s) id) as [b|]; [|discriminate]. destruct (nth_error b j); injection E as <- <-; split; reflexivity.
Qed.
Lemma step_lenw debug x s s' e : p_step debug x s = PStep s' e -> length (p_w s') = length (p_w s).
Proof.
  intros E. destruct x as [o tmo|w]; cbn [p_step] in E.
  - unfold main_step in E. destruct (p_main s) as [|id| |l|k i|i d|] eqn:EM.
    + destruct o as [b| |k| | |]; try (injection E as <- <-; reflexivity).
      * destruct (p_run s); [destruct debug; [discriminate|injection E as <- <-; reflexivity]|]. destruct (p_nthr s); [injection E as <- <-; reflexivity|discriminate].
      * destruct (p_run s); [injection E as <- <-; reflexivity|]. destruct (p_nthr s); [injection E as <- <-; reflexivity|discriminate].
    + destruct (q_step 0 (QPush id) (p_q s)) as [| |qs [[t oo|t r]|]]; try discriminate; injection E as <- <-; reflexivity.
    + destruct (q_step 0 QSize (p_q s)) as [| |qs [[t oo|t r]|]]; try discriminate; try (destruct r as [| | |z]); injection E as <- <-; reflexivity.
    + destruct l as [|f r]; [|destruct (isdone s f); [|destruct tmo; [|discriminate]]]; injection E as <- <-; reflexivity.
    + destruct (Nat.ltb i k); [destruct (Nat.ltb i (length (p_w s)))|]; injection E as <- <-; cbn; rewrite ?upd_length; reflexivity.
    + destruct (Nat.ltb i (p_nthr s)).
      * destruct (nth_error (p_w s) i) as [[]|]; try discriminate. injection E as <- <-. cbn. rewrite upd_length. reflexivity.
      * destruct d; injection E as <- <-; reflexivity.
    + discriminate.
  - unfold work_step in E. destruct (nth_error (p_w s) w) as [[| | |id j|]|]; try discriminate.
    + injection E as <- <-. cbn. apply upd_length.
    + destruct (q_step (S w) QPop (p_q s)) as [| |qs [[t oo|t r]|]]; try discriminate; try (injection E as <- <-; cbn; rewrite ?upd_length; reflexivity). destruct r as [| [id|] | |]; injection E as <- <-; cbn; apply upd_length.
    + destruct (nth_error (p_bodies s) id) as [b|]; [|discriminate]. destruct (nth_error b j); injection E as <- <-; cbn; apply upd_length.
Qed.
Lemma exec_lenw debug sched : forall s H s', p_exec debug sched s = Ok (H, s') -> length (p_w s') = length (p_w s).
Proof.
  induction sched as [|x r IH]; intros s H s' E; cbn [p_exec] in E; [injection E as <- <-; reflexivity|].
  destruct (p_step debug x s) as [| | |s1 e] eqn:S; try discriminate; [eapply IH; eauto|]. destruct (p_exec debug r s1) as [[H' s'']| | | | |] eqn:E'; try discriminate. injection E as <- <-.
  rewrite (IH _ _ _ E'). eapply step_lenw; eauto.
Qed.
Lemma sr_lenw debug W H s : solver_run debug W H s -> length (p_w s) = W.
Proof. induction 1; [apply repeat_length|erewrite exec_lenw; eauto|assumption]. Qed.
Lemma sr_phinv debug W H s : solver_run debug W H s -> phinv s H.
Proof.
  intros R. destruct (run_plain debug W H s R (p_mem s)) as (sc & m' & E). pose proof (ok_exec (p_mem s) debug sc _ _ (ok_init (p_mem s) W)) as G. rewrite E in G. destruct G as [_ G]. exact G.
Qed.
Lemma exec_one debug x s s' e : p_step debug x s = PStep s' e -> p_exec debug [x] s = Ok (e, s').
Proof. intros E. cbn [p_exec]. rewrite E. cbn. rewrite app_nil_r. reflexivity. Qed.
Lemma cut debug W c : forall sched H s H' s', solver_run debug W H s -> mcall (p_main s) = Some c -> p_exec debug sched s = Ok (H', s') -> mcall (p_main s') = None -> no_timeout H' ->
  exists sc H1 r s1, p_exec debug sc s = Ok (H1 ++ [r], s1) /\ forallb quiet H1 = true /\ no_timeout H1 /\ ret_of c r /\ mcall (p_main s1) = None /\ (p_main s1 = MGone -> c = CDestroy) /\
    (r = EThrown -> exists k, phase_of H = Up k /\ W < k).
Proof.
  induction sched as [|x sched IH]; intros H s H' s' R C E N NT; cbn [p_exec] in E; [injection E as <- <-; congruence|].
  destruct (p_step debug x s) as [| | |s1 e] eqn:S; try discriminate; [eapply IH; eauto|].
  destruct (p_exec debug sched s1) as [[H2 s2]| | | | |] eqn:E'; try discriminate. cbn [bind] in E. injection E as <- <-.
  assert (R1 : solver_run debug W (H ++ e) s1) by (eapply SR_pool; [exact R|apply (exec_one _ _ _ _ _ S)]).
  destruct (busy_step _ _ _ _ _ _ S C) as [[Q C1]|(r & -> & RT & N1 & G & TH)].
  - destruct (IH _ _ _ _ R1 C1 E' N) as (sc & H1 & r & s3 & X & Q1 & T1 & RT & N1 & G & TH); [intros id J; apply (NT id); apply in_or_app; right; exact J|].
    exists (x :: sc), (e ++ H1), r, s3. split; [cbn [p_exec]; rewrite S, X; cbn; rewrite app_assoc; reflexivity|]. split; [rewrite forallb_app, Q, Q1; reflexivity|].
    split; [intros id J; apply in_app_or in J; destruct J as [J|J]; [apply (NT id); apply in_or_app; left; exact J|exact (T1 id J)]|]. split; [exact RT|]. split; [exact N1|]. split; [exact G|].
    intros Er. destruct (TH Er) as (k & K & L). exists k. split; [|exact L]. rewrite phase_app, (quiet_phase _ _ Q) in K. exact K.
  - exists [x], [], r, s1. split; [apply (exec_one _ _ _ _ _ S)|]. split; [reflexivity|]. split; [intros id []|]. split; [exact RT|]. split; [exact N1|]. split; [exact G|].
    intros Er. destruct (TH Er) as (k & i & EM & L). exists k. destruct (sr_phinv _ _ _ _ R) as [_ P]. rewrite EM in P. rewrite (sr_lenw _ _ _ _ R) in L. split; [apply P|lia].
Qed.

Definition live debug W (p : list (pev M) * pst M) : Prop := solver_run debug W (fst p) (snd p) /\ p_main (snd p) = MIdle.
Lemma live_calling debug W p : live debug W p -> calling (fst p) = None.
Proof. intros [R I]. destruct (sr_phinv _ _ _ _ R) as [C _]. rewrite C, I. reflexivity. Qed.
(** what a call asks and what the pool's phase is afterwards *)
Definition ask_of (o : pop M) : ask M :=
  match o with PAdd b => AAdd b | PWait => AWait | PLaunch k => ALaunch (Z.to_nat k) | PStop => AStop | PNum => ANum | PDestroy => ADestroy end.
Definition allowed (W : nat) (ph : phase) (o : pop M) : Prop :=
  match o with PAdd _ => True | PWait => exists k, ph = Up (S k) | PLaunch k => ph = Down /\ Z.to_nat k <= W | PStop => True | PNum => True | PDestroy => False end.
Definition phase_after (ph : phase) (o : pop M) : phase := match o with PLaunch k => Up (Z.to_nat k) | PStop => Down | _ => ph end.
Lemma one_call debug W p o : live debug W p -> allowed W (phase_of (fst p)) o ->
  exists sched H s', p_exec debug sched (snd p) = Ok (H, s') /\ live debug W (fst p ++ H, s') /\ asked H = [ask_of o] /\ no_timeout H /\ ~ In EThrown H /\
    phase_of (fst p ++ H) = phase_after (phase_of (fst p)) o /\ (o = PWait -> exists H1, H = H1 ++ [EWaited]).
Proof.
  intros [R I] AL. destruct p as [H0 s]. cbn [fst snd] in *. destruct (sr_phinv _ _ _ _ R) as [_ P]. rewrite I in P.
  assert (S1 : exists s1 ev c, p_step debug (Main o false) s = PStep s1 [ev] /\ asked [ev] = [ask_of o] /\ mcall (p_main s1) = Some c /\ c <> CDestroy /\ (c = CWait -> o = PWait) /\ (o = PWait -> c = CWait) /\ (forall id, ev <> ETimeout id) /\ ev <> EThrown /\
    phases (phase_of H0) ev = match o with PLaunch k => Up (Z.to_nat k) | _ => phase_of H0 end /\ (forall k, o = PLaunch k -> c = CLaunch) /\ (o = PStop -> c = CStop) /\ (c = CLaunch -> exists k, o = PLaunch k) /\ (c = CStop -> o = PStop)).
  { destruct o as [b| |k| | |]; cbn [p_step]; unfold main_step; rewrite I; cbn [allowed] in AL.
    - do 3 eexists. split; [reflexivity|]. split; [reflexivity|]. split; [reflexivity|]. repeat split; try discriminate; try reflexivity.
    - do 3 eexists. split; [reflexivity|]. split; [reflexivity|]. split; [reflexivity|]. repeat split; try discriminate; try reflexivity.
    - destruct AL as [AL1 AL2]. rewrite AL1 in P. destruct P as [-> ->]. do 3 eexists. split; [reflexivity|]. split; [reflexivity|]. split; [reflexivity|]. rewrite AL1. repeat split; try discriminate; try reflexivity. intros _. exists k. reflexivity.
    - do 3 eexists. split; [reflexivity|]. split; [reflexivity|]. split; [reflexivity|]. repeat split; try discriminate; try reflexivity.
    - do 3 eexists. split; [reflexivity|]. split; [reflexivity|]. split; [reflexivity|]. repeat split; try discriminate; try reflexivity.
    - destruct AL. }
  destruct S1 as (s1 & ev & c & S1 & A1 & C1 & ND & CW & CW2 & NT1 & NTH & PH & CL & CS & CL2 & CS2).
  assert (R1 : solver_run debug W (H0 ++ [ev]) s1) by (eapply SR_pool; [exact R|apply (exec_one _ _ _ _ _ S1)]).
  assert (PH1 : phase_of (H0 ++ [ev]) = match o with PLaunch k => Up (Z.to_nat k) | _ => phase_of H0 end) by (rewrite phase_app; exact PH).
  destruct (sr_phinv _ _ _ _ R1) as [CA _]. rewrite C1 in CA.
  destruct (C34_completes debug W _ _ R1) as (sc & H2 & s2 & E2 & CN & NT2).
  { rewrite CA. intros X. injection X as ->. rewrite (CW eq_refl) in *. rewrite PH1. exact AL. }
  assert (N2 : mcall (p_main s2) = None). { destruct (sr_phinv debug W ((H0 ++ [ev]) ++ H2) s2) as [X _]; [eapply SR_pool; eauto|]. rewrite <- X. exact CN. }
  destruct (cut debug W c sc _ _ _ _ R1 C1 E2 N2 NT2) as (sc' & H1 & r & s3 & X & Q & T1 & RT & N3 & G & TH).
  exists (Main o false :: sc'), ([ev] ++ H1 ++ [r]), s3.
  assert (EX : p_exec debug (Main o false :: sc') s = Ok ([ev] ++ H1 ++ [r], s3)) by (cbn [p_exec]; rewrite S1, X; reflexivity).
  split; [exact EX|]. split; [split; [cbn [fst snd]; eapply SR_pool; eauto|]|].
  { cbn [snd]. destruct (p_main s3) as [|? | |? |? ?|? []|]; try discriminate N3; [reflexivity|]. exfalso. apply ND. apply G. reflexivity. }
  assert (NTHR : r <> EThrown).
  { intros ->. destruct (TH eq_refl) as (k & K1 & K2). rewrite PH1 in K1. assert (c = CLaunch) by (destruct c; cbn in RT; try congruence; destruct RT; discriminate). destruct (CL2 H) as [k' ->].
    injection K1 as <-. destruct AL as [_ AL]. lia. }
  assert (RA : asked [r] = [] /\ (forall id, r <> ETimeout id)).
  { destruct c; cbn in RT; try (subst r; split; [reflexivity|discriminate]); first [destruct RT as [->| ->]|destruct RT as [z ->]]; split; try reflexivity; discriminate. }
  split; [rewrite !asked_app, A1, (quiet_asked _ Q), (proj1 RA); reflexivity|].
  split; [intros id J; apply in_app_or in J; destruct J as [[J|[]]|J]; [exact (NT1 id J)|]; apply in_app_or in J; destruct J as [J|[J|[]]]; [exact (T1 id J)|exact (proj2 RA id J)]|].
  split; [intros J; apply in_app_or in J; destruct J as [[J|[]]|J]; [exact (NTH J)|]; apply in_app_or in J; destruct J as [J|[J|[]]]; [exact (quiet_thrown _ Q J)|exact (NTHR J)]|].
  split.
  - rewrite app_assoc, phase_app, PH1, fold_left_app, (quiet_phase _ _ Q). cbn [fold_left]. destruct o as [b| |k| | |]; cbn [phase_after ask_of] in *.
    all: destruct c; cbn in RT; try congruence; try (subst r; reflexivity); try (destruct RT as [? RT]; rewrite RT; reflexivity); try (destruct (CL2 eq_refl); discriminate); try (specialize (CS2 eq_refl); discriminate).
    all: try (destruct RT as [->| ->]; [reflexivity|congruence]).
    all: try (specialize (CL _ eq_refl); discriminate); try (specialize (CS eq_refl); discriminate).
  - intros ->. rewrite (CW2 eq_refl) in RT. cbn in RT. subst r. exists ([ev] ++ H1). rewrite app_assoc. reflexivity.
Qed.
Fixpoint allowed_all (W : nat) (ph : phase) (os : list (pop M)) : Prop :=
  match os with [] => True | o :: r => allowed W ph o /\ allowed_all W (phase_after ph o) r end.
Lemma calls_exist debug W : forall os p, live debug W p -> allowed_all W (phase_of (fst p)) os ->
  exists sched H s', p_exec debug sched (snd p) = Ok (H, s') /\ live debug W (fst p ++ H, s') /\ asked H = map ask_of os /\ no_timeout H /\ ~ In EThrown H /\
    phase_of (fst p ++ H) = fold_left phase_after os (phase_of (fst p)) /\ (os = [] -> H = []) /\ (forall r, os = r ++ [PWait] -> exists H1, H = H1 ++ [EWaited]).
Proof.
  induction os as [|o os IH]; intros p L A.
  - exists [], [], (snd p). rewrite app_nil_r. split; [reflexivity|]. split; [destruct p; exact L|]. split; [reflexivity|]. split; [intros id []|]. split; [intros []|]. split; [reflexivity|]. split; [reflexivity|]. intros [|? ?]; discriminate.
  - destruct A as [A1 A2]. destruct (one_call debug W p o L A1) as (sc & H & s1 & E & L1 & K & T & TH & P & EW).
    destruct (IH (fst p ++ H, s1) L1) as (sc2 & H2 & s2 & E2 & L2 & K2 & T2 & TH2 & P2 & NL & EW2); [cbn [fst]; rewrite P; exact A2|]. cbn [fst snd] in *.
    exists (sc ++ sc2), (H ++ H2), s2. split; [rewrite (exec_app _ _ _ _ _ _ E), E2; reflexivity|]. rewrite app_assoc. split; [exact L2|].
    split; [rewrite asked_app, K, K2; reflexivity|]. split; [intros id J; apply in_app_or in J; destruct J as [J|J]; [exact (T id J)|exact (T2 id J)]|].
    split; [intros J; apply in_app_or in J; destruct J as [J|J]; [exact (TH J)|exact (TH2 J)]|]. split; [rewrite P2, P; reflexivity|]. split; [discriminate|].
    intros [|o' r] X; injection X as -> X; [|destruct (EW2 r X) as [H1 ->]; exists (H ++ H1); rewrite app_assoc; reflexivity].
    subst os. destruct (EW eq_refl) as [H1 ->]. rewrite (NL eq_refl). exists H1. rewrite app_nil_r. reflexivity.
Qed.
End P.

Local Open Scope Z_scope.
Section S.
Context {F : Scalar} {CS : Type} (ops : CostOps F CS) (n m : nat) (cb : list CS -> F).
Notation ILQR := (ILQR F CS). Notation mem := (@mem F CS). Notation Pool := (Pool F CS).
Definition tphase (t : Tasks) : phase := if t_pool t =? 0 then Down else Up (Z.to_nat (t_pool t)).
(** the pool is idle and has the threads that the task data says it has *)
Definition fits debug W (t : Tasks) (p : Pool) : Prop := live debug W p /\ 0 <= t_pool t /\ phase_of (fst p) = tphase t.
Lemma adds_allowed W ph (bs : list (body mem)) : (exists k, ph = Up (S k)) -> allowed_all W ph (map PAdd bs ++ [PWait]) /\ fold_left phase_after (map PAdd bs ++ [PWait]) ph = ph.
Proof. intros E. induction bs as [|b bs [IH1 IH2]]; cbn; auto. Qed.
Lemma update_exists debug W N t Zt (s : ILQR) p : fits debug W t p -> exists r p', par_update ops n m debug N t Zt s p r p' /\ fits debug W t p'.
Proof.
  intros (L & T & P). destruct (Z.leb_spec (t_pool t) 1) as [B|B].
  - eexists _, p. split; [apply PU_serial; exact B|]. split; [exact L|split; assumption].
  - destruct p as [H q]. assert (L1 : live debug W (H, set_mem q (Ok (il_kps s, il_costs s)))).
    { destruct L as [L1 L2]. cbn [fst snd] in *. split; cbn [fst snd]; [apply SR_own; [exact L1|]|exact L2]. exact (live_calling debug W (H, q) (conj L1 L2)). }
    assert (U : exists k, phase_of H = Up (S k)).
    { cbn [fst] in P. rewrite P. unfold tphase. destruct (Z.eqb_spec (t_pool t) 0); [lia|]. exists (Z.to_nat (t_pool t) - 1)%nat. f_equal. lia. }
    destruct (adds_allowed W _ (update_tasks ops n m t Zt) U) as [A1 A2].
    destruct (calls_exist debug W _ _ L1 A1) as (sc & H1 & q' & E & L2 & K & NT & _ & PH & _ & EW). destruct (EW _ eq_refl) as [H2 ->]. cbn [fst snd] in *.
    exists (p_mem q'), (H ++ H2 ++ [EWaited], q'). split.
    + apply (PU_pool ops n m debug N t Zt s H q sc H2 q' B E); [|intros id J; apply (NT id); apply in_or_app; left; exact J].
      rewrite asked_app in K. cbn [asked flat_map app] in K. rewrite app_nil_r in K. etransitivity; [exact K|]. rewrite map_app, map_map. reflexivity.
    + split; [exact L2|]. split; [exact T|]. cbn [fst]. rewrite PH, A2. exact P.
Qed.
Lemma loop_exists debug W fuel t : forall it (s : ILQR) p, fits debug W t p -> pgood debug W p -> covered (Z.of_nat (il_N s)) t -> sized s ->
  exists q p', par_loop ops n m cb debug fuel t it s p q p' /\ fits debug W t p'.
Proof.
  induction it as [|it IH]; intros s p Fi G C Sz; [exists (Ok s), p; split; [apply PL_end|exact Fi]|].
  pose proof Sz as [(_ & (Zt & HZ & _) & _) _]. destruct (update_exists debug W (Z.of_nat (il_N s)) t Zt s p Fi) as (r & p1 & U & Fi1).
  destruct (outcome (do (ks, cs) <- r ; il_rest ops n m cb fuel Zt (il_set_costs s cs ks))) as [q|s1] eqn:O.
  - exists q, p1. split; [eapply PL_stop; eauto|exact Fi1].
  - destruct (update_ok ops n m debug W t Zt s p r p1 G C Sz HZ U) as [Er G1].
    assert (E : il_iteration ops n m cb fuel s = Ok (false, s1)).
    { rewrite (iteration_rest ops n m cb fuel s Zt HZ). rewrite Er in O. rewrite rest_update in O. destruct (il_rest ops n m cb fuel Zt _) as [[[] s2]| | | | |]; cbn in O; try discriminate. injection O as ->. reflexivity. }
    destruct (iter_sized ops n m cb fuel s false s1 Sz E) as [Sz1 N1].
    destruct (IH s1 p1 Fi1 G1) as (q & p2 & L & Fi2); [rewrite N1; exact C|exact Sz1|]. exists q, p2. split; [eapply PL_next; eauto|exact Fi2].
Qed.

Section Run.
Context (rnd : F -> Z) (N : nat) (tf : nat) (debug : bool) (good : Z -> Z -> Prop) (Hg : forall nt tpt, good nt tpt -> 1 <= nt * tpt)
  (Hd : forall nt tpt l, good nt tpt -> default_inds rnd tf debug (Z.of_nat N) nt tpt = Ok l -> valid_inds (Z.of_nat N) l).
Notation tinv := (tinv (Z.of_nat N)).
Lemma launch_exists W N' nt tpt t t1 p : fits debug W t p -> nt <= Z.of_nat W -> launch rnd tf debug N' nt tpt t = Ok t1 ->
  exists p1, pool_does debug (launch_asks (F:=F) (CS:=CS) N' nt tpt t) p p1 /\ fits debug W t1 p1.
Proof.
  intros (L & T & P) HW E.
  assert (K : forall os : list (pop mem), allowed_all W (phase_of (fst p)) os -> fold_left phase_after os (phase_of (fst p)) = tphase t1 -> 0 <= t_pool t1 -> map ask_of os = launch_asks (F:=F) (CS:=CS) N' nt tpt t ->
    exists p1, pool_does debug (launch_asks (F:=F) (CS:=CS) N' nt tpt t) p p1 /\ fits debug W t1 p1).
  { intros os A B C D. destruct (calls_exist debug W os p L A) as (sc & H & s' & X & L1 & K & NT & TH & PH & _ & _). exists (fst p ++ H, s'). split.
    - exists sc, H. split; [exact X|]. split; [reflexivity|]. split; [rewrite K; exact D|]. split; [exact (live_calling _ _ _ L1)|]. split; assumption.
    - split; [exact L1|]. split; [exact C|]. cbn [fst]. rewrite PH. exact B. }
  unfold launch in E. unfold launch_asks in *. destruct ((t_pool t =? 0) && (nt =? 1)) eqn:Z0.
  { injection E as <-. apply (K []); [exact I|exact P|exact T|reflexivity]. }
  destruct (if 0 <? N' then _ else _) as [go| | | | |] eqn:G in E; cbn [bind] in E; try discriminate. rewrite G in *. destruct go.
  2:{ injection E as <-. apply (K []); [exact I|exact P|exact T|reflexivity]. }
  destruct (get_tasks rnd tf debug N' nt tpt _) as [t2| | | | |] eqn:GT; cbn [bind] in E; try discriminate. injection E as <-.
  apply (K ((if 0 <? t_pool t then [PStop] else []) ++ (if 1 <? nt then [PLaunch nt] else []))).
  - unfold tphase in P. rewrite P. destruct (Z.ltb_spec 0 (t_pool t)); destruct (Z.eqb_spec (t_pool t) 0); try lia; destruct (Z.ltb_spec 1 nt); cbn; auto; repeat split; lia.
  - unfold tphase in *. rewrite P. cbn [t_pool]. destruct (Z.ltb_spec 0 (t_pool t)); destruct (Z.eqb_spec (t_pool t) 0); try lia; destruct (Z.ltb_spec 1 nt); cbn; auto; destruct (Z.eqb_spec nt 0); auto; lia.
  - cbn [t_pool]. destruct (Z.ltb_spec 1 nt); lia.
  - destruct (0 <? t_pool t), (1 <? nt); reflexivity.
Qed.
Lemma solve_exists W fuel nt tpt (s : ILQR) t p : good nt tpt -> nt <= Z.of_nat W -> il_N s = N -> pgood debug W p -> tinv t -> fits debug W t p ->
  exists q t' p', par_solve ops n m cb rnd debug fuel tf nt tpt s t p q t' p' /\ fits debug W t' p'.
Proof.
  intros G HW HN P T Fi. destruct (il_begin ops n debug s) as [s1| | | | |] eqn:E.
  2-6: eexists _, t, p; split; [apply PS_begin; [exact E|discriminate]|exact Fi].
  destruct (launch rnd tf debug (Z.of_nat (il_N s)) nt tpt t) as [t1| | | | |] eqn:L.
  2-6: eexists _, t, p; split; [eapply PS_launch; [exact E|exact L|discriminate]|exact Fi].
  destruct (launch_exists _ _ _ _ _ _ _ Fi HW L) as (p1 & D & Fi1). destruct (begin_sized ops n debug s s1 E) as [Sz N1].
  pose proof (does_good debug W _ _ _ P (launch_no_add _ _ _ _) D) as P1.
  assert (T1 : tinv t1). { eapply (step_tinv rnd (Z.of_nat N) tf debug good Hg Hd (TLaunch nt tpt)); [exact G|exact T|]. rewrite <- HN. exact L. }
  destruct (loop_exists debug W fuel t1 (Z.to_nat (o_max_inner (il_opts s1))) s1 p1 Fi1 P1) as (q & p2 & Lo & Fi2); [rewrite N1, HN; exact (proj2 T1)|exact Sz|].
  exists q, t1, p2. split; [eapply PS_run; eauto|exact Fi2].
Qed.
Definition small_uop (W : nat) (o : uop F CS) : Prop := match o with USolve nt _ => nt <= Z.of_nat W | _ => True end.
Lemma step_pool o t t' : t_step rnd tf debug (Z.of_nat N) o t = Ok t' -> match o with TLaunch _ _ => True | _ => t_pool t' = t_pool t end.
Proof.
  destruct o as [nt tpt|l|nt tpt]; cbn [t_step]; [| |auto].
  - unfold get_tasks. destruct (should_redo nt tpt t) as [[]| | | | |]; cbn [bind]; try discriminate; [|intros X; injection X as <-; reflexivity].
    destruct (default_inds rnd tf debug _ nt tpt); cbn [bind]; try discriminate. intros X. injection X as <-. reflexivity.
  - unfold set_tasks. match goal with |- (do _ <- ?a ; _) = _ -> _ => destruct a end; cbn [bind]; try discriminate. destruct (altro_assert debug (increasing l)); cbn [bind]; try discriminate. intros X. injection X as <-. reflexivity.
Qed.
Lemma fits_pool W t t' p : t_pool t' = t_pool t -> fits debug W t p -> fits debug W t' p.
Proof. intros E (A & B & C). split; [exact A|]. rewrite E. split; [exact B|]. unfold tphase in *. rewrite E. exact C. Qed.
Lemma run_exists W fuel : forall os (s : ILQR) t p, Forall (good_uop N good) os -> Forall (small_uop W) os -> il_N s = N -> pgood debug W p -> tinv t -> fits debug W t p ->
  exists q t' p', par_run ops n m cb rnd debug fuel tf os s t p q t' p'.
Proof.
  induction os as [|o os IH]; intros s t p Go Sm HN P T Fi; [exists (Ok s), t, p; apply PR_nil|]. pose proof (Forall_inv Go) as G1. pose proof (Forall_inv_tail Go) as G2. pose proof (Forall_inv Sm) as S1. pose proof (Forall_inv_tail Sm) as S2.
  destruct o as [f|nt tpt|l|nt tpt]; cbn in G1, S1.
  - destruct (IH (f s) t p) as (q & t' & p' & R); auto; [rewrite (G1 s); exact HN|]. exists q, t', p'. apply PR_edit. exact R.
  - destruct (get_tasks rnd tf debug (Z.of_nat N) nt tpt t) as [t1| | | | |] eqn:E.
    2-6: eexists _, t, p; eapply PR_get_fail; [rewrite HN; exact E|discriminate].
    destruct (IH s t1 p) as (q & t' & p' & R); auto; [eapply (step_tinv rnd _ tf debug good Hg Hd (TGet nt tpt)); [exact G1|exact T|exact E]|exact (fits_pool W t t1 p (step_pool (TGet nt tpt) _ _ E) Fi)|].
    exists q, t', p'. eapply PR_get; [rewrite HN; exact E|exact R].
  - destruct (set_tasks debug (Z.of_nat N) l t) as [t1| | | | |] eqn:E.
    2-6: eexists _, t, p; eapply PR_set_fail; [rewrite HN; exact E|discriminate].
    destruct (IH s t1 p) as (q & t' & p' & R); auto; [eapply (step_tinv rnd _ tf debug good Hg Hd (TSet l)); [exact G1|exact T|exact E]|exact (fits_pool W t t1 p (step_pool (TSet l) _ _ E) Fi)|].
    exists q, t', p'. eapply PR_set; [rewrite HN; exact E|exact R].
  - destruct (solve_exists W fuel nt tpt s t p G1 S1 HN P T Fi) as (r & t1 & p1 & S & Fi1).
    destruct (solve_serial ops n m cb rnd _ tf debug good Hg Hd W fuel nt tpt s t p r t1 p1 S G1 HN P T) as (Eq & P1 & T1).
    destruct r as [s1| | | | |].
    2-6: eexists _, t1, p1; eapply PR_fail; [exact S|discriminate].
    destruct (IH s1 t1 p1) as (q & t' & p' & R); auto; [|exists q, t', p'; eapply PR_solve; eauto].
    cbn [bind] in Eq. symmetry in Eq. apply ser_solve_ok in Eq. rewrite (solve_N ops n m cb debug fuel s s1 (proj1 Eq)). exact HN.
Qed.
End Run.
End S.
