(** The augmented Lagrangian solver on the pool; tasks that leave out the last knot points. *)
From Coq Require Import List ZArith Bool Lia Arith.
From Verif Require Import Base Lin LogModel StatsModel TrajModel IlqrModel IlqrSpec CostInst ConModel AlModel AlProofs AlProofs2.
From Verif Require Import PoolSpec PoolModel PoolProofs PoolProofs5 TaskModel TaskSpec ParModel ParProofs ParProofs2 ParProofs3 TaskProofs TaskProofs2 ParSolveModel ParSolveProofs ParSolveProofs2.
Import ListNotations.
Local Open Scope Z_scope.

Section Al.
Context {F : Scalar} (n m : nat).
Notation IL := (ILQR F (ALCost F)). Notation Pool := (Pool F (ALCost F)).
Lemma as_iteration_rest debug fuel (s : IL) : as_iteration n m debug fuel s = (do s1 <- il_solve al_ops n m als_max_violation debug fuel s ; as_rest s1).
Proof. reflexivity. Qed.
Lemma as_loop_outcome debug fuel it (a : ALS F) : as_loop n m debug fuel (S it) a =
  match as_outcome a (do s1 <- il_solve al_ops n m als_max_violation debug fuel (as_il a) ; as_rest s1) with inl q => q | inr a1 => as_loop n m debug fuel it a1 end.
Proof. cbn [as_loop]. rewrite as_iteration_rest. destruct (do s1 <- il_solve al_ops n m als_max_violation debug fuel (as_il a) ; as_rest s1) as [[[e|] s1]| | | | |]; reflexivity. Qed.
Lemma as_step_N debug fuel (a a1 : ALS F) : as_outcome a (do s1 <- il_solve al_ops n m als_max_violation debug fuel (as_il a) ; as_rest s1) = inr a1 -> il_N (as_il a1) = il_N (as_il a).
Proof.
  intros O. rewrite <- as_iteration_rest in O. destruct (as_iteration n m debug fuel (as_il a)) as [[[e|] s1]| | | | |] eqn:E; try discriminate. cbn [as_outcome] in O. injection O as <-. cbn [as_il].
  destruct (as_iter_spec n m debug fuel (as_il a) None s1 E) as (s2 & s4 & X). destruct (outer_problem n m debug fuel _ _ _ _ _ X) as ([_ A _ _] & [_ B _ _] & [_ C _ _]). congruence.
Qed.
(** the launches of the solves of one outer loop *)
Fixpoint launches (rnd : F -> Z) (tf : nat) (debug : bool) (N nt tpt : Z) (k : nat) (t : Tasks) : res Tasks :=
  match k with O => Ok t | S k => do t1 <- launch rnd tf debug N nt tpt t ; launches rnd tf debug N nt tpt k t1 end.
(** one of them fails and the failure is that of the caller *)
Definition launch_failure (rnd : F -> Z) (tf : nat) (debug : bool) (N nt tpt : Z) {A} (t : Tasks) (q : res A) : Prop :=
  exists k, (forall t1, launches rnd tf debug N nt tpt k t <> Ok t1) /\ q = failed (launches rnd tf debug N nt tpt k t).
Section Run.
Context (rnd : F -> Z) (N : nat) (tf : nat) (debug : bool) (good : Z -> Z -> Prop) (Hg : forall nt tpt, good nt tpt -> 1 <= nt * tpt)
  (Hd : forall nt tpt l, good nt tpt -> default_inds rnd tf debug (Z.of_nat N) nt tpt = Ok l -> valid_inds (Z.of_nat N) l).
Notation tinv := (tinv (Z.of_nat N)). Notation fails nt tpt := (launch_failure rnd tf debug (Z.of_nat N) nt tpt).
Notation serial := (solve_serial al_ops n m als_max_violation rnd N tf debug good Hg Hd).
Lemma serial_cases W fuel nt tpt (s : IL) t p r t1 p1 : par_solve al_ops n m als_max_violation rnd debug fuel tf nt tpt s t p r t1 p1 -> good nt tpt -> il_N s = N -> pgood debug W p -> tinv t ->
  (r = il_solve al_ops n m als_max_violation debug fuel s /\ (forall s1, r = Ok s1 -> launch rnd tf debug (Z.of_nat N) nt tpt t = Ok t1) \/ (forall s1, r <> Ok s1) /\ fails nt tpt t r) /\ pgood debug W p1 /\ tinv t1.
Proof.
  intros S G HN P T. destruct (serial W fuel nt tpt s t p r t1 p1 S G HN P T) as (Eq & P1 & T1). split; [|split; assumption]. unfold ser_solve in Eq.
  destruct (il_begin al_ops n debug s) as [s0| | | | |] eqn:E; cbn [bind] in Eq.
  2-6: left; split; [unfold il_solve; rewrite E; destruct r; cbn [bind] in Eq |- *; congruence|intros s1 ->; discriminate].
  rewrite HN in Eq. destruct (launch rnd tf debug (Z.of_nat N) nt tpt t) as [t2| | | | |] eqn:L; cbn [bind] in Eq.
  2-6: right; split; [intros s1 ->; discriminate|]; exists 1%nat; cbn [launches]; rewrite L; cbn [bind]; split; [discriminate|]; destruct r; cbn in Eq |- *; congruence.
  left. destruct (il_solve al_ops n m als_max_violation debug fuel s); destruct r; cbn [bind] in Eq; try discriminate; split; try reflexivity; try discriminate; try congruence; intros; congruence.
Qed.
Lemma al_loop_serial W fuel nt tpt it a t p q t' p' : par_al_loop n m rnd debug fuel tf nt tpt it a t p q t' p' -> good nt tpt -> il_N (as_il a) = N -> pgood debug W p -> tinv t ->
  (q = as_loop n m debug fuel it a \/ fails nt tpt t q) /\ pgood debug W p' /\ tinv t'.
Proof.
  induction 1 as [a t p|it a t p r t1 p1 q S O|it a t p r t1 p1 a1 q t2 p2 S O L IH]; intros G HN P T; [split; [left; reflexivity|split; assumption]| |].
  - destruct (serial_cases W fuel nt tpt _ t p r t1 p1 S G HN P T) as ([[Eq _]|[NE (k & K1 & K2)]] & P1 & T1); (split; [|split; assumption]).
    + left. rewrite as_loop_outcome, <- Eq, O. reflexivity.
    + right. exists k. split; [exact K1|]. rewrite K2 in O. destruct (launches rnd tf debug (Z.of_nat N) nt tpt k t); cbn in O |- *; congruence.
  - destruct (serial_cases W fuel nt tpt _ t p r t1 p1 S G HN P T) as ([[Eq L1]|[NE _]] & P1 & T1).
    + pose proof O as O1. rewrite Eq in O1. pose proof (as_step_N _ _ _ _ O1) as N1. rewrite as_loop_outcome, O1.
      destruct IH as ([IH|(k & K1 & K2)] & IP & IT); auto; [congruence|]. split; [|split; assumption]. right. exists (Datatypes.S k). cbn [launches].
      assert (RO : exists s1, r = Ok s1) by (destruct r; cbn in O; try discriminate; eauto). destruct RO as [s1 RO]. rewrite (L1 s1 RO). cbn [bind]. split; [exact K1|exact K2].
    + exfalso. destruct r; cbn in O; try discriminate. eapply NE. reflexivity.
Qed.
Lemma al_solve_serial W fuel nt tpt a t p q t' p' : par_al_solve n m rnd debug fuel tf nt tpt a t p q t' p' -> good nt tpt -> il_N (as_il a) = N -> pgood debug W p -> tinv t ->
  (q = as_solve n m debug fuel a \/ fails nt tpt t q) /\ pgood debug W p' /\ tinv t'.
Proof.
  intros S G HN P T. inversion S as [e E NE|s q0 t1 p1 E L]; subst t' p'.
  - split; [left|split; assumption]. unfold as_solve. rewrite E. destruct e; try reflexivity. exfalso. eapply NE. reflexivity.
  - unfold as_solve. rewrite E. cbn [bind]. apply (al_loop_serial W fuel nt tpt _ _ _ _ _ _ _ L G); auto. cbn [as_il]. destruct (init_spec debug _ _ E) as ([_ A _ _] & _). congruence.
Qed.
Lemma al_loop_exists W fuel nt tpt : good nt tpt -> nt <= Z.of_nat W -> forall it a t p, il_N (as_il a) = N -> pgood debug W p -> tinv t -> fits debug W t p ->
  exists q t' p', par_al_loop n m rnd debug fuel tf nt tpt it a t p q t' p' /\ fits debug W t' p'.
Proof.
  intros G HW. induction it as [|it IH]; intros a t p HN P T Fi; [exists (Ok a), t, p; split; [apply PAL_end|exact Fi]|].
  destruct (solve_exists al_ops n m als_max_violation rnd N tf debug good Hg Hd W fuel nt tpt (as_il a) t p G HW HN P T Fi) as (r & t1 & p1 & S & Fi1).
  destruct (as_outcome a (do s1 <- r ; as_rest s1)) as [q|a1] eqn:O; [exists q, t1, p1; split; [eapply PAL_stop; eauto|exact Fi1]|].
  destruct (serial_cases W fuel nt tpt _ t p r t1 p1 S G HN P T) as ([[Eq _]|[NE _]] & P1 & T1).
  - assert (N1 : il_N (as_il a1) = N) by (rewrite Eq in O; rewrite (as_step_N _ _ _ _ O); exact HN). destruct (IH a1 t1 p1 N1 P1 T1 Fi1) as (q & t2 & p2 & L & Fi2). exists q, t2, p2. split; [eapply PAL_next; eauto|exact Fi2].
  - exfalso. destruct r; cbn in O; try discriminate. eapply NE. reflexivity.
Qed.
Lemma al_solve_exists W fuel nt tpt a t p : good nt tpt -> nt <= Z.of_nat W -> il_N (as_il a) = N -> pgood debug W p -> tinv t -> fits debug W t p ->
  exists q t' p', par_al_solve n m rnd debug fuel tf nt tpt a t p q t' p' /\ fits debug W t' p'.
Proof.
  intros G HW HN P T Fi. destruct (as_init debug (as_il a)) as [s| | | | |] eqn:E.
  2-6: eexists _, t, p; split; [apply (PAS_init n m rnd debug fuel tf nt tpt a t p _ E); discriminate|exact Fi].
  destruct (al_loop_exists W fuel nt tpt G HW (Z.to_nat (o_max_outer (il_opts s))) (mkALS s (as_status a)) t p) as (q & t1 & p1 & L & Fi1); auto.
  { cbn [as_il]. destruct (init_spec debug _ _ E) as ([_ A _ _] & _). congruence. }
  exists q, t1, p1. split; [eapply PAS_run; eauto|exact Fi1].
Qed.
End Run.
End Al.

(** ** tasks that cover only the first knot points *)
Section Part.
Context {F : Scalar} {CS : Type} (ops : CostOps F CS) (n m : nat).
Notation KPF := (KPF F CS). Notation mem := (@mem F CS).
Definition with_tail (kt : list KPF) (ct : list F) (s : mem) : mem := do (ks, cs) <- s ; Ok (ks ++ kt, cs ++ ct).
Lemma upd_app1 {A} (f : A -> A) : forall l i r, (i < length l)%nat -> upd i f (l ++ r) = upd i f l ++ r.
Proof. induction l as [|a l IH]; intros [|i] r L; cbn in *; try lia; [reflexivity|]. rewrite IH by lia. reflexivity. Qed.
Lemma on_tail kt ct k f ks cs : (k < length ks)%nat -> length cs = length ks -> on (Z.of_nat k) f (with_tail kt ct (Ok (ks, cs))) = with_tail kt ct (on (Z.of_nat k) f (Ok (ks, cs) : mem)).
Proof.
  intros L1 L2. unfold with_tail, on. cbn [bind]. replace (Z.of_nat k <? 0) with false by (symmetry; apply Z.ltb_ge; lia). rewrite Nat2Z.id, !nth_error_app1 by lia.
  destruct (nth_error ks k) eqn:A; [|apply nth_error_None in A; lia]. destruct (nth_error cs k) eqn:B; [|apply nth_error_None in B; lia]. destruct (f (k0, t)) as [a' c']. cbn [bind]. rewrite !upd_app1 by lia. reflexivity.
Qed.
Lemma replay_tail kt ct (bs : list (body mem)) L : forall H,
  (forall id j b a, In (EAct id j) H -> nth_error bs id = Some b -> nth_error b j = Some a -> exists d, a = act_of d /\ (fst d < L)%nat) ->
  forall ks cs, length ks = L -> length cs = L -> exists ks' cs', replay bs H (Ok (ks, cs)) = Ok (ks', cs') /\ length ks' = L /\ length cs' = L /\
    replay bs H (Ok (ks ++ kt, cs ++ ct)) = Ok (ks' ++ kt, cs' ++ ct).
Proof.
  induction H as [|e H IH]; intros B ks cs L1 L2; [exists ks, cs; repeat split; assumption|].
  assert (BH : forall id j b a, In (EAct id j) H -> nth_error bs id = Some b -> nth_error b j = Some a -> exists d, a = act_of d /\ (fst d < L)%nat) by (intros id j b a J; apply B; right; exact J).
  assert (NA : (forall x : mem, act bs e x = x) -> exists ks' cs', replay bs (e :: H) (Ok (ks, cs)) = Ok (ks', cs') /\ length ks' = L /\ length cs' = L /\ replay bs (e :: H) (Ok (ks ++ kt, cs ++ ct)) = Ok (ks' ++ kt, cs' ++ ct)).
  { intros Ef. unfold replay. cbn [fold_left]. rewrite !Ef. apply IH; assumption. }
  destruct e as [| |id j| | | | | | | | | | | | | |]; try (apply NA; reflexivity).
  destruct (nth_error bs id) as [b|] eqn:Eb; [|apply NA; intros x; cbn [act]; rewrite Eb; reflexivity].
  destruct (nth_error b j) as [a|] eqn:Ea; [|apply NA; intros x; cbn [act]; rewrite Eb, Ea; reflexivity].
  destruct (B id j b a (or_introl eq_refl) Eb Ea) as (d & -> & LT).
  unfold replay. cbn [fold_left act]. rewrite Eb, Ea. destruct (on_cell (fst d) (snd d) ks cs) as (ks1 & cs1 & E & LK & LC & _); [congruence|lia|].
  pose proof (on_tail kt ct (fst d) (snd d) ks cs ltac:(lia) ltac:(congruence)) as T. unfold act_of. rewrite E in T |- *. cbn [with_tail bind] in T. rewrite T. apply IH; [exact BH|congruence|congruence].
Qed.
Lemma part_round debug W H1 s1 sched H2 s2 (M : Z) tasks ks kt cs ct Za Zb : solver_run debug W H1 s1 -> (forall id, (id < length (added H1))%nat -> In (EFin id) H1) -> calling H1 = None ->
  Z.of_nat (length ks) = M + 1 -> length cs = length ks -> length Za = length ks -> exact_cover M tasks -> (forall b, In b tasks -> 0 <= fst b) ->
  p_mem s1 = Ok (ks ++ kt, cs ++ ct) -> p_exec debug sched s1 = Ok (H2 ++ [EWaited], s2) -> added H2 = map (block_acts ops n m (Za ++ Zb)) tasks -> no_timeout H2 ->
  p_mem s2 = Ok (snd (expand_all ops n m ks Za) ++ kt, fst (expand_all ops n m ks Za) ++ ct).
Proof.
  intros R FIN CN L1 L2 L3 C POS MEM E AD NT.
  assert (INZ : forall b k, In b tasks -> inb k b = true -> 0 <= k < Z.of_nat (length Za)) by (intros b k J X; specialize (POS b J); destruct C as [_ C]; specialize (C k b J X); lia).
  assert (AD' : added H2 = map (block_acts ops n m Za) tasks).
  { rewrite AD. apply map_ext_in. intros b J. unfold block_acts. rewrite !flat_map_concat_map. f_equal. apply map_ext_in. intros k K. apply in_zrange in K.
    assert (X : inb k b = true) by (unfold inb; apply andb_true_iff; split; [apply Z.leb_le|apply Z.ltb_lt]; lia). specialize (INZ b k J X). rewrite nth_error_app1 by lia. reflexivity. }
  destruct (exec_poke debug sched s1 _ _ (Ok (ks, cs)) E) as (m' & E'). assert (R' : solver_run debug W H1 (set_mem s1 (Ok (ks, cs)))) by (apply SR_own; assumption).
  pose proof (par_round ops n m debug W H1 _ sched H2 _ M tasks ks cs Za R' FIN L1 L2 L3 C POS eq_refl E' AD' NT) as PM. cbn [p_mem set_mem] in PM.
  destruct (round debug W H1 _ sched H2 _ R' FIN E' NT) as (_ & _ & _ & Q'). cbn [p_mem set_mem] in Q'. destruct (round debug W H1 _ sched H2 _ R FIN E NT) as (OLD & _ & _ & Q).
  destruct (replay_tail kt ct (added H1 ++ added H2) (length ks) H2) with (ks := ks) (cs := cs) as (ks' & cs' & X1 & _ & _ & X2); [|reflexivity|exact L2|].
  - intros id j b a J NB NJ. destruct (Nat.lt_ge_cases id (length (added H1))) as [O|O].
    { exfalso. assert (X : In (EAct id j) (filter (about id) H2)) by (apply filter_In; split; [exact J|cbn; apply Nat.eqb_refl]). rewrite (OLD id O) in X. destruct X. }
    rewrite nth_error_app2 in NB by exact O. apply nth_error_In in NB. apply nth_error_In in NJ. rewrite AD' in NB. apply in_map_iff in NB. destruct NB as (tb & <- & NB).
    rewrite block_acts_desc in NJ by (intros k; apply (INZ tb k NB)). apply in_map_iff in NJ. destruct NJ as (d & <- & K).
    exists d. split; [reflexivity|]. apply block_desc_in in K. destruct K as (k & _ & -> & K). lia.
  - rewrite Q, MEM. etransitivity; [exact X2|]. assert (Q2 : m' = Ok (ks', cs')) by (etransitivity; [exact Q'|exact X1]). rewrite Q2 in PM. injection PM as -> ->. reflexivity.
Qed.

(** ** a whole solve whose tasks stop at knot point [M] *)
Context (cb : list CS -> F).
Notation ILQR := (ILQR F CS). Notation Pool := (Pool F CS).
Definition part_update (M : nat) (Zt : Traj F) (s : ILQR) : ILQR :=
  let (cs, ks) := expand_all ops n m (firstn (S M) (il_kps s)) (firstn (S M) Zt) in
  il_set_costs s (cs ++ skipn (S M) (il_costs s)) (ks ++ skipn (S M) (il_kps s)).
Definition long_enough (M : nat) (Zt : Traj F) (s : ILQR) : bool :=
  Nat.leb (S M) (length (il_kps s)) && Nat.leb (S M) (length (il_costs s)) && Nat.leb (S M) (length Zt).
Fixpoint part_loop (fuel M : nat) (it : nat) (s : ILQR) : option (res ILQR) :=
  match it with
  | O => Some (Ok s)
  | S it =>
      match il_Z s with
      | Some Zt => if long_enough M Zt s
                   then match outcome (il_rest ops n m cb fuel Zt (part_update M Zt s)) with inl q => Some q | inr s1 => part_loop fuel M it s1 end
                   else None
      | None => None
      end
  end.
Lemma update_good debug W N t Zt s p r p' : pgood debug W p -> par_update ops n m debug N t Zt s p r p' -> pgood debug W p'.
Proof.
  intros (R & FIN & CN) U. inversion U as [p0 Hp|H q sched H' q' Hp E A NT]; subst; [split; [exact R|split; assumption]|]. cbn [fst snd] in *.
  assert (R1 : solver_run debug W H (set_mem q (Ok (il_kps s, il_costs s)))) by (apply SR_own; assumption).
  split; [cbn [fst snd]; eapply SR_pool; [exact R1|exact E]|]. split; [|cbn [fst]; apply calling_snoc]. cbn [fst]. exact (round_fin debug W H _ sched H' q' R1 FIN E NT).
Qed.
Lemma update_part debug W N M t l Zt s p r p' : pgood debug W p -> 1 < t_pool t -> t_tasks t = blocks l -> valid_inds (Z.of_nat M) l -> long_enough M Zt s = true ->
  par_update ops n m debug N t Zt s p r p' -> forall fuel, (do (ks, cs) <- r ; il_rest ops n m cb fuel Zt (il_set_costs s cs ks)) = il_rest ops n m cb fuel Zt (part_update M Zt s).
Proof.
  intros (R & FIN & CN) TP TT VL LE U fuel. unfold long_enough in LE. apply andb_true_iff in LE. destruct LE as [LE L3]. apply andb_true_iff in LE. destruct LE as [L1 L2]. apply Nat.leb_le in L1, L2, L3.
  inversion U as [p0 Hp|H q sched H' q' Hp E A NT]; subst; [lia|]. cbn [fst snd] in *. destruct (valid_cover _ l VL) as [C1 C2].
  assert (R1 : solver_run debug W H (set_mem q (Ok (il_kps s, il_costs s)))) by (apply SR_own; assumption).
  assert (AD : added H' = map (block_acts ops n m (firstn (S M) Zt ++ skipn (S M) Zt)) (blocks l)) by (rewrite firstn_skipn, (added_update _ _ A); unfold update_tasks; rewrite TT; reflexivity).
  assert (PM : p_mem q' = Ok (snd (expand_all ops n m (firstn (S M) (il_kps s)) (firstn (S M) Zt)) ++ skipn (S M) (il_kps s), fst (expand_all ops n m (firstn (S M) (il_kps s)) (firstn (S M) Zt)) ++ skipn (S M) (il_costs s))).
  { eapply (part_round debug W H _ sched H' q' (Z.of_nat M) (blocks l) (firstn (S M) (il_kps s)) (skipn (S M) (il_kps s)) (firstn (S M) (il_costs s)) (skipn (S M) (il_costs s)) (firstn (S M) Zt) (skipn (S M) Zt) R1 FIN CN).
    - rewrite firstn_length. lia.
    - rewrite !firstn_length. lia.
    - rewrite !firstn_length. lia.
    - exact C1.
    - exact C2.
    - rewrite !firstn_skipn. reflexivity.
    - exact E.
    - exact AD.
    - exact NT. }
  rewrite PM. unfold part_update. destruct (expand_all ops n m (firstn (S M) (il_kps s)) (firstn (S M) Zt)). reflexivity.
Qed.
Lemma part_sound debug W fuel M t l : 1 < t_pool t -> t_tasks t = blocks l -> valid_inds (Z.of_nat M) l -> forall it s p q p' q0, par_loop ops n m cb debug fuel t it s p q p' -> pgood debug W p ->
  part_loop fuel M it s = Some q0 -> q = q0.
Proof.
  intros TP TT VL it s p q p' q0 L. revert q0. induction L as [s p|it s p Zt r p1 q HZ U O|it s p Zt r p1 s1 q p2 HZ U O L IH]; intros q0 G E; cbn [part_loop] in E; [injection E as <-; reflexivity| |].
  - rewrite HZ in E. destruct (long_enough M Zt s) eqn:LE; [|discriminate]. rewrite (update_part _ _ _ _ _ _ _ _ _ _ _ G TP TT VL LE U fuel) in O. rewrite O in E. injection E as <-. reflexivity.
  - rewrite HZ in E. destruct (long_enough M Zt s) eqn:LE; [|discriminate]. rewrite (update_part _ _ _ _ _ _ _ _ _ _ _ G TP TT VL LE U fuel) in O. rewrite O in E. apply IH; [eapply update_good; eauto|exact E].
Qed.
Lemma part_exists debug W fuel M t l : 1 < t_pool t -> t_tasks t = blocks l -> valid_inds (Z.of_nat M) l -> forall it s p q0, pgood debug W p -> fits debug W t p ->
  part_loop fuel M it s = Some q0 -> exists p', par_loop ops n m cb debug fuel t it s p q0 p'.
Proof.
  intros TP TT VL. induction it as [|it IH]; intros s p q0 G Fi E; cbn [part_loop] in E; [injection E as <-; exists p; apply PL_end|].
  destruct (il_Z s) as [Zt|] eqn:HZ; [|discriminate]. destruct (long_enough M Zt s) eqn:LE; [|discriminate].
  destruct (update_exists ops n m debug W (Z.of_nat (il_N s)) t Zt s p Fi) as (r & p1 & U & Fi1). pose proof (update_part _ _ _ _ _ _ _ _ _ _ _ G TP TT VL LE U fuel) as X. pose proof (update_good _ _ _ _ _ _ _ _ _ G U) as G1.
  destruct (outcome (il_rest ops n m cb fuel Zt (part_update M Zt s))) as [q|s1] eqn:O.
  - injection E as <-. exists p1. eapply PL_stop; [exact HZ|exact U|]. rewrite X. exact O.
  - destruct (IH s1 p1 q0 G1 Fi1 E) as [p2 L]. exists p2. eapply PL_next; [exact HZ|exact U| |exact L]. rewrite X. exact O.
Qed.
End Part.
