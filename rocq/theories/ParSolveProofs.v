(** Solves on the thread pool give what serial solves give. *)
From Coq Require Import List ZArith Bool Lia Arith.
From Verif Require Import Base Lin LogModel StatsModel StatsProofs TrajModel IlqrModel IlqrSpec IlqrFrame IlqrProofs IlqrProofs2 IlqrProofs3 IlqrProofs4.
From Verif Require Import PoolSpec PoolModel PoolProofs TaskModel TaskSpec ParModel ParProofs ParProofs2 ParProofs3 TaskProofs TaskProofs2 ParSolveModel.
From Verif Require ResolveProofs.
Import ListNotations.
Local Open Scope Z_scope.

Lemma asked_app {M} (a b : list (pev M)) : asked (a ++ b) = asked a ++ asked b.
Proof. apply flat_map_app. Qed.
Lemma added_asked {M} (H : list (pev M)) : added H = flat_map (fun a => match a with AAdd b => [b] | _ => [] end) (asked H).
Proof.
  unfold added, asked in *. induction H as [|e H IH]; [reflexivity|]. cbn [flat_map]. rewrite flat_map_app, <- IH. destruct e; reflexivity.
Qed.
Lemma added_update {M} (H : list (pev M)) bs : asked H = map AAdd bs ++ [AWait] -> added H = bs.
Proof.
  intros E. rewrite added_asked, E, flat_map_app. cbn. rewrite app_nil_r. clear E. induction bs as [|b bs IH]; [reflexivity|]. cbn. rewrite IH. reflexivity.
Qed.
Lemma calling_snoc {M} (H H' : list (pev M)) : calling (H ++ H' ++ [EWaited]) = None.
Proof. unfold calling. rewrite !fold_left_app. reflexivity. Qed.

Lemma round_fin {M} debug W (H : list (pev M)) s1 sched H' s2 : solver_run debug W H s1 -> (forall id, (id < length (added H))%nat -> In (EFin id) H) ->
  p_exec debug sched s1 = Ok (H' ++ [EWaited], s2) -> no_timeout H' -> forall id, (id < length (added (H ++ H' ++ [EWaited])))%nat -> In (EFin id) (H ++ H' ++ [EWaited]).
Proof.
  intros R FIN E NT. destruct (round debug W H s1 sched H' s2 R FIN E NT) as (_ & R2 & _ & _). intros id J. rewrite !added_app, !app_length in J. change (length (added [EWaited])) with 0%nat in J. apply in_or_app.
  destruct (Nat.lt_ge_cases id (length (added H))) as [K|K]; [left; apply FIN; exact K|right]. apply in_or_app. left.
  destruct (nth_error (added H') (id - length (added H))) as [b|] eqn:B; [|apply nth_error_None in B; lia].
  specialize (R2 _ _ B). replace (length (added H) + (id - length (added H)))%nat with id in R2 by lia. apply (filter_In (about id)). rewrite R2. unfold life. right. right. apply in_or_app. right. left. reflexivity.
Qed.

Section P.
Context {F : Scalar} {CS : Type} (ops : CostOps F CS) (n m : nat) (cb : list CS -> F).
Notation ILQR := (ILQR F CS). Notation mem := (@mem F CS). Notation Pool := (Pool F CS).
Let Rtop : CS -> CS -> Prop := fun _ _ => True.
Notation it_spec := (iteration_spec ops n m cb Rtop (fun _ => I) (fun _ _ _ _ _ => I) (fun _ _ _ => I) (fun _ _ _ _ => I) (fun _ _ _ _ => I)).
Notation beg := (begin_spec ops n Rtop (fun _ => I) (fun _ _ _ => I)).

(** ** sizes *)
Definition sized (s : ILQR) : Prop := il_ready s /\ length (il_costs s) = S (il_N s).
Lemma calc_len : forall ks (Zt : Traj F), length ks = length Zt -> length (fst (calc_costs ops ks Zt)) = length ks.
Proof.
  induction ks as [|k ks IH]; intros [|z Zt] L; try discriminate; [reflexivity|]. cbn [calc_costs]. destruct (kpf_cost ops k (z_x z) (z_u z)) as [J k'].
  specialize (IH Zt ltac:(cbn in L; lia)). destruct (calc_costs ops ks Zt) as [Js ks']. cbn in *. lia.
Qed.
Definition lens (s : ILQR) : Prop := length (il_kps s) = S (il_N s) /\ (exists Zb, il_Zb s = Some Zb /\ length Zb = S (il_N s)) /\ length (il_costs s) = S (il_N s).
Lemma ls_lens Zt J0 : forall it alpha s ok J s', line_search ops n m it J0 alpha Zt s = (ok, J, s') -> lens s -> lens s'.
Proof.
  induction it as [|it IH]; intros alpha s ok J s' E Hl; cbn [line_search] in E; [inversion E; subst; exact Hl|].
  destruct Hl as (Hk & (Zb & HZ & LZ) & Hc). rewrite HZ in E. unfold il_rollout_closed in E.
  pose proof (ResolveProofs.roll_closed_length n m (il_opts s) alpha (il_kps s) (vstore n (il_x0 s)) Zt Zb) as LR.
  destruct (roll_closed n m (il_opts s) alpha (vstore n (il_x0 s)) (il_kps s) Zt Zb) as [st Zb'] eqn:ER. cbn [snd] in LR.
  destruct st as [e|].
  - apply IH in E; [exact E|]. split; [exact Hk|]. split; [exists Zb'; split; [reflexivity|]; cbn; lia|exact Hc].
  - cbn [il_Zb il_set_status il_set_Zb] in E. unfold il_cost in E. cbn [il_kps il_set_status il_set_Zb] in E.
    pose proof (calc_len (il_kps s) Zb' ltac:(lia)) as LC. pose proof (ResolveProofs.calc_costs_length ops (il_kps s) Zb') as LK. destruct (calc_costs ops (il_kps s) Zb') as [Js ks']. cbn [fst snd] in *.
    assert (L1 : lens (il_set_costs (il_set_status (il_set_Zb s (Some Zb')) kUnsolved) Js ks')).
    { split; [cbn; lia|]. split; [exists Zb'; split; [reflexivity|cbn; lia]|cbn; lia]. }
    match type of E with (if ?b then _ else _) = _ => destruct b end; [inversion E; subst; exact L1|apply IH in E; assumption].
Qed.
Lemma fwd_lens Zt s : lens s -> length (il_costs (il_forward_pass ops n m Zt s)) = S (il_N (il_forward_pass ops n m Zt s)).
Proof.
  intros Hl. unfold il_forward_pass. destruct (line_search ops n m _ _ one Zt s) as [[ok J] s1] eqn:E. apply ls_lens in E; [|exact Hl].
  destruct E as (_ & _ & E). destruct ok; cbn; destruct (ltb _ _); exact E.
Qed.
Lemma iter_sized fuel s fin s' : sized s -> il_iteration ops n m cb fuel s = Ok (fin, s') -> sized s' /\ il_N s' = il_N s.
Proof.
  intros [Hr Hc] E. destruct (it_spec _ _ _ _ Hr E) as (Zt & s2 & s3 & It & R2 & R' & _).
  pose proof (iter_counts ops n m cb fuel s fin s' Hr E) as (_ & _ & _ & _ & _ & HN). split; [|exact HN]. split; [exact R'|].
  rewrite (it_costs' _ _ _ _ _ _ _ _ _ _ It), (it_fwd _ _ _ _ _ _ _ _ _ _ It).
  pose proof (it_frame _ _ _ _ _ _ _ _ _ _ It) as F3. rewrite (it_fwd _ _ _ _ _ _ _ _ _ _ It) in F3.
  assert (L2 : lens s2).
  { destruct R2 as (A & B & C). split; [exact A|]. split; [exact C|]. rewrite (it_costs2 _ _ _ _ _ _ _ _ _ _ It).
    destruct Hr as (K1 & (Z1 & K2 & K3) & _). rewrite (it_Z _ _ _ _ _ _ _ _ _ _ It) in K2. injection K2 as <-.
    destruct (expand_length ops n m (il_kps s) Zt ltac:(lia)) as [-> _].
    pose proof (it_frame2 _ _ _ _ _ _ _ _ _ _ It) as F2. destruct F2 as [N2 _ _ _]. lia. }
  apply (fwd_lens Zt) in L2. destruct F3 as [N3 _ _ _]. congruence.
Qed.
Lemma begin_sized debug s s1 : il_begin ops n debug s = Ok s1 -> sized s1 /\ il_N s1 = il_N s.
Proof.
  intros E. destruct (beg _ _ _ E) as (Z & Z1 & St). pose proof (so_frame _ _ _ _ _ _ _ _ St) as [N1 _ _ _].
  split; [|exact N1]. split; [apply St|]. rewrite (so_costs _ _ _ _ _ _ _ _ St). destruct (so_kps _ _ _ _ _ _ _ _ St) as [A B].
  destruct (so_Z1 _ _ _ _ _ _ _ _ St) as [C D]. destruct (so_ready _ _ _ _ _ _ _ _ St) as (_ & (Z2 & E2 & L2) & _). rewrite E2 in C. injection C as ->. rewrite calc_len; lia.
Qed.

(** ** one update *)
Definition pgood (debug : bool) (W : nat) (p : Pool) : Prop :=
  solver_run debug W (fst p) (snd p) /\ (forall id, (id < length (added (fst p)))%nat -> In (EFin id) (fst p)) /\ calling (fst p) = None.
Definition covered (N : Z) (t : Tasks) : Prop := t_pool t <> 0 -> exists l, valid_inds N l /\ t_tasks t = blocks l.
Lemma update_ok debug W t Zt s p r p' : pgood debug W p -> covered (Z.of_nat (il_N s)) t -> sized s -> il_Z s = Some Zt ->
  par_update ops n m debug (Z.of_nat (il_N s)) t Zt s p r p' ->
  r = Ok (snd (expand_all ops n m (il_kps s) Zt), fst (expand_all ops n m (il_kps s) Zt)) /\ pgood debug W p'.
Proof.
  intros (R & FIN & CN) CV [(Hk & (Z1 & HZ1 & LZ) & _) Hc] HZ U. rewrite HZ in HZ1. injection HZ1 as <-.
  inversion U as [p0 Hp|H q sched H' q' Hp E A NT]; subst.
  - split; [|split; [exact R|split; assumption]]. apply serial_expand; lia.
  - cbn [fst snd] in *. destruct (CV ltac:(lia)) as (l & Vl & Tl). destruct (valid_cover _ l Vl) as [C1 C2].
    assert (R1 : solver_run debug W H (set_mem q (Ok (il_kps s, il_costs s)))) by (apply SR_own; assumption).
    assert (AD : added H' = map (block_acts ops n m Zt) (blocks l)) by (rewrite (added_update _ _ A); unfold update_tasks; rewrite Tl; reflexivity).
    split.
    + eapply (par_round ops n m debug W H _ sched H' q' (Z.of_nat (il_N s)) (blocks l) (il_kps s) (il_costs s) Zt R1 FIN); [rewrite Hk; lia|congruence|congruence|exact C1|exact C2|reflexivity|exact E|exact AD|exact NT].
    + split; [cbn [fst snd]; eapply SR_pool; [exact R1|exact E]|]. split; [|cbn [fst]; apply calling_snoc]. cbn [fst].
      exact (round_fin debug W H _ sched H' q' R1 FIN E NT).
Qed.
Lemma does_good debug W asks p p' : pgood debug W p -> (forall b, ~ In (AAdd b) asks) -> pool_does debug asks p p' -> pgood debug W p'.
Proof.
  intros (R & FIN & _) NA (sched & H & E & EH & A & CN & NT & NH). rewrite EH in *.
  assert (AD : added H = []).
  { rewrite added_asked, A. clear - NA. induction asks as [|a asks IH]; [reflexivity|]. cbn. destruct a; try (apply IH; intros b0 J; apply (NA b0); right; exact J). exfalso. apply (NA b). left. reflexivity. }
  split; [rewrite EH; eapply SR_pool; eauto|]. split; [|rewrite EH; exact CN]. rewrite EH, added_app, AD, app_nil_r. intros id J. apply in_or_app. left. apply FIN. exact J.
Qed.
Lemma launch_no_add N nt tpt t b : ~ In (AAdd b) (launch_asks (CS:=CS) (F:=F) N nt tpt t).
Proof.
  unfold launch_asks. destruct ((t_pool t =? 0) && (nt =? 1)); [intros []|]. destruct (if 0 <? N then _ else _) as [[]| | | | |]; try (intros []).
  intros J. apply in_app_or in J. destruct J as [J|J]; [destruct (0 <? t_pool t)|destruct (1 <? nt)]; cbn in J; repeat destruct J as [J|J]; try contradiction; discriminate.
Qed.

(** ** loops *)
Lemma iteration_rest fuel s Zt : il_Z s = Some Zt -> il_iteration ops n m cb fuel s = il_rest ops n m cb fuel Zt (il_update_expansions ops n m Zt s).
Proof. intros H. unfold il_iteration, il_get_Z. rewrite H. reflexivity. Qed.
Lemma rest_update fuel s Zt : (do (ks, cs) <- Ok (snd (expand_all ops n m (il_kps s) Zt), fst (expand_all ops n m (il_kps s) Zt)) ; il_rest ops n m cb fuel Zt (il_set_costs s cs ks)) =
  il_rest ops n m cb fuel Zt (il_update_expansions ops n m Zt s).
Proof. unfold il_update_expansions. destruct (expand_all ops n m (il_kps s) Zt). reflexivity. Qed.
Lemma loop_outcome fuel it s Zt : il_Z s = Some Zt -> il_loop ops n m cb fuel (S it) s =
  match outcome (il_rest ops n m cb fuel Zt (il_update_expansions ops n m Zt s)) with inl q => q | inr s1 => il_loop ops n m cb fuel it s1 end.
Proof. intros H. cbn [il_loop]. rewrite (iteration_rest _ _ _ H). destruct (il_rest ops n m cb fuel Zt _) as [[[] s1]| | | | |]; reflexivity. Qed.
Lemma loop_serial debug W fuel t it s p q p' : par_loop ops n m cb debug fuel t it s p q p' -> pgood debug W p -> covered (Z.of_nat (il_N s)) t -> sized s ->
  q = il_loop ops n m cb fuel it s /\ pgood debug W p'.
Proof.
  induction 1 as [s p|it s p Zt r p1 q HZ U O|it s p Zt r p1 s1 q p2 HZ U O L IH]; intros G C Sz; [split; [reflexivity|exact G]| |].
  - destruct (update_ok _ _ _ _ _ _ _ _ G C Sz HZ U) as [-> G1]. rewrite rest_update in O. rewrite (loop_outcome _ _ _ _ HZ), O. split; [reflexivity|exact G1].
  - destruct (update_ok _ _ _ _ _ _ _ _ G C Sz HZ U) as [-> G1]. rewrite rest_update in O. rewrite (loop_outcome _ _ _ _ HZ), O.
    assert (E : il_iteration ops n m cb fuel s = Ok (false, s1)).
    { rewrite (iteration_rest _ _ _ HZ). destruct (il_rest ops n m cb fuel Zt _) as [[[] s2]| | | | |]; cbn in O; try discriminate. injection O as ->. reflexivity. }
    destruct (iter_sized _ _ _ _ Sz E) as [Sz1 N1]. apply IH; [exact G1|rewrite N1; exact C|exact Sz1].
Qed.

Section Run.
Context (rnd : F -> Z) (N : nat) (tf : nat) (debug : bool) (good : Z -> Z -> Prop) (Hg : forall nt tpt, good nt tpt -> 1 <= nt * tpt)
  (Hd : forall nt tpt l, good nt tpt -> default_inds rnd tf debug (Z.of_nat N) nt tpt = Ok l -> valid_inds (Z.of_nat N) l).
Notation tinv := (tinv (Z.of_nat N)).
(** what a program does with a solver that computes its expansions serially; the task data is kept as in the code (its assertions may fail) *)
Definition ser_solve (fuel : nat) (nt tpt : Z) (s : ILQR) (t : Tasks) : res (ILQR * Tasks) :=
  do _ <- il_begin ops n debug s ;
  do t1 <- launch rnd tf debug (Z.of_nat (il_N s)) nt tpt t ;
  do s1 <- il_solve ops n m cb debug fuel s ;
  Ok (s1, t1).
Fixpoint ser_run (fuel : nat) (os : list (uop F CS)) (s : ILQR) (t : Tasks) : res (ILQR * Tasks) :=
  match os with
  | [] => Ok (s, t)
  | UEdit f :: r => ser_run fuel r (f s) t
  | UGetTasks nt tpt :: r => do t1 <- get_tasks rnd tf debug (Z.of_nat (il_N s)) nt tpt t ; ser_run fuel r s t1
  | USetTasks l :: r => do t1 <- set_tasks debug (Z.of_nat (il_N s)) l t ; ser_run fuel r s t1
  | USolve nt tpt :: r => do (s1, t1) <- ser_solve fuel nt tpt s t ; ser_run fuel r s1 t1
  end.
Lemma solve_serial W fuel nt tpt s t p q t' p' : par_solve ops n m cb rnd debug fuel tf nt tpt s t p q t' p' -> good nt tpt -> il_N s = N ->
  pgood debug W p -> tinv t -> (do s1 <- q ; Ok (s1, t')) = ser_solve fuel nt tpt s t /\ pgood debug W p' /\ tinv t'.
Proof.
  intros S G HN P T. unfold ser_solve. inversion S as [e E NE|s1 e E L NE|s1 t1 p1 q0 p2 E L D Lo]; subst t' p'.
  - split; [|split; assumption]. assert (Q : il_begin ops n debug s = q) by congruence. rewrite Q. destruct q; cbn [bind]; try reflexivity. exfalso. eapply NE. first [eassumption|reflexivity].
  - split; [|split; assumption]. rewrite E, L. cbn [bind]. destruct e; try reflexivity. exfalso. eapply NE. reflexivity.
  - subst q0. destruct (begin_sized _ _ _ E) as [Sz N1]. assert (T1 : tinv t1).
    { eapply (step_tinv rnd (Z.of_nat N) tf debug good Hg Hd (TLaunch nt tpt)); [exact G|exact T|]. rewrite <- HN. exact L. }
    pose proof (does_good _ _ _ _ _ P (launch_no_add _ _ _ _) D) as P1.
    destruct (loop_serial _ _ _ _ _ _ _ _ _ Lo P1) as [-> P2]; [rewrite N1, HN; exact (proj2 T1)|exact Sz|]. split; [|split; assumption]. rewrite L, E. cbn [bind]. unfold il_solve. rewrite E. reflexivity.
Qed.
Definition good_uop (o : uop F CS) : Prop :=
  match o with UEdit f => forall s, il_N (f s) = il_N s | UGetTasks nt tpt | USolve nt tpt => good nt tpt | USetTasks l => valid_inds (Z.of_nat N) l end.
Lemma solve_N fuel s s1 : il_solve ops n m cb debug fuel s = Ok s1 -> il_N s1 = il_N s.
Proof. intros E. destruct (solve_ready ops n m cb Rtop (fun _ => I) (fun _ _ _ _ _ => I) (fun _ _ _ => I) (fun _ _ _ _ => I) (fun _ _ _ _ => I) debug fuel s s1 E) as [_ [A _ _ _]]. exact A. Qed.
Lemma ser_solve_ok fuel nt tpt s t s1 t1 : ser_solve fuel nt tpt s t = Ok (s1, t1) -> il_solve ops n m cb debug fuel s = Ok s1 /\ launch rnd tf debug (Z.of_nat (il_N s)) nt tpt t = Ok t1.
Proof.
  unfold ser_solve. destruct (il_begin ops n debug s); try discriminate. cbn [bind]. destruct (launch rnd tf debug (Z.of_nat (il_N s)) nt tpt t); try discriminate. cbn [bind].
  destruct (il_solve ops n m cb debug fuel s); try discriminate. cbn [bind]. intros E. injection E as <- <-. split; reflexivity.
Qed.
Lemma run_serial W fuel os s t p q t' p' : par_run ops n m cb rnd debug fuel tf os s t p q t' p' -> Forall good_uop os -> il_N s = N ->
  pgood debug W p -> tinv t -> (do s1 <- q ; Ok (s1, t')) = ser_run fuel os s t /\ pgood debug W p' /\ tinv t'.
Proof.
  induction 1 as [s t p|f os s t p q t' p' _ IH|nt tpt os s t t1 p q t' p' E _ IH|nt tpt os s t p e E NE|inds os s t p e E NE|inds os s t t1 p q t' p' E _ IH|nt tpt os s t p s1 t1 p1 q t' p' S _ IH|nt tpt os s t p e t1 p1 S NE];
    intros Go HN P T; [split; [reflexivity|split; assumption]| | | | | | |]; inversion Go as [|? ? G1 G2]; subst os; cbn [ser_run]; rewrite ?HN in *.
  - apply IH; auto. rewrite (G1 s). exact HN.
  - rewrite E. apply IH; auto. eapply (step_tinv rnd _ tf debug good Hg Hd (TGet nt tpt)); [exact G1|exact T|exact E].
  - split; [|split; assumption]. rewrite E. destruct e; try reflexivity. exfalso. eapply NE. reflexivity.
  - split; [|split; assumption]. rewrite E. destruct e; try reflexivity. exfalso. eapply NE. reflexivity.
  - rewrite E. apply IH; auto. eapply (step_tinv rnd _ tf debug good Hg Hd (TSet inds)); [exact G1|exact T|exact E].
  - destruct (solve_serial _ _ _ _ _ _ _ _ _ _ S G1 HN P T) as (Eq & P1 & T1). cbn [bind] in Eq. rewrite <- Eq. cbn [bind]. apply IH; auto.
    symmetry in Eq. apply ser_solve_ok in Eq. rewrite (solve_N _ _ _ (proj1 Eq)). exact HN.
  - destruct (solve_serial _ _ _ _ _ _ _ _ _ _ S G1 HN P T) as (Eq & P1 & T1). split; [|split; assumption].
    rewrite <- Eq. destruct e; cbn [bind]; try reflexivity. exfalso. eapply NE. reflexivity.
Qed.
End Run.
End P.
