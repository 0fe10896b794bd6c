(** Proofs: the log of whole solves. *)
From Coq Require Import ZArith String List Bool Lia.
From Verif Require Import Base Lin LogModel StatsModel StatsSpec StatsProofs LogProofs StatLogProofs TrajModel IlqrModel IlqrSpec IlqrProofs3 IlqrProofs6 ConModel AlModel AlProofs AlProofs2 SolveLogSpec SolveLogProofs.
Import ListNotations.
Local Open Scope Z_scope.

Section Solve.
Context {F : Scalar} {CS : Type} (ops : CostOps F CS) (n m : nat) (cb : list CS -> F).
Notation ILQR := (ILQR F CS).
Lemma loop_log debug fuel it : forall (s s' : ILQR), stats_ok (il_stats s) -> il_loop ops n m cb fuel it s = Ok s' ->
  exists rs, run debug (flat_map (inner_calls (lg_level (st_log (il_stats s)))) rs) (il_stats s) (il_stats s') /\ iterations ops n m cb fuel s rs s' /\
    map ir_total rs = map (fun i => st_total (il_stats s) + Z.of_nat i) (seq 1 (length rs)) /\
    lg_level (st_log (il_stats s')) = lg_level (st_log (il_stats s)) /\
    st_inner (il_stats s') = st_inner (il_stats s) + Z.of_nat (length rs) /\ st_total (il_stats s') = st_total (il_stats s) + Z.of_nat (length rs) /\ st_outer (il_stats s') = st_outer (il_stats s) /\
    stats_ok (il_stats s') /\ il_opts s' = il_opts s.
Proof.
  assert (Nil : forall s : ILQR, stats_ok (il_stats s) -> exists rs, run debug (flat_map (inner_calls (lg_level (st_log (il_stats s)))) rs) (il_stats s) (il_stats s) /\ iterations ops n m cb fuel s rs s /\
    map ir_total rs = map (fun i => st_total (il_stats s) + Z.of_nat i) (seq 1 (length rs)) /\
    lg_level (st_log (il_stats s)) = lg_level (st_log (il_stats s)) /\
    st_inner (il_stats s) = st_inner (il_stats s) + Z.of_nat (length rs) /\ st_total (il_stats s) = st_total (il_stats s) + Z.of_nat (length rs) /\ st_outer (il_stats s) = st_outer (il_stats s) /\
    stats_ok (il_stats s) /\ il_opts s = il_opts s).
  { intros s H. exists []. split; [apply run_nil, sl_refl|]. split; [constructor|]. cbn [map length seq flat_map]. split; [reflexivity|]. split; [reflexivity|]. split; [lia|]. split; [lia|]. auto. }
  induction it as [|it IH]; intros s s' SK E; cbn [il_loop] in E; [inversion E; subst; auto|].
  destruct (il_iteration ops n m cb fuel s) as [[fin s1]| | | | |] eqn:E1; cbn [bind] in E; try discriminate.
  destruct (iteration_log ops n m cb debug fuel s fin s1 SK E1) as (r & R1 & R2 & R3 & R4 & R5 & R6 & R7 & R8).
  assert (X : exists rs, run debug (flat_map (inner_calls (lg_level (st_log (il_stats s1)))) rs) (il_stats s1) (il_stats s') /\ iterations ops n m cb fuel s1 rs s' /\
    map ir_total rs = map (fun i => st_total (il_stats s1) + Z.of_nat i) (seq 1 (length rs)) /\
    lg_level (st_log (il_stats s')) = lg_level (st_log (il_stats s1)) /\
    st_inner (il_stats s') = st_inner (il_stats s1) + Z.of_nat (length rs) /\ st_total (il_stats s') = st_total (il_stats s1) + Z.of_nat (length rs) /\ st_outer (il_stats s') = st_outer (il_stats s1) /\
    stats_ok (il_stats s') /\ il_opts s' = il_opts s1) by (destruct fin; [inversion E; subst; auto|auto]).
  destruct X as (rs & X1 & X2 & X3 & X4 & X5 & X6 & X7 & X8 & X9). exists (r :: rs). cbn [flat_map].
  split; [rewrite R3 in X1; eapply run_app; eauto|]. split; [econstructor; eauto|].
  assert (TT : ir_total r = st_total (il_stats s1)) by apply R2. split.
  { cbn [map length seq]. f_equal; [lia|]. rewrite X3, <- (seq_shift _ 1), map_map. apply map_ext. intros i. lia. }
  cbn [length]. split; [congruence|]. split; [lia|]. split; [lia|]. split; [congruence|]. split; [exact X8|congruence].
Qed.
Lemma begin_log debug (s b : ILQR) : il_begin ops n debug s = Ok b -> 
  run debug [SlVerb (o_verbose (il_opts s))] (il_stats s) (il_stats b) /\ st_inner (il_stats b) = 0 /\ st_total (il_stats b) = st_total (il_stats s) /\ st_outer (il_stats b) = st_outer (il_stats s) /\
  lg_level (st_log (il_stats b)) = o_verbose (il_opts s) /\ il_opts b = il_opts s.
Proof.
  unfold il_begin. intros E. repeat match type of E with (do _ <- altro_assert ?d ?c ; _) = _ => destruct (altro_assert d c); cbn [bind] in E; try discriminate end.
  unfold il_solve_setup in E. cbn [il_Z il_Zb il_set_stats] in E.
  destruct (il_Z s) as [Z|]; [destruct (il_Zb s) as [Zb|]|]; cbn [bind] in E; try discriminate.
  all: match type of E with context[il_sized ?x] => destruct (il_sized x); cbn [bind] in E; try discriminate; set (s1 := x) in * end.
  all: assert (S1 : il_stats s1 = st_set_verbosity (o_verbose (il_opts s)) (st_set_counts (il_stats s) (st_initial_cost (il_stats s)) 0 (st_outer (il_stats s)) (st_total (il_stats s)))) by reflexivity.
  all: assert (O1 : il_opts s1 = il_opts s) by reflexivity.
  all: clearbody s1; unfold il_get_Z in E; destruct (il_Z s1) as [Z1|]; cbn [bind] in E; try discriminate.
  all: unfold il_cost in E; destruct (calc_costs _ _ _); inversion E; cbn; rewrite S1, O1; cbn.
  all: (split; [|repeat split]).
  all: eexists; (split; [reflexivity|]); repeat split.
Qed.
Theorem solve_log debug fuel (s s' : ILQR) : stats_ok (il_stats s) -> il_solve ops n m cb debug fuel s = Ok s' ->
  exists b rs, il_begin ops n debug s = Ok b /\ run debug (solve_calls (o_verbose (il_opts s)) rs) (il_stats s) (il_stats s') /\ iterations ops n m cb fuel b rs s' /\
    map ir_total rs = map (fun i => st_total (il_stats s) + Z.of_nat i) (seq 1 (length rs)) /\
    st_inner (il_stats s') = Z.of_nat (length rs) /\ st_total (il_stats s') = st_total (il_stats s) + Z.of_nat (length rs) /\ st_outer (il_stats s') = st_outer (il_stats s) /\
    lg_level (st_log (il_stats s')) = o_verbose (il_opts s) /\ stats_ok (il_stats s') /\ il_opts s' = il_opts s.
Proof.
  intros SK E. unfold il_solve in E. destruct (il_begin ops n debug s) as [b| | | | |] eqn:EB; cbn [bind] in E; try discriminate.
  pose proof (begin_stats_ok ops n debug s b EB SK) as SB. destruct (begin_log debug s b EB) as (B1 & B2 & B3 & B4 & B5 & B6).
  destruct (loop_log debug fuel _ b s' SB E) as (rs & L1 & L2 & L3 & L4 & L5 & L6 & L7 & L8 & L9). exists b, rs. split; [reflexivity|]. unfold solve_calls.
  split; [rewrite B5 in L1; apply (run_app debug [SlVerb (o_verbose (il_opts s))] _ _ _ _ B1 L1)|]. split; [exact L2|].
  split; [rewrite <- B3; exact L3|]. split; [lia|]. split; [lia|]. split; [congruence|]. split; [congruence|]. split; [exact L8|congruence].
Qed.
End Solve.

(** ** table rows *)
Section Rows.
Context {F : Scalar}.
Implicit Types (st : Stats F).
Lemma stats_ok_step debug o st st' : stats_ok st -> sl_step debug o st = Ok st' -> stats_ok st'.
Proof.
  intros H E. destruct o as [[t x|t z| |o]|c v g|l| |]; cbn [sl_step st_step] in E.
  - inversion E. apply stats_ok_log. exact H.
  - inversion E. apply stats_ok_log. exact H.
  - inversion E. apply stats_ok_series in H. destruct H as [g H]. apply stats_ok_series. eexists. apply ser_newit. exact H.
  - unfold st_reset in E. destruct (_ <? 0); [discriminate|]. destruct (lg_set_frequency _ _ _); cbn [bind] in E; inversion E. destruct H as [H _]. split; cbn.
    + rewrite map_map. exact H.
    + intros p Hp. apply in_map_iff in Hp. destruct Hp as (q & <- & _). reflexivity.
  - unfold st_set_tolerances in E. destruct (lg_bound debug false "dJ" c _) as [g1| | | | |]; cbn in E; try discriminate. destruct (lg_bound debug false "viol" v g1) as [g2| | | | |]; cbn in E; try discriminate.
    destruct (lg_bound debug false "grad" g g2) as [g3| | | | |]; cbn in E; inversion E. exact H.
  - inversion E. exact H.
  - unfold st_print_last in E. destruct (lg_print _) as [[o g]| | | | |]; cbn in E; inversion E. exact H.
  - inversion E. exact H.
Qed.
Lemma stats_ok_run debug ops : forall st st', stats_ok st -> sl_run debug ops st = Ok st' -> stats_ok st'.
Proof.
  induction ops as [|o ops IH]; intros st st' H E; cbn [sl_run] in E; [inversion E; subst; exact H|].
  destruct (sl_step debug o st) as [st1| | | | |] eqn:E1; cbn [bind] in E; try discriminate. eapply IH; [|exact E]. eapply stats_ok_step; eauto.
Qed.
Theorem history_ok debug ops st : history debug ops st -> stats_ok st.
Proof.
  intros (st0 & E & (A & B & C & D)). eapply stats_ok_ext; [exact B|exact C|]. eapply stats_ok_run; [apply stats_ok_new|exact E].
Qed.
Lemma rows_app (a b : list (line F)) : rows (a ++ b) = (rows a + rows b)%nat.
Proof. unfold rows. rewrite filter_app, app_length. reflexivity. Qed.
Lemma rows_data l0 (ops : list (lgop F)) : rows (expected_data l0 ops solver_columns) = if 1 <=? level_after l0 ops then 1%nat else 0%nat.
Proof.
  unfold expected_data. generalize (level_after l0 ops). intros l. destruct (Z.eqb_spec l kSilent) as [->|N]; [reflexivity|]. unfold kSilent in N.
  unfold active, solver_columns. cbn [filter c_level]. destruct (Z.leb_spec 1 l).
  - destruct (Z.leb_spec 2 l); [reflexivity|]. reflexivity.
  - repeat match goal with |- context[(?a <=? l)%Z] => destruct (Z.leb_spec a l); [lia|] end. reflexivity.
Qed.
Lemma rows_header l : rows (expected_header l solver_columns : list (line F)) = 0%nat.
Proof. unfold expected_header. destruct (l =? kSilent); [reflexivity|]. destruct (active l solver_columns); reflexivity. Qed.
Fixpoint end_level (l : Z) (ops : list (slop F)) : Z :=
  match ops with [] => l | SlVerb l' :: r => end_level l' r | SlOp (StReset o) :: r => end_level (o_verbose o) r | _ :: r => end_level l r end.
Lemma end_level_console ops : forall l, level_after l (flat_map console ops) = end_level l ops.
Proof.
  induction ops as [|o ops IH]; intros l; [reflexivity|]. cbn [flat_map]. rewrite level_app, IH. destruct o as [[]| | | |]; reflexivity.
Qed.
Lemma row_count_app a : forall l b, row_count l (a ++ b) = (row_count l a + row_count (end_level l a) b)%nat.
Proof.
  induction a as [|o a IH]; intros l b; [reflexivity|]. rewrite <- app_comm_cons. destruct o as [[]| | | |]; cbn [row_count end_level]; rewrite IH; lia.
Qed.
Lemma rows_snoc debug h o st st' : sl_run debug h st_new = Ok st -> sl_step debug o st = Ok st' -> rows (st_out st') = (rows (st_out st) + row_count (end_level 0 h) [o])%nat.
Proof.
  intros H E. destruct (solver_log_columns debug h st H) as [HH HD]. rewrite end_level_console in HH. destruct (sl_step_console debug o st st' E) as (out & R & ->). rewrite rows_app. f_equal.
  destruct o as [[t x|t z| |op]|c v g|l| |]; cbn [console lg_run lg_step bind] in R.
  - inversion R. reflexivity.
  - inversion R. reflexivity.
  - inversion R. reflexivity.
  - destruct (lg_set_frequency _ _ _); cbn [bind] in R; inversion R. reflexivity.
  - destruct (lg_bound debug false "dJ" c _) as [g1| | | | |]; cbn [bind] in R; try discriminate. destruct (lg_bound debug false "viol" v g1) as [g2| | | | |]; cbn [bind] in R; try discriminate.
    destruct (lg_bound debug false "grad" g g2) as [g3| | | | |]; cbn [bind] in R; inversion R. reflexivity.
  - inversion R. reflexivity.
  - unfold lg_print in R. destruct (_ =? 0); [discriminate|]. destruct (_ =? 0); cbn [bind] in R; inversion R; rewrite ?app_nil_r, ?rows_app, HD, ?HH, ?rows_header, rows_data, end_level_console; cbn [row_count]; lia.
  - inversion R. rewrite app_nil_r, HH, rows_header. reflexivity.
Qed.
Theorem history_rows debug ops st : history debug ops st -> rows (st_out st) = row_count 0 ops.
Proof.
  intros (st0 & E & (_ & _ & _ & ->)). revert st0 E. induction ops as [|o ops IH] using rev_ind; intros st0 E.
  - inversion E. reflexivity.
  - rewrite sl_run_app in E. destruct (sl_run debug ops st_new) as [st1| | | | |] eqn:E1; cbn [bind sl_run] in E; try discriminate.
    destruct (sl_step debug o st1) as [st2| | | | |] eqn:E2; cbn [bind] in E; try discriminate. inversion E; subst st2.
    rewrite (rows_snoc debug ops o st1 st0 E1 E2), (IH st1 eq_refl), row_count_app. reflexivity.
Qed.
Lemma inner_level v (r : IterRec F) : forall l, end_level l (inner_calls v r) = l.
Proof. intros l. unfold inner_calls. destruct (ir_step r) as [[[J a] z]|]; destruct (kInner <=? v); reflexivity. Qed.
Lemma inner_rows v (r : IterRec F) : row_count v (inner_calls v r) = if 3 <=? v then 1%nat else 0%nat.
Proof.
  unfold inner_calls, kInner. destruct (Z.leb_spec 3 v); destruct (ir_step r) as [[[J a] z]|]; cbn [row_count List.app logF logZ]; try reflexivity; destruct (Z.leb_spec 1 v); reflexivity || lia.
Qed.
Lemma end_level_app a : forall l b, end_level l (a ++ b) = end_level (end_level l a) b.
Proof. induction a as [|o a IH]; intros l b; [reflexivity|]. rewrite <- app_comm_cons. destruct o as [[]| | | |]; cbn [end_level]; apply IH. Qed.
Lemma solve_level l v (rs : list (IterRec F)) : end_level l (solve_calls v rs) = v.
Proof.
  unfold solve_calls. cbn [end_level]. induction rs as [|r rs IH]; [reflexivity|]. cbn [flat_map]. rewrite end_level_app, inner_level. exact IH.
Qed.
Lemma solve_rows l v (rs : list (IterRec F)) : row_count l (solve_calls v rs) = if 3 <=? v then length rs else 0%nat.
Proof.
  unfold solve_calls. cbn [row_count]. induction rs as [|r rs IH]; [destruct (3 <=? v); reflexivity|]. cbn [flat_map]. rewrite row_count_app, inner_level, inner_rows, IH.
  destruct (3 <=? v); reflexivity.
Qed.
Lemma outer_level l v (r : OuterRec F) : end_level l (outer_calls v r) = v.
Proof.
  unfold outer_calls. rewrite end_level_app, solve_level. destruct (kInner <=? v); [destruct (or_last r)|]; reflexivity.
Qed.
Lemma outer_rows l v (r : OuterRec F) : row_count l (outer_calls v r) = if 3 <=? v then length (or_inner r) else if 1 <=? v then 1%nat else 0%nat.
Proof.
  unfold outer_calls. rewrite row_count_app, solve_rows, solve_level. unfold kInner. destruct (3 <=? v); [destruct (or_last r); cbn [row_count List.app logF logZ]; lia|].
  cbn [row_count List.app logF logZ]. destruct (1 <=? v); reflexivity.
Qed.
Lemma al_rows l (o : Opts F) v0 p0 rs : row_count l (al_calls o v0 p0 rs) =
  if 3 <=? o_verbose o then length (flat_map or_inner rs) else if 1 <=? o_verbose o then length rs else 0%nat.
Proof.
  unfold al_calls. rewrite row_count_app. cbn [row_count end_level logZ logF]. rewrite Nat.add_0_l.
  generalize (o_verbose o) at 1. intros l0. revert l0. induction rs as [|r rs IH]; intros l0; [destruct (3 <=? _); [reflexivity|destruct (1 <=? _); reflexivity]|].
  cbn [flat_map]. rewrite row_count_app, outer_rows, IH, app_length. destruct (3 <=? _); [reflexivity|]. destruct (1 <=? _); reflexivity.
Qed.
End Rows.
