(** Proofs about the console log of the solver statistics. *)
From Coq Require Import ZArith String List Bool Lia.
From Verif Require Import Base LogModel StatsModel StatsSpec LogProofs.
Import ListNotations.
Local Open Scope Z_scope.

Section SL.
Context {F : Scalar}.
Notation Logger := (Logger F). Notation Stats := (Stats F).

Lemma default_cols debug : lg_run debug (map add_col solver_columns) (lg_new kSilent : Logger) = Ok ([], default_logger).
Proof. destruct debug; reflexivity. Qed.
Lemma lg_run_app debug a : forall b (g : Logger), lg_run debug (a ++ b) g =
  do (o1, g1) <- lg_run debug a g ; do (o2, g2) <- lg_run debug b g1 ; Ok (o1 ++ o2, g2).
Proof.
  induction a as [|x a IH]; intros b g; cbn [List.app lg_run bind].
  - destruct (lg_run debug b g) as [[? ?]| | | | |]; reflexivity.
  - destruct (lg_step debug x g) as [[o1 g1]| | | | |]; cbn [bind]; try reflexivity. rewrite IH.
    destruct (lg_run debug a g1) as [[o2 g2]| | | | |]; cbn [bind]; try reflexivity.
    destruct (lg_run debug b g2) as [[o3 g3]| | | | |]; cbn [bind]; try reflexivity. now rewrite app_assoc.
Qed.
Lemma sl_run_app debug a : forall b (s : Stats), sl_run debug (a ++ b) s = do s1 <- sl_run debug a s ; sl_run debug b s1.
Proof.
  induction a as [|x a IH]; intros b s; cbn [List.app sl_run bind]; [reflexivity|].
  destruct (sl_step debug x s); cbn [bind]; auto.
Qed.

Lemma set_data_log t x (s : Stats) : st_log (st_set_data t x s) = st_log s /\ st_out (st_set_data t x s) = st_out s.
Proof. unfold st_set_data. destruct (Nat.eqb _ _); split; reflexivity. Qed.
(** every call on the statistics acts on the console log as listed by [console] *)
Lemma sl_step_console debug o (s s' : Stats) : sl_step debug o s = Ok s' ->
  exists out, lg_run debug (console o) (st_log s) = Ok (out, st_log s') /\ st_out s' = st_out s ++ out.
Proof.
  intros E. destruct o as [o|c v g|l| |]; cbn [sl_step] in E.
  - destruct o as [t x|t z| |op]; cbn [st_step] in E.
    + inversion E; subst. exists []. unfold st_logF, st_log_val. rewrite !(proj1 (set_data_log _ _ _)), !(proj2 (set_data_log _ _ _)). cbn. now rewrite app_nil_r.
    + inversion E; subst. exists []. unfold st_logZ, st_log_val. rewrite !(proj1 (set_data_log _ _ _)), !(proj2 (set_data_log _ _ _)). cbn. now rewrite app_nil_r.
    + inversion E; subst. exists []. cbn. now rewrite app_nil_r.
    + unfold st_reset in E. destruct (_ <? 0); [discriminate|]. cbn [st_log] in E.
      cbn [console lg_run lg_step bind]. change (reset_freq op) with (if o_verbose op <? kInner then o_header_freq op else int_max).
      destruct (lg_set_frequency debug _ _) as [g'| | | | |]; cbn [bind] in E |- *; inversion E; subst. exists []. cbn. now rewrite app_nil_r.
  - unfold st_set_tolerances in E. cbn [console lg_run lg_step bind].
    destruct (lg_bound debug false "dJ" c _) as [g1| | | | |]; cbn [bind] in E |- *; try discriminate.
    destruct (lg_bound debug false "viol" v _) as [g2| | | | |]; cbn [bind] in E |- *; try discriminate.
    destruct (lg_bound debug false "grad" g _) as [g3| | | | |]; cbn [bind] in E |- *; inversion E; subst. exists []. cbn. now rewrite app_nil_r.
  - inversion E; subst. exists []. cbn. now rewrite app_nil_r.
  - unfold st_print_last in E. cbn [console lg_run lg_step bind]. destruct (lg_print (st_log s)) as [[out g']| | | | |]; cbn [bind] in E |- *; inversion E; subst.
    exists out. cbn. now rewrite app_nil_r.
  - inversion E; subst. eexists. cbn. split; [reflexivity|]. now rewrite app_nil_r.
Qed.
Lemma sl_run_console debug ops : forall (s s' : Stats), sl_run debug ops s = Ok s' ->
  exists out, lg_run debug (flat_map console ops) (st_log s) = Ok (out, st_log s') /\ st_out s' = st_out s ++ out.
Proof.
  induction ops as [|o ops IH]; intros s s' E; cbn [sl_run flat_map] in *.
  - inversion E; subst. exists []. now rewrite app_nil_r.
  - destruct (sl_step debug o s) as [s1| | | | |] eqn:E1; cbn [bind] in E; try discriminate.
    destruct (sl_step_console _ _ _ _ E1) as (o1 & R1 & O1). destruct (IH _ _ E) as (o2 & R2 & O2).
    exists (o1 ++ o2). rewrite lg_run_app, R1. cbn [bind]. rewrite R2. cbn [bind]. split; [reflexivity|]. now rewrite O2, O1, app_assoc.
Qed.
Lemma console_no_add ops : forallb no_add (flat_map console ops : list (lgop F)) = true.
Proof.
  induction ops as [|o ops IH]; [reflexivity|]. cbn [flat_map]. rewrite forallb_app, IH, andb_true_r. destruct o as [[]| | | |]; reflexivity.
Qed.
Lemma cols_nodup : NoDup (map c_title solver_columns).
Proof. repeat constructor; simpl; intuition discriminate. Qed.

(** what the next header and data line look like after any history of calls *)
Theorem solver_log_columns debug ops (s : Stats) : sl_run debug ops st_new = Ok s ->
  lg_print_header (st_log s) = expected_header (level_after 0 (flat_map console ops)) solver_columns /\
  lg_print_data (st_log s) = expected_data 0 (flat_map console ops) solver_columns.
Proof.
  intros E. destruct (sl_run_console _ _ _ _ E) as (out & R & _).
  apply (logger_columns debug 0 solver_columns (flat_map console ops) out).
  - apply cols_nodup.
  - apply console_no_add.
  - change (lg_new 0) with (lg_new kSilent : Logger). rewrite lg_run_app, (default_cols debug). cbn [bind]. change (st_log st_new) with (default_logger : Logger) in R. rewrite R. reflexivity.
Qed.
Lemma sl_prints_console ops : forallb no_reset ops = true -> prints (flat_map console ops : list (lgop F)) = sl_prints ops /\ forallb keeps_count (flat_map console ops) = true.
Proof.
  intros H. unfold prints, sl_prints. induction ops as [|o ops IH]; [split; reflexivity|]. cbn [forallb] in H. apply andb_prop in H. destruct H as [H1 H2].
  destruct (IH H2) as [I1 I2]. cbn [flat_map filter]. rewrite filter_app, app_length, forallb_app, I2, andb_true_r.
  destruct o as [[]| | | |]; try discriminate; cbn in I1 |- *; split; try reflexivity; lia.
Qed.
(** a print after a Reset *)
Theorem solver_log_print debug h o ops (s : Stats) : 0 < reset_freq o -> forallb no_reset ops = true ->
  sl_run debug (h ++ SlOp (StReset o) :: ops) st_new = Ok s ->
  let hist := flat_map console (h ++ SlOp (StReset o) :: ops) in
  exists s', sl_step debug SlPrint s = Ok s' /\ st_ser s' = st_ser s /\
    st_out s' = st_out s ++ (if sl_prints ops mod reset_freq o =? 0 then expected_header (level_after 0 hist) solver_columns else [])
                 ++ expected_data 0 hist solver_columns.
Proof.
  intros Hf Hn E hist. destruct (solver_log_columns _ _ _ E) as [HH HD]. fold hist in HH, HD.
  rewrite sl_run_app in E. destruct (sl_run debug h st_new) as [s1| | | | |] eqn:E1; cbn [bind] in E; try discriminate.
  cbn [sl_run] in E. destruct (sl_step debug (SlOp (StReset o)) s1) as [s2| | | | |] eqn:E2; cbn [bind] in E; try discriminate.
  destruct (sl_run_console _ _ _ _ E) as (out & R & _). destruct (sl_prints_console _ Hn) as [P1 P2].
  assert (G : lg_freq (st_log s2) = reset_freq o /\ lg_count (st_log s2) = 0).
  { cbn [sl_step st_step] in E2. unfold st_reset in E2. destruct (_ <? 0); [discriminate|].
    unfold lg_set_frequency in E2. destruct (altro_assert _ _); cbn [bind] in E2; inversion E2; subst. split; reflexivity. }
  destruct (logger_header debug (reset_freq o) _ (st_log s2) out (st_log s) Hf (proj1 G) (proj2 G) P2 R) as (g'' & HP).
  rewrite P1, HH, HD in HP. cbn [lg_step] in HP. cbn [sl_step]. unfold st_print_last.
  rewrite HP. cbn [bind]. eexists. repeat split.
Qed.

(** the colour of a value logged after SetTolerances *)
Fixpoint lower_of (t : string) (lo : option F) (ops : list (lgop F)) : option F :=
  match ops with
  | [] => lo
  | LgBound false t' b :: r => lower_of t (if String.eqb t' t then Some b else lo) r
  | _ :: r => lower_of t lo r
  end.
Definition no_upper (o : lgop F) : bool := match o with LgBound true _ _ => false | _ => true end.
Lemma cell_app c a : forall b l lo (v : option (lval F) * color), forallb no_upper a = true ->
  cell c l lo None v (a ++ b) = cell c (level_after l a) (lower_of (c_title c) lo a) None (cell c l lo None v a) b.
Proof.
  induction a as [|o a IH]; intros b l lo v H; [reflexivity|]. cbn [forallb] in H. apply andb_prop in H. destruct H as [H1 H2].
  destruct o as [t x| | | | |l'|f|col t lv w|u t bd]; cbn [List.app cell lower_of]; unfold level_after; cbn [fold_left]; try (apply (IH b _ _ _ H2)).
  destruct u; [discriminate|]. destruct (String.eqb t (c_title c)); apply (IH b _ _ _ H2).
Qed.
Lemma console_no_upper ops : forallb no_upper (flat_map console ops : list (lgop F)) = true.
Proof.
  induction ops as [|o ops IH]; [reflexivity|]. cbn [flat_map]. rewrite forallb_app, IH, andb_true_r. destruct o as [[]| | | |]; reflexivity.
Qed.
Lemma lower_app t a : forall b lo, lower_of t lo (a ++ b) = lower_of t (lower_of t lo a) b.
Proof. induction a as [|o a IH]; intros b lo; [reflexivity|]. destruct o as [| | | | | | | |[] ? ?]; cbn; apply IH. Qed.
Lemma lower_no_tol t ops : forall lo, forallb no_tol ops = true -> lower_of t lo (flat_map console ops) = lo.
Proof.
  induction ops as [|o ops IH]; intros lo H; [reflexivity|]. cbn [forallb] in H. apply andb_prop in H. destruct H as [H1 H2].
  cbn [flat_map]. rewrite lower_app. rewrite (IH _ H2). destruct o as [[]| | | |]; try discriminate; reflexivity.
Qed.
Lemma cell_keeps c ops : forall l lo (v : option (lval F) * color), forallb (keeps_cell (c_title c)) ops = true ->
  cell c l lo None v (flat_map console ops) = v.
Proof.
  induction ops as [|o ops IH]; intros l lo v H; [reflexivity|]. cbn [forallb] in H. apply andb_prop in H. destruct H as [H1 H2].
  cbn [flat_map]. rewrite cell_app by (generalize (console_no_upper [o]); cbn [flat_map]; now rewrite app_nil_r). rewrite (IH _ _ _ H2).
  destruct o as [[t x|t z| |]| | | |]; try discriminate; cbn [console cell keeps_cell] in *; try reflexivity.
  - destruct (String.eqb t (c_title c)); [discriminate|reflexivity].
  - destruct (String.eqb t (c_title c)); [discriminate|reflexivity].
  - destruct (String.eqb "dJ" (c_title c)), (String.eqb "viol" (c_title c)), (String.eqb "grad" (c_title c)); reflexivity.
Qed.
Lemma level_app a : forall b l, level_after l (a ++ b : list (lgop F)) = level_after (level_after l a) b.
Proof. intros b l. unfold level_after. apply fold_left_app. Qed.

Theorem solver_log_colour (col : column) (tol c v g : F) h mid x post :
  In (c_title col, tol) [("dJ", c); ("viol", v); ("grad", g)]%string ->
  forallb no_tol mid = true -> forallb (keeps_cell (c_title col)) post = true ->
  0 < level_after 0 (flat_map console (h ++ SlTol c v g :: mid)) -> c_level col <= level_after 0 (flat_map console (h ++ SlTol c v g :: mid)) ->
  cell col 0 None None (None, CDefault) (flat_map console (h ++ SlTol c v g :: mid ++ SlOp (StLogF (c_title col) x) :: post)) =
    (Some (VFlt x), if ltb x tol then CLower else CDefault).
Proof.
  intros Ht Hm Hp Hl Hc.
  replace (h ++ SlTol c v g :: mid ++ SlOp (StLogF (c_title col) x) :: post) with ((h ++ SlTol c v g :: mid) ++ SlOp (StLogF (c_title col) x) :: post)
    by (rewrite <- app_assoc; reflexivity).
  rewrite flat_map_app, cell_app by apply console_no_upper.
  set (l := level_after 0 _) in *. cbn [flat_map console List.app cell]. rewrite String.eqb_refl.
  replace (kSilent <? l) with true by (symmetry; apply Z.ltb_lt; exact Hl). replace (c_level col <=? l) with true by (symmetry; apply Z.leb_le; exact Hc).
  cbn [andb]. rewrite (cell_keeps col post _ _ _ Hp). f_equal. unfold tint. cbn [lval_num].
  replace (lower_of (c_title col) None (flat_map console (h ++ SlTol c v g :: mid))) with (Some tol); [reflexivity|].
  rewrite flat_map_app, lower_app. cbn [flat_map]. rewrite lower_app, (lower_no_tol _ _ _ Hm).
  generalize (lower_of (c_title col) None (flat_map console h)). intros lo.
  destruct Ht as [E|[E|[E|[]]]]; inversion E; subst; cbn [console lower_of]; reflexivity.
Qed.
End SL.
