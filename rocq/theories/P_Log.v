(** Property theorems: what the solvers' console log shows, and in which colours (C72). *)
From Coq Require Import ZArith QArith Reals String List Bool Lia.
From Verif Require Import Base LogModel StatsModel StatsSpec LogProofs StatLogProofs.
Import ListNotations.
Local Open Scope Z_scope.

(** ** C72 *)
(** After any sequence of calls on a new SolverStats, a header shows the active ones of the ten solver columns and a data line shows
    in each the last value logged while active since the last Reset, in the colour of the bounds in force when it was logged. *)
Theorem C72_columns : forall (F : Scalar) debug ops (s : Stats F), sl_run debug ops st_new = Ok s ->
  let hist := flat_map console ops in
  st_out (st_print_header s) = st_out s ++ expected_header (level_after 0 hist) solver_columns /\
  lg_print_data (st_log s) = expected_data 0 hist solver_columns.
Proof.
  intros F debug ops s E. destruct (solver_log_columns _ _ _ E) as [A B]. split; [|exact B].
  unfold st_print_header. cbn [st_out]. now rewrite A.
Qed.
(** Printing: counted from the last Reset, print number i is preceded by a header exactly when the frequency put in force by that Reset
    divides i; the recorded series are untouched. *)
Theorem C72_print : forall (F : Scalar) debug h o ops (s : Stats F), 0 < reset_freq o -> forallb no_reset ops = true ->
  sl_run debug (h ++ SlOp (StReset o) :: ops) st_new = Ok s ->
  let hist := flat_map console (h ++ SlOp (StReset o) :: ops) in
  exists s', sl_step debug SlPrint s = Ok s' /\ st_ser s' = st_ser s /\
    st_out s' = st_out s ++ (if sl_prints ops mod reset_freq o =? 0 then expected_header (level_after 0 hist) solver_columns else [])
                 ++ expected_data 0 hist solver_columns.
Proof. exact @solver_log_print. Qed.
(** SetTolerances: a cost change, violation or gradient logged afterwards is green exactly when it is below its tolerance. *)
Theorem C72_tolerances : forall (F : Scalar) (col : column) (tol c v g : F) h mid x post,
  In (c_title col, tol) [("dJ", c); ("viol", v); ("grad", g)]%string ->
  forallb no_tol mid = true -> forallb (keeps_cell (c_title col)) post = true ->
  0 < level_after 0 (flat_map console (h ++ SlTol c v g :: mid)) -> c_level col <= level_after 0 (flat_map console (h ++ SlTol c v g :: mid)) ->
  cell col 0 None None (None, CDefault) (flat_map console (h ++ SlTol c v g :: mid ++ SlOp (StLogF (c_title col) x) :: post)) =
    (Some (VFlt x), if ltb x tol then CLower else CDefault).
Proof. exact @solver_log_colour. Qed.
(** A bound is accepted in a debug build exactly when it is a number on the right side of the other bound; nothing but the bound changes. *)
Theorem C72_bounds : forall (F : Scalar) (lb : F) (e : LogEntry F),
  (forall e', le_set_lower true lb e = Ok e' <->
     leb lb (match le_upper e with Some u => u | None => lb end) = true /\
     e' = mkLE (le_title e) (le_data e) (le_level e) (le_width e) true (Some lb) (le_upper e) (le_color e)) /\
  (forall e', le_set_upper true lb e = Ok e' <->
     leb (match le_lower e with Some l => l | None => lb end) lb = true /\
     e' = mkLE (le_title e) (le_data e) (le_level e) (le_width e) true (le_lower e) (Some lb) (le_color e)) /\
  (exists e', le_set_lower false lb e = Ok e') /\ (exists e', le_set_upper false lb e = Ok e').
Proof.
  intros F lb e. unfold le_set_lower, le_set_upper, altro_assert. repeat split; try (eexists; reflexivity).
  - destruct (le_upper e); destruct (leb _ _) eqn:El; cbn in H; try discriminate; reflexivity.
  - destruct (le_upper e); destruct (leb _ _) eqn:El; cbn in H; try discriminate; now inversion H.
  - intros [H ->]. destruct (le_upper e); rewrite H; reflexivity.
  - destruct (le_lower e); destruct (leb _ _) eqn:El; cbn in H; try discriminate; reflexivity.
  - destruct (le_lower e); destruct (leb _ _) eqn:El; cbn in H; try discriminate; now inversion H.
  - intros [H ->]. destruct (le_lower e); rewrite H; reflexivity.
Qed.
(** AddEntry on a logger whose registered entries are exactly its columns: in a debug build it succeeds exactly for columns between
    -(n+1) and n and puts the new title there, before the old column at that position; otherwise it stops. *)
Theorem C72_add_position : forall (F : Scalar) col t lv w (g : Logger F),
  length (lg_entries g) = length (lg_order g) ->
  let n := Z.of_nat (length (lg_order g)) in
  (- n - 1 <= col <= n -> exists g' pre post, lg_step true (LgAdd col t lv w) g = Ok ([], g') /\ lg_order g = pre ++ post /\
     lg_order g' = pre ++ t :: post /\ (0 <= col -> Z.of_nat (length pre) = col) /\ (col < 0 -> Z.of_nat (length post) = - col - 1) /\
     lg_level g' = lg_level g /\ lg_freq g' = lg_freq g /\ lg_count g' = lg_count g) /\
  (~ (- n - 1 <= col <= n) -> lg_step true (LgAdd col t lv w) g = Abort).
Proof.
  intros F col t lv w g Hn n. cbn [lg_step]. unfold lg_add, altro_assert. rewrite Hn. fold n. split.
  - intros [H1 H2]. replace (col <=? n) with true by (symmetry; apply Z.leb_le; exact H2).
    replace (- n - 1 <=? col) with true by (symmetry; apply Z.leb_le; exact H1). cbn [negb andb bind].
    set (pos := lg_pos col (length (lg_order g))).
    assert (Hp : 0 <= pos <= n /\ (0 <= col -> pos = col) /\ (col < 0 -> pos = n + col + 1)).
    { unfold pos, lg_pos. destruct (Z.ltb_spec col 0); fold n; lia. }
    replace (0 <=? pos) with true by (symmetry; apply Z.leb_le; lia). replace (pos <=? n) with true by (symmetry; apply Z.leb_le; lia).
    cbn [andb bind]. eexists _, (firstn (Z.to_nat pos) (lg_order g)), (skipn (Z.to_nat pos) (lg_order g)). split; [reflexivity|].
    split; [symmetry; apply firstn_skipn|]. split; [reflexivity|]. cbn [lg_level lg_freq lg_count].
    rewrite firstn_length, skipn_length. unfold n in *. repeat split; lia.
  - intros H. destruct (Z.leb_spec col n); cbn [negb andb bind]; [|reflexivity]. destruct (Z.leb_spec (- n - 1) col); cbn [negb andb bind]; [lia|reflexivity].
Qed.
(** The check counts entries, not columns: once a title has been touched without being registered (GetEntry or Log), a column just past
    the end is accepted and the insertion is out of range (finding). *)
Theorem C72_add_position_refuted : exists (g : Logger QS) out, lg_run true [LgLog "typo" (VInt 1)] (lg_new kInner) = Ok (out, g) /\
  lg_order g = [] /\ lg_step true (LgAdd 1 "cost" kInner 10) g = UB.
Proof. eexists _, _. split; [reflexivity|]. split; reflexivity. Qed.
(** A title logged before it is registered becomes a column without a header (finding). *)
Theorem C72_late_registration_refuted : exists (g : Logger QS) out,
  lg_run true [LgLog "cost" (VInt 1); LgAdd (-1) "cost" kInner 10] (lg_new kInner) = Ok (out, g) /\
  lg_print_header g = [LHeader [(""%string, 10)]].
Proof. eexists _, _. split; reflexivity. Qed.
(** Clear keeps the colour of the erased value (finding): after logging 1 under tolerance 2, a Reset and nothing further, the empty
    cell is still green. *)
Theorem C72_stale_colour_refuted : exists ops : list (slop QS),
  match sl_run true (ops ++ [SlOp (StReset
       (mkOpts (F:=QS) 1 1 1 zero zero zero zero zero zero 1 true zero zero 1 zero zero zero zero zero zero true 1 5 1 1))]) st_new with
  | Ok s => match lg_print_data (st_log s) with [LData out] => nth_error out 3 = Some (None, CLower, 10) | _ => False end
  | _ => False
  end.
Proof.
  exists [SlVerb 5; SlTol (2%Q : T QS) (2%Q : T QS) (2%Q : T QS); SlOp (StLogF "viol" (1%Q : T QS))]%string. vm_compute. reflexivity.
Qed.
(** Reset and construction zero all counters and empty all series. *)
Theorem C72_reset : forall (F : Scalar) debug o (s s' : Stats F), st_reset debug o s = Ok s' ->
  st_initial_cost s' = zero /\ st_inner s' = 0 /\ st_outer s' = 0 /\ st_total s' = 0 /\ st_len s' = 0%nat /\
  st_ser s' = map (fun p => (fst p, [])) (st_ser s) /\ st_out s' = st_out s /\ lg_level (st_log s') = o_verbose o /\ lg_freq (st_log s') = reset_freq o.
Proof.
  intros F debug o s s' E. unfold st_reset in E. destruct (_ <? 0); [discriminate|]. unfold lg_set_frequency in E.
  destruct (altro_assert _ _); cbn [bind] in E; inversion E; subst. repeat split.
Qed.
Theorem C72_reset_ok : forall (F : Scalar) debug o (s : Stats F), (exists s', st_reset debug o s = Ok s') <->
  0 <= o_max_total o /\ (debug = true -> 0 <= reset_freq o).
Proof.
  intros F debug o s. unfold st_reset. change (if o_verbose o <? kInner then o_header_freq o else int_max) with (reset_freq o).
  unfold lg_set_frequency, altro_assert. destruct (Z.ltb_spec (o_max_total o) 0) as [H|H].
  - split; [intros [s' E]; discriminate|lia].
  - destruct debug; cbn [andb].
    + destruct (Z.leb_spec 0 (reset_freq o)); cbn [negb bind]; split; try (intros [s' E]; discriminate); try (intros; eexists; reflexivity); intros; try split; intros; try lia; auto.
    + split; [intros; split; [exact H|discriminate]|intros; eexists; reflexivity].
Qed.
Theorem C72_new : forall F : Scalar, st_initial_cost (@st_new F) = zero /\ st_inner (@st_new F) = 0 /\ st_outer (@st_new F) = 0 /\
  st_total (@st_new F) = 0 /\ st_len (@st_new F) = 0%nat /\ st_out (@st_new F) = [] /\ st_ser (@st_new F) = map (fun t => (t, [])) series_titles.
Proof. repeat split. Qed.

(** SetWidth and SetLevel change the width and the level of a column and nothing else. *)
Theorem C72_setters : forall (F : Scalar) (x : Z) (e : LogEntry F),
  (le_width (le_set_width x e) = x /\ le_level (le_set_width x e) = le_level e /\ le_title (le_set_width x e) = le_title e /\ le_data (le_set_width x e) = le_data e /\
   le_bounded (le_set_width x e) = le_bounded e /\ le_lower (le_set_width x e) = le_lower e /\ le_upper (le_set_width x e) = le_upper e /\ le_color (le_set_width x e) = le_color e) /\
  (le_level (le_set_level x e) = x /\ le_width (le_set_level x e) = le_width e /\ le_title (le_set_level x e) = le_title e /\ le_data (le_set_level x e) = le_data e /\
   le_bounded (le_set_level x e) = le_bounded e /\ le_lower (le_set_level x e) = le_lower e /\ le_upper (le_set_level x e) = le_upper e /\ le_color (le_set_level x e) = le_color e).
Proof. intros F x e. repeat split. Qed.

Definition C72_opts : Opts QS :=
  mkOpts (F:=QS) 1 1 1 zero zero zero zero zero zero 1 true zero zero 1 zero zero zero zero zero zero true 2 2 1 1.
Definition C72_h : list (slop QS) := [SlTol (1%Q : T QS) (2%Q : T QS) (3%Q : T QS)].
Definition C72_ops : list (slop QS) := [SlOp (StLogZ "iter_al" 4); SlOp (StLogF "grad" (2%Q : T QS)); SlOp (StLogF "cost" (2%Q : T QS)); SlPrint]%string.
Example C72_example : 0 < reset_freq C72_opts /\ forallb no_reset C72_ops = true /\
  match sl_run true (C72_h ++ SlOp (StReset C72_opts) :: C72_ops) st_new with
  | Ok s => match sl_step true SlPrint s with
            | Ok s' => st_out s' =
                [LHeader [("iters", 6); ("iter_al", 8); ("grad", 10)];
                 LData [(None, CDefault, 6); (Some (VInt 4), CDefault, 8); (Some (VFlt (2%Q : T QS)), CLower, 10)];
                 LData [(None, CDefault, 6); (Some (VInt 4), CDefault, 8); (Some (VFlt (2%Q : T QS)), CLower, 10)]]%string
            | _ => False
            end
  | _ => False
  end.
Proof. split; [reflexivity|]. split; [reflexivity|]. vm_compute. reflexivity. Qed.
(** the hypotheses of [C72_tolerances] and [C72_add_position] *)
Example C72_example_hyp : 0 < level_after 0 (flat_map console ([SlVerb 3] ++ SlTol (1%Q : T QS) (2%Q : T QS) (3%Q : T QS) :: [SlPrint])) /\
  forallb (keeps_cell "viol") [SlPrint; SlOp (StLogF "dJ" (1%Q : T QS))] = true /\
  length (lg_entries (@default_logger QS)) = length (lg_order (@default_logger QS)) /\ length (lg_order (@default_logger QS)) = 10%nat.
Proof. repeat split. Qed.
Print Assumptions C72_columns.
Print Assumptions C72_print.
Print Assumptions C72_tolerances.
Print Assumptions C72_bounds.
Print Assumptions C72_add_position.
Print Assumptions C72_add_position_refuted.
Print Assumptions C72_late_registration_refuted.
Print Assumptions C72_stale_colour_refuted.
Print Assumptions C72_reset.
Print Assumptions C72_reset_ok.
Print Assumptions C72_new.
Print Assumptions C72_setters.
