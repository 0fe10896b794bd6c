(** Property theorems: thread option (C37), statistics (C42), console log (C43). *)
From Coq Require Import ZArith QArith String List Bool Lia.
From Verif Require Import Base LogModel StatsModel StatsSpec StatsProofs LogProofs.
Import ListNotations.
Local Open Scope Z_scope.

(** ** C37 *)
(** [hw] is whatever std::thread::hardware_concurrency() reports; -1 is kPickHardwareThreads. *)
Theorem C37_num_threads : forall (F : Scalar) hw (o : Opts F),
  (o_nthreads o = -1 -> num_threads hw o = hw) /\
  (o_nthreads o <> -1 -> 1 <= num_threads hw o) /\
  (0 < o_nthreads o -> num_threads hw o = o_nthreads o).
Proof. exact @num_threads_spec. Qed.
Example C37_example : num_threads 8 (@opts_default QS) = 1 /\
  num_threads 8 (mkOpts (F:=QS) 1 1 1 zero zero zero zero zero zero 1 true zero zero 1 zero zero zero zero zero zero true 1 0 (-7) 1) = 1 /\
  num_threads 8 (mkOpts (F:=QS) 1 1 1 zero zero zero zero zero zero 1 true zero zero 1 zero zero zero zero zero zero true 1 0 (-1) 1) = 8.
Proof. repeat split. Qed.
Print Assumptions C37_num_threads.

(** ** C42 *)
(** Every recorded series, after any history of calls: one entry per iteration, entry i being the last value
    logged before the end of iteration i. *)
Theorem C42_series : forall (F : Scalar) debug ops (s : Stats F), st_run debug ops st_new = Ok s ->
  forall t, In t series_titles ->
    exists l, st_get t s = Some l /\ length l = iterations (since_reset ops) /\
      forall i, (i < length l)%nat -> nth_error l i = Some (last_logged t (upto i 0 (since_reset ops))).
Proof.
  intros F debug ops s E t Ht. exists (series_of t (since_reset ops)).
  split; [|split].
  - eapply stats_series; eauto.
  - apply series_len.
  - intros i Hi. apply series_entry. now rewrite <- (series_len t).
Qed.
(** Nothing else is recorded; in particular the integer columns are not. *)
Theorem C42_only_the_eight_series : forall (F : Scalar) debug ops (s : Stats F),
  st_run debug ops st_new = Ok s -> map fst (st_ser s) = series_titles.
Proof. exact @stats_titles. Qed.
(** Logging an unregistered title leaves all series unchanged once an iteration exists ... *)
Theorem C42_unregistered_log_partial : forall (F : Scalar) t v (s : Stats F),
  ~ In t (map fst (st_ser s)) -> st_len s <> 0%nat -> st_ser (st_log_val t v s) = st_ser s.
Proof. exact @stats_unregistered. Qed.
(** ... but on an empty record it opens the first iteration: every series gets a zero entry (finding). *)
Theorem C42_unregistered_log_refuted : exists s : Stats QS, exists t v,
  ~ In t (map fst (st_ser s)) /\ st_ser (st_log_val t v s) <> st_ser s.
Proof.
  exists st_new, "iters"%string, (VInt 3). split.
  - simpl. intuition discriminate.
  - intros H. apply (f_equal (fun l => length (snd (hd (""%string, []) l)))) in H. vm_compute in H. discriminate.
Qed.
Definition C42_history : list (stop QS) :=
  [StLogF "cost" (9%Q : T QS); StNew; StReset opts_default; StLogZ "iters" 1; StLogF "cost" (5%Q : T QS);
   StLogF "cost" (4%Q : T QS); StNew; StNew; StLogF "cost" (1%Q : T QS); StLogF "dJ" (3%Q : T QS)]%string.
Example C42_example :
  match st_run true C42_history st_new with
  | Ok s => st_get "cost" s = Some [4%Q; 4%Q; 1%Q] /\ st_get "dJ" s = Some [0%Q; 0%Q; 3%Q] /\ st_get "iters" s = None
  | _ => False
  end /\ iterations (since_reset C42_history) = 3%nat /\ last_logged "cost" (upto 1 0 (since_reset C42_history)) = (4%Q : T QS).
Proof. vm_compute. repeat split. Qed.
Print Assumptions C42_series.
Print Assumptions C42_only_the_eight_series.
Print Assumptions C42_unregistered_log_partial.
Print Assumptions C42_unregistered_log_refuted.

(** ** C43 *)
Theorem C43_silent : forall (F : Scalar) debug ops (g : Logger F) out g',
  lg_run debug ops g = Ok (out, g') -> lg_level g = kSilent ->
  Forall (fun o => match o with LgSetLevel l => l = kSilent | _ => True end) ops -> out = [].
Proof. exact @silent_run. Qed.
(** After registering columns with distinct titles and any further calls, a header shows exactly the columns
    whose level does not exceed the verbosity in registration order, and a data line shows their last values. *)
Theorem C43_columns : forall (F : Scalar) debug l0 cs (ops : list (lgop F)) out g,
  NoDup (map c_title cs) -> forallb no_add ops = true ->
  lg_run debug (map add_col cs ++ ops) (lg_new l0) = Ok (out, g) ->
  lg_step debug LgPrintHeader g = Ok (expected_header (level_after l0 ops) cs, g) /\
  lg_step debug LgPrintData g = Ok (expected_data l0 ops cs, g).
Proof.
  intros F debug l0 cs ops out g H1 H2 H3. destruct (logger_columns _ _ _ _ _ _ H1 H2 H3) as [A B].
  simpl. rewrite A, B. auto.
Qed.
(** Counting prints from a new or cleared logger, print number i is preceded by a header exactly when the
    frequency divides i. *)
Theorem C43_header_frequency : forall (F : Scalar) debug f ops (g : Logger F) out g',
  0 < f -> lg_freq g = f -> lg_count g = 0 -> forallb keeps_count ops = true ->
  lg_run debug ops g = Ok (out, g') ->
  exists g'', lg_step debug LgPrint g' =
    Ok ((if prints ops mod f =? 0 then lg_print_header g' else []) ++ lg_print_data g', g'').
Proof. exact @logger_header. Qed.
Theorem C43_clear_restarts : forall (F : Scalar) (g : Logger F),
  lg_count (lg_clear g) = 0 /\ lg_freq (lg_clear g) = lg_freq g /\ forall l : Z, lg_count (lg_new l : Logger F) = 0.
Proof. exact @logger_clear_count. Qed.
Definition C43_logger : list (lgop QS) :=
  [LgAdd (-1) "a" kOuter 4; LgAdd (-1) "b" kInner 5; LgAdd (-1) "c" kDebug 6]%string.
(** An explicitly printed header does not restart the count, contrary to the stated property (finding). *)
Theorem C43_explicit_header_refuted : exists (g : Logger QS) ops out g', lg_freq g = 2 /\ lg_count g = 0 /\
  lg_run true (ops ++ [LgPrintHeader; LgPrint]) g = Ok (out, g') /\
  exists o1 g1, lg_run true ops g = Ok (o1, g1) /\ out = o1 ++ lg_print_header g1 ++ lg_print_data g1.
Proof.
  eexists (mkLogger kOuter 2 0 [("a"%string, mkLE "a"%string None kOuter 4 false None None CDefault)] ["a"%string]), [LgPrint], _, _.
  repeat split. exists [LHeader [("a"%string, 4)]; LData [(None, CDefault, 4)]]. eexists. split; reflexivity.
Qed.
(** SetFrequency accepts 0 (its check is [>= 0]); the next print divides by zero (finding). *)
Theorem C43_zero_frequency_refuted : forall (F : Scalar) (g : Logger F), exists g',
  lg_set_frequency true 0 g = Ok g' /\ lg_print g' = UB.
Proof. intros. eexists. split; reflexivity. Qed.
(** A zero header frequency in the options reaches the logger at every Reset with verbosity below kInner. *)
Theorem C43_zero_frequency_option_refuted : forall (F : Scalar) (o : Opts F) (s : Stats F),
  o_header_freq o = 0 -> o_verbose o < kInner -> 0 <= o_max_total o ->
  exists s', st_reset true o s = Ok s' /\ st_print_last s' = UB.
Proof.
  intros F o s H1 H2 H3. unfold st_reset.
  assert (E1 : (o_max_total o <? 0) = false) by (apply Z.ltb_ge; lia). rewrite E1.
  assert (E2 : (o_verbose o <? kInner) = true) by (apply Z.ltb_lt; lia). rewrite E2, H1. simpl.
  eexists. split; [reflexivity|reflexivity].
Qed.
Example C43_example : exists g out,
  NoDup (map c_title [mkCol "a" kOuter 4; mkCol "b" kInner 5; mkCol "c" kDebug 6]%string) /\
  lg_run (F:=QS) true (map add_col [mkCol "a" kOuter 4; mkCol "b" kInner 5; mkCol "c" kDebug 6]%string
      ++ [LgLog "a" (VInt 7); LgLog "c" (VInt 8); LgPrint; LgPrint; LgLog "zz" (VInt 9); LgPrintData]%string)
    (lg_new kInner) = Ok (out, g) /\
  out = [LHeader [("a", 4); ("b", 5)]; LData [(Some (VInt 7), CDefault, 4); (None, CDefault, 5)];
         LData [(Some (VInt 7), CDefault, 4); (None, CDefault, 5)]; LData [(Some (VInt 7), CDefault, 4); (None, CDefault, 5)]]%string.
Proof.
  eexists _, _. split; [|split; reflexivity].
  repeat constructor; simpl; intuition discriminate.
Qed.
Print Assumptions C43_silent.
Print Assumptions C43_columns.
Print Assumptions C43_header_frequency.
Print Assumptions C43_clear_restarts.
Print Assumptions C43_explicit_header_refuted.
Print Assumptions C43_zero_frequency_refuted.
Print Assumptions C43_zero_frequency_option_refuted.
