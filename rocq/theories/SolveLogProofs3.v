(** Proofs: the log of the augmented-Lagrangian solver. *)
From Coq Require Import ZArith String List Bool Lia.
From Verif Require Import Base Lin ConModel LogModel StatsModel StatsSpec StatsProofs LogProofs StatLogProofs TrajModel IlqrModel IlqrSpec IlqrProofs3 IlqrProofs6 CostInst AlModel AlProofs AlProofs2
  SolveLogSpec SolveLogProofs SolveLogProofs2.
Import ListNotations.
Local Open Scope Z_scope.
Section Al.
Context {F : Scalar} (n m : nat).
Notation IL := (ILQR F (ALCost F)).
Lemma outer_log debug fuel (s : IL) d s' : stats_ok (il_stats s) -> as_iteration n m debug fuel s = Ok (d, s') ->
  exists r, run debug (outer_calls (o_verbose (il_opts s)) r) (il_stats s) (il_stats s') /\ describes_outer n m debug fuel s r /\
    or_last r = (match d with Some _ => true | None => false end) /\ or_number r = st_outer (il_stats s) + 1 /\ st_outer (il_stats s') = st_outer (il_stats s) + 1 /\
    map ir_total (or_inner r) = map (fun i => st_total (il_stats s) + Z.of_nat i) (seq 1 (length (or_inner r))) /\
    st_total (il_stats s') = st_total (il_stats s) + Z.of_nat (length (or_inner r)) /\ stats_ok (il_stats s') /\ il_opts s' = il_opts s /\
    (d = None -> o_max_outer (il_opts s) <=? st_outer (il_stats s') = false).
Proof.
  intros SK E. unfold as_iteration in E. destruct (il_solve al_ops n m als_max_violation debug fuel s) as [s1| | | | |] eqn:E1; cbn [bind] in E; try discriminate.
  destruct (solve_log al_ops n m als_max_violation debug fuel s s1 SK E1) as (b & rs & B & R & I & T1 & T2 & T3 & T4 & LV & SK1 & O1).
  set (s2 := il_map_costobjs al_update_duals s1) in *. set (V := als_max_violation (il_costobjs s2)). set (P := als_max_penalty (il_costobjs s2)).
  set (st1 := st_set_counts (il_stats s1) (st_initial_cost (il_stats s1)) (st_inner (il_stats s1)) (st_outer (il_stats s1) + 1) (st_total (il_stats s1))).
  set (st3 := st_logF "pen" P (st_logF "viol" V st1)). set (st4 := st_logZ "iter_al" (st_outer st3) st3).
  assert (S3 : il_stats (as_update_stats s2) = st4 /\ il_opts (as_update_stats s2) = il_opts s1) by (split; reflexivity). destruct S3 as [S3 O3].
  set (s3 := as_update_stats s2) in *. clearbody s3. rewrite S3 in E.
  assert (CT : forall t (w : lval F) (y : Stats F), st_total (st_log_val t w y) = st_total y /\ st_inner (st_log_val t w y) = st_inner y /\ st_outer (st_log_val t w y) = st_outer y).
  { intros t w y. unfold st_log_val, st_set_data. cbn. destruct (Nat.eqb (st_len y) 0); auto. }
  assert (N3 : st_outer st3 = st_outer (il_stats s) + 1).
  { unfold st3, st_logF. destruct (CT "pen"%string (VFlt P) (st_log_val "viol" (VFlt V) st1)) as (_ & _ & ->). destruct (CT "viol"%string (VFlt V) st1) as (_ & _ & ->). unfold st1. cbn. lia. }
  assert (N4 : st_outer st4 = st_outer (il_stats s) + 1 /\ st_total st4 = st_total (il_stats s1)).
  { unfold st4, st_logZ. destruct (CT "iter_al"%string (VInt (st_outer st3)) st3) as (-> & _ & ->). split; [exact N3|].
    unfold st3, st_logF. destruct (CT "pen"%string (VFlt P) (st_log_val "viol" (VFlt V) st1)) as (-> & _ & _). destruct (CT "viol"%string (VFlt V) st1) as (-> & _ & _). reflexivity. }
  destruct N4 as [N4 N4t].
  assert (L4 : lg_level (st_log st4) = o_verbose (il_opts s)) by (unfold st4, st3, st_logZ, st_logF; rewrite !log_level; exact LV).
  assert (SK4 : stats_ok st4) by (unfold st4, st3, st_logZ, st_logF; repeat apply stats_ok_log; apply (stats_ok_ext (il_stats s1)); [reflexivity|reflexivity|exact SK1]).
  assert (R4 : run debug [logF "viol" V; logF "pen" P; logZ "iter_al" (st_outer (il_stats s) + 1)] (il_stats s1) st4).
  { apply (run_from debug _ _ st1); [apply sl_counts|]. rewrite <- N3. do 3 (eapply run_cons; [reflexivity|]). apply run_nil, sl_refl. }
  rewrite L4 in E. set (v := o_verbose (il_opts s)) in *.
  match type of E with (do _ <- ?a ; _) = _ => destruct a as [s4| | | | |] eqn:E4; cbn [bind] in E; try discriminate end.
  assert (Q : run debug (if kInner <=? v then [] else [SlPrint]) st4 (il_stats s4) /\ il_opts s4 = il_opts s1 /\ st_outer (il_stats s4) = st_outer st4 /\ st_total (il_stats s4) = st_total st4 /\ stats_ok (il_stats s4)).
  { destruct (kInner <=? v).
    - inversion E4; subst s4. rewrite S3. split; [apply run_nil, sl_refl|]. auto.
    - destruct (st_print_last st4) as [st6| | | | |] eqn:E6; cbn [bind] in E4; try discriminate. inversion E4. cbn [il_stats il_set_stats]. split; [apply run_one; exact E6|]. split; [exact O3|].
      pose proof (stats_ok_step debug SlPrint st4 st6 SK4 E6) as S6. unfold st_print_last in E6. destruct (lg_print _) as [[o g0]| | | | |]; cbn in E6; try discriminate. inversion E6. auto. }
  destruct Q as (Q1 & Q2 & Q3 & Q4 & Q5).
  destruct (as_is_done s4) as [dd| | | | |] eqn:ED; cbn [bind] in E; try discriminate.
  assert (W : describes_outer n m debug fuel s (mkOR rs V P (st_outer (il_stats s) + 1) (match d with Some _ => true | None => false end))) by (exists b, s1; auto 10).
  exists (mkOR rs V P (st_outer (il_stats s) + 1) (match d with Some _ => true | None => false end)). cbn [or_inner or_viol or_pen or_number or_last].
  unfold outer_calls. cbn [or_inner or_viol or_pen or_number or_last].
  assert (G : run debug (if kInner <=? v then (if match d with Some _ => true | None => false end then [] else [SlHeader]) else [SlPrint]) st4 (il_stats s') /\
    st_outer (il_stats s') = st_outer st4 /\ st_total (il_stats s') = st_total st4 /\ stats_ok (il_stats s') /\ il_opts s' = il_opts s1 /\ (d = None -> o_max_outer (il_opts s) <=? st_outer (il_stats s') = false)).
  { destruct dd as [e|].
    - inversion E; subst d s'. split; [destruct (kInner <=? v); exact Q1|]. repeat (split; [auto; fail|]). discriminate.
    - inversion E; subst d s'. rewrite <- O1, <- Q2.
      assert (MO : o_max_outer (il_opts s4) <=? st_outer (il_stats s4) = false).
      { clear - ED. unfold as_is_done in ED. destruct (st_back "viol" _); cbn [bind] in ED; try discriminate. destruct (st_back "pen" _); cbn [bind] in ED; try discriminate.
        destruct (negb _); [discriminate|]. destruct (ltb _ _); [discriminate|]. destruct (ltb _ _); [discriminate|]. destruct (o_max_outer (il_opts s4) <=? st_outer (il_stats s4)); [discriminate|reflexivity]. }
      destruct (kInner <=? v).
      + cbn [il_map_costobjs il_set_costobjs il_stats il_opts il_set_stats il_set_kps] in *.
        split; [apply (run_from debug _ _ (il_stats s4)); [destruct Q1 as (z0 & Z0 & Z1); inversion Z0; subst; exact Z1|]; apply run_one; reflexivity|]. 
        split; [exact Q3|]. split; [exact Q4|]. split; [|auto]. exact (stats_ok_step debug SlHeader (il_stats s4) _ Q5 eq_refl).
      + cbn [il_map_costobjs il_set_costobjs il_stats il_opts il_set_stats il_set_kps]. split; [exact Q1|]. auto 10. }
  destruct G as (G1 & G2 & G3 & G4 & G5 & G6).
  split; [eapply run_app; [exact R|]; eapply run_app; [exact R4|exact G1]|]. split; [exact W|]. split; [reflexivity|]. split; [reflexivity|]. split; [congruence|].
  split; [exact T1|]. split; [congruence|]. split; [exact G4|]. split; [congruence|exact G6].
Qed.
Lemma outers_log debug fuel it : forall (a a' : ALS F), stats_ok (il_stats (as_il a)) -> as_loop n m debug fuel it a = Ok a' -> 
  exists rs, run debug (flat_map (outer_calls (o_verbose (il_opts (as_il a)))) rs) (il_stats (as_il a)) (il_stats (as_il a')) /\ outers n m debug fuel (as_il a) rs (as_il a') /\
    map or_number rs = map (fun i => st_outer (il_stats (as_il a)) + Z.of_nat i) (seq 1 (length rs)) /\
    map ir_total (flat_map or_inner rs) = map (fun i => st_total (il_stats (as_il a)) + Z.of_nat i) (seq 1 (length (flat_map or_inner rs))) /\
    st_outer (il_stats (as_il a')) = st_outer (il_stats (as_il a)) + Z.of_nat (length rs) /\
    st_total (il_stats (as_il a')) = st_total (il_stats (as_il a)) + Z.of_nat (length (flat_map or_inner rs)) /\
    (o_max_outer (il_opts (as_il a)) = st_outer (il_stats (as_il a)) + Z.of_nat it -> rs = [] /\ it = 0%nat \/ exists rs0 r, rs = rs0 ++ [r] /\ or_last r = true /\ Forall (fun r => or_last r = false) rs0).
Proof.
  assert (Nil : forall (a : ALS F) (k : nat), (k = 0%nat -> True) -> exists rs, run debug (flat_map (outer_calls (o_verbose (il_opts (as_il a)))) rs) (il_stats (as_il a)) (il_stats (as_il a)) /\ outers n m debug fuel (as_il a) rs (as_il a) /\
    map or_number rs = map (fun i => st_outer (il_stats (as_il a)) + Z.of_nat i) (seq 1 (length rs)) /\
    map ir_total (flat_map or_inner rs) = map (fun i => st_total (il_stats (as_il a)) + Z.of_nat i) (seq 1 (length (flat_map or_inner rs))) /\
    st_outer (il_stats (as_il a)) = st_outer (il_stats (as_il a)) + Z.of_nat (length rs) /\
    st_total (il_stats (as_il a)) = st_total (il_stats (as_il a)) + Z.of_nat (length (flat_map or_inner rs)) /\ rs = []).
  { intros a _ _. exists []. split; [apply run_nil, sl_refl|]. split; [constructor|]. cbn [map length seq flat_map]. repeat split; lia. }
  induction it as [|it IH]; intros a a' SK E; cbn [as_loop] in E.
  - inversion E; subst. destruct (Nil a' 0%nat (fun _ => I)) as (rs & A & B & C & D & G & H & K). exists rs. repeat (split; [assumption|]). auto.
  - destruct (as_iteration n m debug fuel (as_il a)) as [[d s]| | | | |] eqn:E1; cbn [bind] in E; try discriminate.
    destruct (outer_log debug fuel (as_il a) d s SK E1) as (r & R1 & R2 & R3 & R4 & R5 & R6 & R7 & R8 & R9 & R10).
    assert (X : exists rs, run debug (flat_map (outer_calls (o_verbose (il_opts s))) rs) (il_stats s) (il_stats (as_il a')) /\ outers n m debug fuel s rs (as_il a') /\
      map or_number rs = map (fun i => st_outer (il_stats s) + Z.of_nat i) (seq 1 (length rs)) /\
      map ir_total (flat_map or_inner rs) = map (fun i => st_total (il_stats s) + Z.of_nat i) (seq 1 (length (flat_map or_inner rs))) /\
      st_outer (il_stats (as_il a')) = st_outer (il_stats s) + Z.of_nat (length rs) /\
      st_total (il_stats (as_il a')) = st_total (il_stats s) + Z.of_nat (length (flat_map or_inner rs)) /\
      (o_max_outer (il_opts (as_il a)) = st_outer (il_stats (as_il a)) + Z.of_nat (S it) -> match d with Some _ => rs = [] | None => exists rs0 r, rs = rs0 ++ [r] /\ or_last r = true /\ Forall (fun r => or_last r = false) rs0 end)).
    { destruct d as [e|].
      - inversion E; subst a'. destruct (Nil (mkALS s e) 0%nat (fun _ => I)) as (rs & A & B & C & D & G & H & K). exists rs. repeat (split; [assumption|]). auto.
      - destruct (IH (mkALS s (as_status a)) a' R8 E) as (rs & A & B & C & D & G & H & K). cbn [as_il] in *. exists rs. repeat (split; [assumption|]). intros Hm. rewrite R9 in K. specialize (R10 eq_refl).
        destruct K as [[-> ->]|K]; [lia| |exact K]. exfalso. apply Z.leb_gt in R10. lia. }
    destruct X as (rs & X1 & X2 & X3 & X4 & X5 & X6 & X7). exists (r :: rs). cbn [flat_map].
    split; [rewrite R9 in X1; eapply run_app; eauto|]. split; [econstructor; eauto|]. split.
    { cbn [map length seq]. f_equal; [lia|]. rewrite X3, <- (seq_shift _ 1), map_map. apply map_ext. intros i. lia. }
    split. { rewrite map_app, app_length, seq_app, map_app, R6, X4. f_equal. clear - R7.
      set (k := length (or_inner r)) in *. rewrite R7. generalize (length (flat_map or_inner rs)). intros j. generalize (st_total (il_stats (as_il a))). intros t.
      replace (1 + k)%nat with (k + 1)%nat by lia. replace (seq (k + 1) j) with (map (fun i => (k + i)%nat) (seq 1 j)).
      - rewrite map_map. apply map_ext. intros i. lia.
      - generalize 1%nat. induction j as [|j IHj]; intros q; [reflexivity|]. cbn [seq map]. f_equal. rewrite IHj. f_equal. lia. }
    rewrite app_length. cbn [length]. split; [lia|]. split; [lia|]. intros Hm. right. specialize (X7 Hm). destruct d as [e|].
    + subst rs. exists [], r. repeat split; auto.
    + destruct X7 as (rs0 & r1 & -> & X7 & X8). exists (r :: rs0), r1. repeat split; auto.
Qed.
Lemma recost_keep debug (s s' : IL) : il_recost debug s = Ok s' -> il_stats s' = il_stats s /\ il_opts s' = il_opts s.
Proof. intros E. destruct (recost_spec _ _ _ E) as (P & _ & _ & T & _). split; [exact T|apply P]. Qed.
Lemma init_log debug (s b : IL) : as_init debug s = Ok b ->
  run debug [SlOp (StReset (il_opts s)); logZ "iter_al" 0; logF "viol" (als_max_violation (il_costobjs b)); logF "pen" (als_max_penalty (il_costobjs b))] (il_stats s) (il_stats b).
Proof.
  unfold as_init. cbv zeta. set (s1 := if o_reset_duals (il_opts s) then il_map_costobjs al_reset_duals s else s).
  assert (H1 : il_stats s1 = il_stats s) by (unfold s1; destruct (o_reset_duals _); reflexivity). clearbody s1.
  destruct (if ltb zero (o_init_pen (il_opts s)) then _ else _) as [s2| | | | |] eqn:E2; try discriminate. cbn [bind].
  assert (H2 : il_stats s2 = il_stats s).
  { destruct (ltb zero _); [|inversion E2; congruence]. destruct (als_set_penalty _ _ _); cbn [bind] in E2; try discriminate. inversion E2. exact H1. }
  destruct (st_reset debug (il_opts s) (il_stats s2)) as [st| | | | |] eqn:E3; try discriminate. cbn [bind].
  destruct (il_recost debug _) as [s3| | | | |] eqn:E4; try discriminate. cbn [bind]. destruct (recost_keep _ _ _ E4) as [T3 _]. intros Hb. inversion Hb. cbn [il_stats il_set_stats].
  rewrite H2 in E3. eapply run_cons; [exact E3|]. eapply run_cons; [reflexivity|]. rewrite T3. cbn [il_stats il_set_stats].
  eapply run_cons; [reflexivity|]. eapply run_cons; [reflexivity|]. apply run_nil, sl_refl.
Qed.
Theorem al_log debug fuel (a a' : ALS F) h : history debug h (il_stats (as_il a)) -> as_solve n m debug fuel a = Ok a' -> 
  exists b rs, as_init debug (as_il a) = Ok b /\
    history debug (h ++ al_calls (il_opts (as_il a)) (als_max_violation (il_costobjs b)) (als_max_penalty (il_costobjs b)) rs) (il_stats (as_il a')) /\
    outers n m debug fuel b rs (as_il a') /\
    map or_number rs = map Z.of_nat (seq 1 (length rs)) /\ map ir_total (flat_map or_inner rs) = map Z.of_nat (seq 1 (length (flat_map or_inner rs))) /\
    st_outer (il_stats (as_il a')) = Z.of_nat (length rs) /\ st_total (il_stats (as_il a')) = Z.of_nat (length (flat_map or_inner rs)) /\
    (1 <= o_max_outer (il_opts (as_il a)) -> exists rs0 r, rs = rs0 ++ [r] /\ or_last r = true /\ Forall (fun r => or_last r = false) rs0).
Proof.
  intros H E. unfold as_solve in E. destruct (as_init debug (as_il a)) as [b| | | | |] eqn:EI; cbn [bind] in E; try discriminate.
  destruct (init_spec debug (as_il a) b EI) as (P & _ & _ & _ & I1 & I2 & _ & I3). pose proof (history_ok debug h _ H) as SK. specialize (I3 (proj1 SK)).
  assert (OB : il_opts b = il_opts (as_il a)) by apply P.
  destruct (outers_log debug fuel _ (mkALS b (as_status a)) a' I3 E) as (rs & R1 & R2 & R3 & R4 & R5 & R6 & R7). cbn [as_il] in *. exists b, rs. split; [reflexivity|].
  rewrite I1 in *. rewrite I2 in *. rewrite OB in *.
  split. { eapply history_app; [exact H|]. unfold al_calls. eapply run_app; [apply init_log; exact EI|]. exact R1. }
  split; [exact R2|]. split; [rewrite R3; apply map_ext; intros i; lia|]. split; [rewrite R4; apply map_ext; intros i; lia|]. split; [lia|]. split; [lia|].
  intros Hm. destruct R7 as [[_ R7]|R7]; [rewrite Z2Nat.id; lia|lia|exact R7].
Qed.
End Al.
