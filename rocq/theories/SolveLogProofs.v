(** Proofs: what a solve writes to the log. *)
From Coq Require Import ZArith String List Bool Lia.
From Verif Require Import Base Lin LogModel StatsModel StatsSpec StatsProofs LogProofs StatLogProofs TrajModel IlqrModel IlqrSpec IlqrProofs3 IlqrProofs6 AlProofs SolveLogSpec.
Import ListNotations.
Local Open Scope Z_scope.

Section Log.
Context {F : Scalar}.
Implicit Types (a b st : Stats F).
Lemma sl_refl a : same_log a a.
Proof. repeat split. Qed.
Lemma sl_trans a b c : same_log a b -> same_log b c -> same_log a c.
Proof. intros (A & B & C & D) (E & G & H & I). repeat split; congruence. Qed.
Lemma sl_sym a b : same_log a b -> same_log b a.
Proof. intros (A & B & C & D). repeat split; congruence. Qed.
Lemma sl_counts a i0 i j k : same_log a (st_set_counts a i0 i j k).
Proof. repeat split. Qed.
Lemma step_cong debug o a b a' : same_log a b -> sl_step debug o a = Ok a' -> exists b', sl_step debug o b = Ok b' /\ same_log a' b'.
Proof.
  intros (A & B & C & D). destruct a as [i0 i j k ser len lg out], b as [i0' i' j' k' ser' len' lg' out']. cbn in A, B, C, D. subst.
  destruct o as [[t x|t z| |o]|c v g|l| |]; cbn.
  - unfold st_logF, st_log_val, st_set_data, st_set_log, st_set_ser. cbn. destruct (Nat.eqb len 0); cbn; intros E; inversion E; eexists; (split; [reflexivity|repeat split]).
  - unfold st_logZ, st_log_val, st_set_data, st_set_log, st_set_ser. cbn. destruct (Nat.eqb len 0); cbn; intros E; inversion E; eexists; (split; [reflexivity|repeat split]).
  - intros E. inversion E. eexists. split; [reflexivity|repeat split].
  - unfold st_reset. cbn. destruct (_ <? 0); [discriminate|]. destruct (lg_set_frequency _ _ _); cbn; intros E; inversion E. eexists. split; [reflexivity|repeat split].
  - unfold st_set_tolerances. cbn. destruct (lg_bound debug false "dJ" c lg) as [g1| | | | |]; cbn; try discriminate. destruct (lg_bound debug false "viol" v g1) as [g2| | | | |]; cbn; try discriminate.
    destruct (lg_bound debug false "grad" g g2) as [g3| | | | |]; cbn; try discriminate. intros E. inversion E. eexists. split; [reflexivity|repeat split].
  - intros E. inversion E. eexists. split; [reflexivity|repeat split].
  - unfold st_print_last. cbn. destruct (lg_print lg) as [[o g]| | | | |]; cbn; try discriminate. intros E. inversion E. eexists. split; [reflexivity|repeat split].
  - intros E. inversion E. eexists. split; [reflexivity|repeat split].
Qed.
Lemma run_cong debug ops : forall a b a', same_log a b -> sl_run debug ops a = Ok a' -> exists b', sl_run debug ops b = Ok b' /\ same_log a' b'.
Proof.
  induction ops as [|o ops IH]; intros a b a' H E; cbn in *; [inversion E; subst; eauto|].
  destruct (sl_step debug o a) as [a1| | | | |] eqn:E1; cbn in E; try discriminate. destruct (step_cong debug o a b a1 H E1) as (b1 & -> & H1). cbn. eauto.
Qed.
(** [run debug ops a b]: the calls lead from [a] to [b], counters aside *)
Definition run debug ops a b : Prop := exists b0, sl_run debug ops a = Ok b0 /\ same_log b0 b.
Lemma run_nil debug a b : same_log a b -> run debug [] a b.
Proof. intros H. exists a. auto. Qed.
Lemma run_app debug o1 o2 a b c : run debug o1 a b -> run debug o2 b c -> run debug (o1 ++ o2) a c.
Proof.
  intros (b0 & E & H) (c0 & E' & H'). unfold run. rewrite sl_run_app, E. cbn [bind]. destruct (run_cong debug o2 b b0 c0 (sl_sym _ _ H) E') as (c1 & -> & H1).
  exists c1. split; [reflexivity|]. eapply sl_trans; [apply sl_sym; exact H1|exact H'].
Qed.
Lemma run_one debug o a b : sl_step debug o a = Ok b -> run debug [o] a b.
Proof. intros E. exists b. split; [|apply sl_refl]. cbn. now rewrite E. Qed.
Lemma run_cons debug o ops a b c : sl_step debug o a = Ok b -> run debug ops b c -> run debug (o :: ops) a c.
Proof. intros E H. apply (run_app debug [o] ops a b c); [now apply run_one|exact H]. Qed.
Lemma run_same debug ops a b c : run debug ops a b -> same_log b c -> run debug ops a c.
Proof. intros (b0 & E & H) H'. exists b0. split; [exact E|]. eapply sl_trans; eauto. Qed.
Lemma run_from debug ops a b c : same_log a b -> run debug ops b c -> run debug ops a c.
Proof. intros H H'. apply (run_app debug [] ops a b c); [now apply run_nil|exact H']. Qed.
Lemma history_app debug h ops a b : history debug h a -> run debug ops a b -> history debug (h ++ ops) b.
Proof. intros H R. exact (run_app debug h ops st_new a b H R). Qed.
Lemma log_level t x st : lg_level (st_log (st_log_val t x st)) = lg_level (st_log st).
Proof.
  unfold st_log_val, st_set_data, st_set_log, st_set_ser. cbn. replace (st_log (if Nat.eqb (st_len st) 0 then _ else _)) with (lg_log t x (st_log st)) by (destruct (Nat.eqb (st_len st) 0); reflexivity).
  unfold lg_log. destruct (_ <? _); [|reflexivity]. destruct (lg_find _ _); [destruct (le_active _ _)|]; reflexivity.
Qed.
Lemma back_new t st : stats_ok st -> (1 <= st_len st)%nat -> In t series_titles -> st_back t (st_new_iteration st) = st_back t st /\ stats_ok (st_new_iteration st).
Proof.
  intros H L Ht. apply stats_ok_series in H. destruct H as [g H]. pose proof (ser_newit st g H) as H'. split; [|apply stats_ok_series; eauto].
  rewrite (ser_back _ _ _ H' Ht), (ser_back _ _ _ H Ht) by (cbn; lia). now rewrite last_newser.
Qed.
Lemma print_level st st' : st_print_last st = Ok st' -> lg_level (st_log st') = lg_level (st_log st).
Proof.
  unfold st_print_last. destruct (lg_print (st_log st)) as [[o g]| | | | |] eqn:E; cbn; try discriminate. intros H. inversion H. cbn.
  unfold lg_print in E. destruct (_ =? 0); [discriminate|]. destruct (_ =? 0); inversion E; reflexivity.
Qed.
End Log.

Section Solve.
Context {F : Scalar} {CS : Type} (ops : CostOps F CS) (n m : nat) (cb : list CS -> F).
Notation ILQR := (ILQR F CS).
Lemma bp_loop_stats fuel kN : forall cnt (s s' : ILQR), bp_loop n m fuel kN cnt s = Ok s' -> il_stats s' = il_stats s.
Proof.
  induction fuel as [|fuel IH]; intros cnt s s' E; cbn [bp_loop] in E; [discriminate|]. destruct (sw_ok _).
  - destruct (il_N s); [apply IH in E; exact E|inversion E; reflexivity].
  - destruct (_ <=? _); [inversion E; reflexivity|apply IH in E; exact E].
Qed.
Lemma backward_stats fuel (s s' : ILQR) : il_backward_pass n m fuel s = Ok s' -> exists q, s' = il_decrease_reg q /\ il_stats s' = st_logF "reg" (il_rho q) (il_stats s).
Proof.
  unfold il_backward_pass. destruct (nth_error _ _) as [k0|]; [|discriminate]. destruct (bp_loop n m fuel _ 0 _) as [s2| | | | |] eqn:E; cbn [bind]; try discriminate.
  intros H. inversion H. apply bp_loop_stats in E. exists (il_set_stats s2 (st_logF "reg" (il_rho s2) (il_stats s2))). split; [reflexivity|]. cbn. now rewrite E.
Qed.
Definition gain (k : KPF F CS) := (kp_dyn k, kp_K k, kp_d k).
Definition lkeep (s s' : ILQR) : Prop := il_Z s' = il_Z s /\ il_opts s' = il_opts s /\ il_x0 s' = il_x0 s /\ il_dV0 s' = il_dV0 s /\ il_dV1 s' = il_dV1 s /\ 
  map gain (il_kps s') = map gain (il_kps s) /\ il_stats s' = il_stats s.
Lemma lkeep_refl s : lkeep s s.
Proof. repeat split. Qed.
Lemma lkeep_trans a b c : lkeep a b -> lkeep b c -> lkeep a c.
Proof. intros (A1 & A2 & A3 & A4 & A5 & A6 & A7) (B1 & B2 & B3 & B4 & B5 & B6 & B7). repeat split; congruence. Qed.
Lemma calc_gain kps : forall Z, map gain (snd (calc_costs ops kps Z)) = map gain kps.
Proof.
  induction kps as [|k kps IH]; intros [|z Z]; simpl; auto.
  unfold kpf_cost. destruct (co_eval ops (kp_cost k) (z_x z) (z_u z)) as [J c].
  specialize (IH Z). destruct (calc_costs ops kps Z) as [Js ks]. simpl in *. now rewrite IH.
Qed.
Lemma cost_keep Z (s : ILQR) : lkeep s (snd (il_cost ops Z s)) /\ fst (il_cost ops Z s) = lsum (il_costs (snd (il_cost ops Z s))) /\ il_Zb (snd (il_cost ops Z s)) = il_Zb s.
Proof. unfold il_cost. pose proof (calc_gain (il_kps s) Z) as G. destruct (calc_costs _ _ _). split; [|split; reflexivity]. repeat split. exact G. Qed.
Definition ls_step Z J0 (s s' : ILQR) J a z : Prop := J = lsum (il_costs s') /\ z = ratio (il_dV0 s) (il_dV1 s) J0 J a /\
  exists ks Zb Z1, map gain ks = map gain (il_kps s) /\ roll_closed n m (il_opts s) a (vstore n (il_x0 s)) ks Z Zb = (None, Z1) /\ il_Zb s' = Some Z1.
Lemma ls_step_keep Z J0 s s1 s' J a z : lkeep s s1 -> ls_step Z J0 s1 s' J a z -> ls_step Z J0 s s' J a z.
Proof.
  intros (K1 & K2 & K3 & K4 & K5 & K6 & _) (A & B & ks & Zb & Z1 & C & D & E). split; [exact A|]. rewrite <- K4, <- K5. split; [exact B|].
  exists ks, Zb, Z1. rewrite <- K2, <- K3, <- K6. auto.
Qed.
Lemma line_search_stats Z J0 it : forall alpha (s s' : ILQR) ok J, line_search ops n m it J0 alpha Z s = (ok, J, s') ->
  exists a z, il_stats s' = (if ok then st_logF "z" z (st_logF "alpha" a (st_logF "cost" J (il_stats s))) else il_stats s) /\ (ok = true -> ls_step Z J0 s s' J a z).
Proof.
  induction it as [|it IH]; intros alpha s s' ok J E; cbn [line_search] in E.
  - inversion E. exists zero, zero. split; [reflexivity|discriminate].
  - assert (RS : lkeep s (snd (il_rollout_closed n m alpha Z (match il_Zb s with Some Zb => Zb | None => [] end) s)) /\
      (fst (il_rollout_closed n m alpha Z (match il_Zb s with Some Zb => Zb | None => [] end) s) = true -> exists Z1,
       roll_closed n m (il_opts s) alpha (vstore n (il_x0 s)) (il_kps s) Z (match il_Zb s with Some Zb => Zb | None => [] end) = (None, Z1) /\ 
       il_Zb (snd (il_rollout_closed n m alpha Z (match il_Zb s with Some Zb => Zb | None => [] end) s)) = Some Z1)).
    { unfold il_rollout_closed. destruct (roll_closed _ _ _ _ _ _ _ _) as [[e|] Zb'] eqn:ER; (split; [repeat split|]); [discriminate|]. intros _. exists Zb'. auto. }
    destruct RS as [RS RZ]. destruct (il_rollout_closed n m alpha Z _ s) as [ok1 s1]. cbn [fst snd] in RS, RZ. destruct ok1.
    + destruct (RZ eq_refl) as (Z1 & R1 & R2). rewrite R2 in E. destruct (cost_keep Z1 s1) as (C1 & C2 & C3). destruct (il_cost ops Z1 s1) as [J1 s2]. cbn [fst snd] in C1, C2, C3.
      pose proof (lkeep_trans _ _ _ RS C1) as K. cbn zeta in E. match type of E with (if ?c then _ else _) = _ => destruct c end.
      * inversion E. eexists _, _. split; [cbn [il_stats il_set_stats]; rewrite (proj2 (proj2 (proj2 (proj2 (proj2 (proj2 K)))))); reflexivity|]. intros _.
        split; [subst; cbn; congruence|]. split; [unfold ratio; destruct K as (_ & _ & _ & -> & -> & _); reflexivity|].
        exists (il_kps s), (match il_Zb s with Some Zb => Zb | None => [] end), Z1. split; [reflexivity|]. split; [exact R1|]. cbn. congruence.
      * destruct (IH _ _ _ _ _ E) as (a & z & H & HJ). exists a, z. rewrite H, (proj2 (proj2 (proj2 (proj2 (proj2 (proj2 K)))))). split; [reflexivity|]. intros Ho. eapply ls_step_keep; [exact K|auto].
    + destruct (IH _ _ _ _ _ E) as (a & z & H & HJ). exists a, z. rewrite H, (proj2 (proj2 (proj2 (proj2 (proj2 (proj2 RS)))))). split; [reflexivity|]. intros Ho. eapply ls_step_keep; [exact RS|auto].
Qed.
Definition keep (s s' : ILQR) : Prop := il_Z s' = il_Z s /\ il_opts s' = il_opts s.
Lemma keep_refl s : keep s s.
Proof. split; reflexivity. Qed.
Lemma keep_trans a b c : keep a b -> keep b c -> keep a c.
Proof. intros [A B] [C D]. split; congruence. Qed.
Lemma bp_loop_keep fuel kN : forall cnt (s s' : ILQR), bp_loop n m fuel kN cnt s = Ok s' -> keep s s'.
Proof.
  induction fuel as [|fuel IH]; intros cnt s s' E; cbn [bp_loop] in E; [discriminate|]. destruct (sw_ok _).
  - destruct (il_N s); [apply IH in E; exact E|inversion E; split; reflexivity].
  - destruct (_ <=? _); [inversion E; split; reflexivity|apply IH in E; exact E].
Qed.
Lemma line_search_keep Z J0 it : forall alpha (s s' : ILQR) ok J, line_search ops n m it J0 alpha Z s = (ok, J, s') -> keep s s'.
Proof.
  induction it as [|it IH]; intros alpha s s' ok J E; cbn [line_search] in E; [inversion E; apply keep_refl|].
  assert (RS : keep s (snd (il_rollout_closed n m alpha Z (match il_Zb s with Some Zb => Zb | None => [] end) s))).
  { unfold il_rollout_closed. destruct (roll_closed _ _ _ _ _ _ _ _) as [[e|] Zb']; split; reflexivity. }
  destruct (il_rollout_closed n m alpha Z _ s) as [ok1 s1]. cbn [snd] in RS. destruct ok1; [|apply IH in E; eapply keep_trans; eauto].
  assert (CC : forall Y, keep s1 (snd (il_cost ops Y s1))) by (intros Y; unfold il_cost; destruct (calc_costs _ _ _); split; reflexivity).
  specialize (CC (match il_Zb s1 with Some Zb => Zb | None => [] end)). destruct (il_cost ops _ s1) as [J1 s2]. cbn [snd] in CC. cbn zeta in E.
  match type of E with (if ?c then _ else _) = _ => destruct c end; [inversion E; eapply keep_trans; [exact RS|exact CC]|apply IH in E; eapply keep_trans; [exact RS|eapply keep_trans; eauto]].
Qed.
Lemma forward_stats Z (s : ILQR) : let s' := il_forward_pass ops n m Z s in exists step, 
  il_stats s' = match step with Some (J, a, z) => st_logF "z" z (st_logF "alpha" a (st_logF "cost" J (il_stats s))) | None => il_stats s end /\
  match step with 
  | Some (J, a, z) => J = lsum (il_costs s') /\ z = ratio (il_dV0 s) (il_dV1 s) (lsum (il_costs s)) J a /\
      exists ks Zb Z1, map gain ks = map gain (il_kps s) /\ roll_closed n m (il_opts s) a (vstore n (il_x0 s)) ks Z Zb = (None, Z1) /\ il_Z s' = Some Z1
  | None => il_Z s' = il_Z s end /\ il_opts s' = il_opts s.
Proof.
  unfold il_forward_pass. destruct (line_search ops n m _ _ one Z s) as [[ok J] s1] eqn:E. destruct (line_search_stats _ _ _ _ _ _ _ _ E) as (a & z & H & HJ).
  apply line_search_keep in E. destruct E as [EZ EO]. destruct ok.
  - exists (Some (J, a, z)). destruct (HJ eq_refl) as (A & B & ks & Zb & Z1 & C & D & G). cbn zeta iota.
    destruct (ltb _ _); cbn; (split; [exact H|]); (split; [|exact EO]); (split; [exact A|]); (split; [exact B|]); exists ks, Zb, Z1; auto.
  - exists None. destruct (ltb _ _); cbn; auto.
Qed.
Lemma is_done_keep (s5 : ILQR) fin s' : il_is_done s5 = Ok (fin, s') -> il_stats s' = il_stats s5 /\ il_kps s' = il_kps s5 /\ il_grad s' = il_grad s5 /\ il_Z s' = il_Z s5 /\ 
  il_costs s' = il_costs s5 /\ il_opts s' = il_opts s5.
Proof.
  unfold il_is_done. intros E. destruct (st_back "dJ" _); try discriminate. cbn [bind] in E. destruct (st_back "grad" _); try discriminate. cbn [bind] in E.
  repeat match type of E with (if ?c then _ else _) = _ => destruct c end; inversion E; repeat split.
Qed.
(** one iteration *)
Lemma iteration_log debug fuel (s : ILQR) fin s' : stats_ok (il_stats s) -> il_iteration ops n m cb fuel s = Ok (fin, s') ->
  exists r, run debug (inner_calls (lg_level (st_log (il_stats s))) r) (il_stats s) (il_stats s') /\ describes ops n m cb fuel s s' r /\
    lg_level (st_log (il_stats s')) = lg_level (st_log (il_stats s)) /\
    st_inner (il_stats s') = st_inner (il_stats s) + 1 /\ st_total (il_stats s') = st_total (il_stats s) + 1 /\ st_outer (il_stats s') = st_outer (il_stats s) /\
    stats_ok (il_stats s') /\ il_opts s' = il_opts s.
Proof.
  intros SK. unfold il_iteration, il_get_Z. destruct (il_Z s) as [Z|] eqn:EZ0; cbn [bind]; try discriminate.
  assert (U : il_stats (il_update_expansions ops n m Z s) = il_stats s /\ keep s (il_update_expansions ops n m Z s)) by (unfold il_update_expansions; destruct (expand_all _ _ _ _ _); repeat split).
  set (s1 := il_update_expansions ops n m Z s) in *. destruct U as [U UZ].
  destruct (il_backward_pass n m fuel s1) as [s2| | | | |] eqn:EB; cbn [bind]; try discriminate.
  assert (BZ : keep s1 s2).
  { clear - EB. unfold il_backward_pass in EB. destruct (nth_error _ _) as [k0|]; [|discriminate]. destruct (bp_loop n m fuel _ 0 _) as [q| | | | |] eqn:E; cbn [bind] in EB; try discriminate.
    inversion EB. apply bp_loop_keep in E. exact E. }
  destruct (keep_trans _ _ _ UZ BZ) as [KZ KO]. clear UZ BZ. rewrite EZ0 in KZ.
  destruct (backward_stats fuel s1 s2 EB) as (q & Bq & B). rewrite U in B. set (x := il_rho q) in *.
  destruct (forward_stats Z s2) as (step & S1 & S2 & S3). cbn zeta in *. set (s3 := il_forward_pass ops n m Z s2) in *. clearbody s3.
  destruct (il_Z s3) as [Z'|] eqn:EZ3; cbn [bind]; try discriminate.
  destruct (il_update_stats m cb Z' s3) as [s4| | | | |] eqn:EU; cbn [bind]; try discriminate.
  unfold il_update_stats, il_ff_gain in EU. cbn [il_stats il_set_grad il_kps] in EU.
  match type of EU with (do _ <- ?a ; _) = _ => destruct a as [dJ| | | | |]; cbn [bind] in EU; try discriminate end.
  set (gs := ff_gains m (il_N s3) (il_kps s3) Z') in *. set (g := div (lsum gs) _) in *. set (v := cb (map kp_cost (il_kps s3))) in *.
  set (st1 := st_set_counts (il_stats s3) (st_initial_cost (il_stats s3)) (st_inner (il_stats s3) + 1) (st_outer (il_stats s3)) (st_total (il_stats s3) + 1)) in *.
  set (st3 := st_logF "viol" v (st_logF "dJ" dJ st1)) in *. set (st5 := st_logF "grad" g (st_logZ "iters" (st_total st3) st3)) in *.
  assert (E4 : il_stats s4 = st_new_iteration st5 /\ il_kps s4 = il_kps s3 /\ il_grad s4 = gs /\ il_Z s4 = il_Z s3 /\ il_costs s4 = il_costs s3 /\ il_opts s4 = il_opts s3) by (inversion EU; repeat split).
  clear EU. destruct E4 as (E4 & E4k & E4g & E4z & E4c & E4o).
  assert (CT : forall t (w : lval F) (y : Stats F), st_total (st_log_val t w y) = st_total y /\ st_inner (st_log_val t w y) = st_inner y /\ st_outer (st_log_val t w y) = st_outer y).
  { intros t w y. unfold st_log_val, st_set_data. cbn. destruct (Nat.eqb (st_len y) 0); auto. }
  assert (CN : forall y : Stats F, st_total (st_new_iteration y) = st_total y /\ st_inner (st_new_iteration y) = st_inner y /\ st_outer (st_new_iteration y) = st_outer y) by (intros y; repeat split).
  assert (C3 : st_total (il_stats s3) = st_total (il_stats s) /\ st_inner (il_stats s3) = st_inner (il_stats s) /\ st_outer (il_stats s3) = st_outer (il_stats s) /\
     lg_level (st_log (il_stats s3)) = lg_level (st_log (il_stats s))).
  { rewrite S1, B. destruct step as [[[J a] z]|]; unfold st_logF.
    - destruct (CT "z"%string (VFlt z) (st_log_val "alpha" (VFlt a) (st_log_val "cost" (VFlt J) (st_log_val "reg" (VFlt x) (il_stats s))))) as (-> & -> & ->).
      destruct (CT "alpha"%string (VFlt a) (st_log_val "cost" (VFlt J) (st_log_val "reg" (VFlt x) (il_stats s)))) as (-> & -> & ->).
      destruct (CT "cost"%string (VFlt J) (st_log_val "reg" (VFlt x) (il_stats s))) as (-> & -> & ->). destruct (CT "reg"%string (VFlt x) (il_stats s)) as (-> & -> & ->).
      rewrite !log_level. auto.
    - destruct (CT "reg"%string (VFlt x) (il_stats s)) as (-> & -> & ->). rewrite log_level. auto. }
  destruct C3 as (C3t & C3i & C3o & C3l).
  assert (T3 : st_total st3 = st_total (il_stats s) + 1 /\ st_inner st3 = st_inner (il_stats s) + 1 /\ st_outer st3 = st_outer (il_stats s) /\ lg_level (st_log st3) = lg_level (st_log (il_stats s))).
  { unfold st3, st_logF. destruct (CT "viol"%string (VFlt v) (st_log_val "dJ" (VFlt dJ) st1)) as (-> & -> & ->). destruct (CT "dJ"%string (VFlt dJ) st1) as (-> & -> & ->). rewrite !log_level.
    unfold st1. cbn [st_total st_inner st_outer st_set_counts st_log]. rewrite C3t, C3i, C3o. repeat split. exact C3l. }
  destruct T3 as (T3t & T3i & T3o & T3l).
  assert (T5 : st_total st5 = st_total (il_stats s) + 1 /\ st_inner st5 = st_inner (il_stats s) + 1 /\ st_outer st5 = st_outer (il_stats s) /\ lg_level (st_log st5) = lg_level (st_log (il_stats s))).
  { unfold st5, st_logF, st_logZ. destruct (CT "grad"%string (VFlt g) (st_log_val "iters" (VInt (st_total st3)) st3)) as (-> & -> & ->). destruct (CT "iters"%string (VInt (st_total st3)) st3) as (-> & -> & ->). rewrite !log_level. auto. }
  destruct T5 as (T5t & T5i & T5o & T5l).
  assert (L4 : lg_level (st_log (il_stats s4)) = lg_level (st_log (il_stats s))) by (rewrite E4; exact T5l).
  rewrite L4. set (lv := lg_level (st_log (il_stats s))) in *.
  assert (Y4 : stats_ok (il_stats s4) /\ st_back "dJ" (il_stats s4) = Ok dJ).
  { rewrite E4. assert (Y3 : stats_ok st1).
    { apply (stats_ok_ext (il_stats s3)); [reflexivity|reflexivity|]. rewrite S1, B. unfold st_logF. destruct step as [[[J a] z]|]; repeat apply stats_ok_log; exact SK. }
    destruct (stats_ok_log st1 "dJ"%string (VFlt dJ) Y3) as [A1 A2]. fold (st_logF "dJ" dJ st1) in A1, A2.
    destruct (stats_ok_log _ "viol"%string (VFlt v) A1) as [A3 A4]. fold (st_logF "viol" v (st_logF "dJ" dJ st1)) in A3, A4. fold st3 in A3, A4.
    destruct (stats_ok_log _ "iters"%string (VInt (st_total st3)) A3) as [A5 A6]. fold (st_logZ "iters" (st_total st3) st3) in A5, A6.
    destruct (stats_ok_log _ "grad"%string (VFlt g) A5) as [A7 A8]. fold (st_logF "grad" g (st_logZ "iters" (st_total st3) st3)) in A7, A8. fold st5 in A7, A8.
    assert (IT : In "dJ"%string series_titles) by (cbn; tauto).
    destruct (back_new "dJ" st5 A7 A8 IT) as [N1 N2]. split; [exact N2|]. rewrite N1. unfold st5, st_logF.
    rewrite back_log; [|exact A5|exact IT|right; lia]. cbn [String.eqb Ascii.eqb Bool.eqb]. unfold st_logZ. rewrite back_log; [|exact A3|exact IT|right; lia]. cbn [String.eqb Ascii.eqb Bool.eqb].
    unfold st3, st_logF. rewrite back_log; [|exact A1|exact IT|right; unfold st_logF in A2; lia]. cbn [String.eqb Ascii.eqb Bool.eqb]. rewrite back_log; [|exact Y3|exact IT|auto]. reflexivity. }
  destruct Y4 as [Y4 Y4d].
  intros E.
  match type of E with (do _ <- ?a ; _) = _ => destruct a as [s5| | | | |] eqn:EP; cbn [bind] in E; try discriminate end.
  assert (P : run debug (if kInner <=? lv then [SlPrint] else []) (il_stats s4) (il_stats s5) /\ st_total (il_stats s5) = st_total (il_stats s4) /\ st_inner (il_stats s5) = st_inner (il_stats s4) /\
     st_outer (il_stats s5) = st_outer (il_stats s4) /\ lg_level (st_log (il_stats s5)) = lv /\ il_kps s5 = il_kps s4 /\ il_grad s5 = il_grad s4 /\ il_Z s5 = il_Z s4 /\ il_costs s5 = il_costs s4 /\ il_opts s5 = il_opts s4 /\ st_ser (il_stats s5) = st_ser (il_stats s4) /\ st_len (il_stats s5) = st_len (il_stats s4)).
  { destruct (kInner <=? lv).
    - destruct (st_print_last (il_stats s4)) as [st6| | | | |] eqn:E6; cbn [bind] in EP; try discriminate. inversion EP. cbn [il_stats il_set_stats]. split; [apply run_one; exact E6|].
      pose proof (print_level _ _ E6) as PL. unfold st_print_last in E6. destruct (lg_print _) as [[o g0]| | | | |]; cbn in E6; try discriminate. inversion E6. cbn. repeat split; auto.
      rewrite <- L4, <- PL. inversion E6. reflexivity.
    - inversion EP; subst s5. split; [apply run_nil, sl_refl|]. repeat split; auto. }
  destruct P as (P1 & P2 & P3 & P4 & P5 & P6 & P7 & P8 & P9 & P10 & P11 & P12).
  assert (D : il_stats s' = il_stats s5 /\ il_kps s' = il_kps s5 /\ il_grad s' = il_grad s5 /\ il_Z s' = il_Z s5 /\ il_costs s' = il_costs s5 /\ il_opts s' = il_opts s5).
  { exact (is_done_keep s5 fin s' E). }
  destruct D as (D1 & D2 & D3 & D4 & D5 & D6).
  exists (mkIR x step dJ v (st_total st3) g). cbn [ir_total ir_viol ir_grad ir_step]. split.
  - unfold inner_calls. cbn [ir_reg ir_step ir_dJ ir_viol ir_total ir_grad]. rewrite D1.
    apply (run_cons debug _ _ _ (st_logF "reg" x (il_stats s))); [reflexivity|]. rewrite <- B.
    apply (run_app debug _ _ _ (il_stats s3)).
    { rewrite S1. destruct step as [[[J a] z]|]; [|apply run_nil, sl_refl]. do 3 (eapply run_cons; [reflexivity|]). apply run_nil, sl_refl. }
    apply (run_app debug _ _ _ (il_stats s4)); [|exact P1]. apply (run_from debug _ _ st1); [apply sl_counts|]. rewrite E4.
    do 5 (eapply run_cons; [reflexivity|]). apply run_nil. apply sl_refl.
  - split; [|rewrite D1, P2, P3, P4, P5, E4; destruct (CN st5) as (-> & -> & ->); rewrite T5t, T5i, T5o, D6, P10, E4o, S3; 
       repeat (split; [auto; fail|]); (split; [apply (stats_ok_ext _ _ P11 P12); exact Y4|exact KO])].
    unfold describes. cbn [ir_reg ir_step ir_dJ ir_viol ir_total ir_grad].
    rewrite D1, (back_ext _ _ _ P11), Y4d, P2, E4, (proj1 (CN st5)), T5t, T3t, D2, P6, E4k, D3, P7, E4g, D4, P8, E4z, D5, P9, E4c, EZ3.
    split; [|auto]. exists Z, q, s2. rewrite <- KO. repeat (split; [auto; fail|]).
    destruct step as [[[J a] z]|]; [exact S2|]. congruence.
Qed.
End Solve.
