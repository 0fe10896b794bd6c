(** An augmented-Lagrangian solve always completes. *)
From Coq Require Import Reals Lra Lia List Bool ZArith String Arith.
From Verif Require Import Base Lin RLin ConModel ConSpec LogModel StatsModel StatsSpec StatsProofs TrajModel IlqrModel IlqrSpec IlqrFrame IlqrProofs IlqrProofs2 IlqrProofs3 IlqrProofs4 IlqrProofs5 IlqrProofs6 CostInst AlModel ConProofs4 AlProofs AlProofs2 TotalProofs.
Import ListNotations.
Local Open Scope nat_scope.

Section Any.
Context {F : Scalar} {CS : Type} (ops : CostOps F CS) (n m : nat) (cb : list CS -> F).
Notation ILQR := (ILQR F CS).
(** ** initial_state_is_set_ is kept *)
Lemma x0_loop kN : forall fuel cnt (s s' : ILQR), bp_loop n m fuel kN cnt s = Ok s' -> il_x0_set s' = il_x0_set s.
Proof.
  induction fuel as [|f IH]; intros cnt s s' H; [discriminate|]. cbn [bp_loop] in H.
  destruct (sw_ok _); [destruct (il_N s); [apply IH in H; exact H|inversion H; reflexivity]|].
  destruct (_ <=? _)%Z; [inversion H; reflexivity|apply IH in H; exact H].
Qed.
Lemma x0_pass fuel (s s' : ILQR) : il_backward_pass n m fuel s = Ok s' -> il_x0_set s' = il_x0_set s.
Proof.
  unfold il_backward_pass. destruct (nth_error _ _); [|discriminate]. destruct (bp_loop n m fuel _ _ _) as [s2| | | | |] eqn:E; try discriminate. apply x0_loop in E. cbn [bind]. intros H. inversion H. exact E.
Qed.
Lemma x0_cost Z (s : ILQR) : il_x0_set (snd (il_cost ops Z s)) = il_x0_set s.
Proof. unfold il_cost. destruct (calc_costs _ _ _). reflexivity. Qed.
Lemma x0_rollout a Z Zb (s : ILQR) : il_x0_set (snd (il_rollout_closed n m a Z Zb s)) = il_x0_set s.
Proof. unfold il_rollout_closed. destruct (roll_closed _ _ _ _ _ _ _) as [[e|] Zb']; reflexivity. Qed.
Lemma x0_search J0 Z : forall it a (s : ILQR), il_x0_set (snd (line_search ops n m it J0 a Z s)) = il_x0_set s.
Proof.
  induction it as [|it IH]; intros a s; [reflexivity|]. cbn [line_search].
  pose proof (x0_rollout a Z (match il_Zb s with Some Zb => Zb | None => [] end) s) as H1. destruct (il_rollout_closed _ _ _ _ _ _) as [ok s1]. cbn [snd] in H1. destruct ok.
  - pose proof (x0_cost (match il_Zb s1 with Some Zb => Zb | None => [] end) s1) as H2. destruct (il_cost _ _ _) as [J s2]. cbn [snd] in H2. cbv zeta.
    match goal with |- context [if ?c then _ else _] => destruct c end; [cbn; congruence|rewrite IH; congruence].
  - rewrite IH. exact H1.
Qed.
Lemma x0_forward Z (s : ILQR) : il_x0_set (il_forward_pass ops n m Z s) = il_x0_set s.
Proof.
  unfold il_forward_pass. cbv zeta. pose proof (x0_search (lsum (il_costs s)) Z (Z.to_nat (o_ls_iters (il_opts s))) one s) as H. destruct (line_search _ _ _ _ _ _ _ _) as [[ok J] s1]. cbn [snd] in H.
  destruct ok; match goal with |- context [if ?c then _ else _] => destruct c end; exact H.
Qed.
Lemma x0_iteration fuel (s : ILQR) fin s' : il_iteration ops n m cb fuel s = Ok (fin, s') -> il_x0_set s' = il_x0_set s.
Proof.
  unfold il_iteration. destruct (il_get_Z s) as [Z| | | | |]; try discriminate. cbn [bind].
  destruct (il_backward_pass n m fuel _) as [s2| | | | |] eqn:EB; try discriminate. apply x0_pass in EB. cbn [bind].
  assert (U : il_x0_set (il_update_expansions ops n m Z s) = il_x0_set s) by (unfold il_update_expansions; destruct (expand_all _ _ _ _ _); reflexivity).
  pose proof (x0_forward Z s2) as HF. set (s3 := il_forward_pass ops n m Z s2) in *. clearbody s3.
  destruct (il_get_Z s3) as [Z'| | | | |]; try discriminate. cbn [bind].
  destruct (il_update_stats m cb Z' s3) as [s4| | | | |] eqn:EU; try discriminate. cbn [bind].
  assert (H4 : il_x0_set s4 = il_x0_set s3).
  { unfold il_update_stats in EU. destruct (il_ff_gain m Z' s3) as [dg s3'] eqn:Eg. assert (il_x0_set s3' = il_x0_set s3) by (unfold il_ff_gain in Eg; inversion Eg; reflexivity).
    match type of EU with (do _ <- ?a ; _) = _ => destruct a; try discriminate end. cbn [bind] in EU. inversion EU. cbn [il_x0_set il_set_stats]. assumption. }
  destruct (if (kInner <=? _)%Z then _ else _) as [s5| | | | |] eqn:EP; try discriminate. cbn [bind].
  assert (H5 : il_x0_set s5 = il_x0_set s4).
  { destruct (kInner <=? _)%Z; [|inversion EP; reflexivity]. destruct (st_print_last _); try discriminate. inversion EP. reflexivity. }
  unfold il_is_done. destruct (st_back "dJ" _); try discriminate. cbn [bind]. destruct (st_back "grad" _); try discriminate. cbn [bind].
  intros H. assert (il_x0_set s' = il_x0_set s5); [|congruence].
  destruct (ltb _ _ && ltb _ _); [inversion H; reflexivity|]. destruct (o_max_inner (il_opts s5) <=? _)%Z; [inversion H; reflexivity|]. destruct (o_max_total (il_opts s5) <=? _)%Z; [inversion H; reflexivity|]. destruct (negb _); inversion H; reflexivity.
Qed.
Lemma x0_begin debug (s b : ILQR) : il_begin ops n debug s = Ok b -> il_x0_set b = il_x0_set s.
Proof.
  unfold il_begin. destruct (altro_assert _ _); try discriminate. cbn [bind]. destruct (altro_assert _ _); try discriminate. cbn [bind]. destruct (altro_assert _ _); try discriminate. cbn [bind].
  destruct (il_solve_setup s) as [s1| | | | |] eqn:E1; try discriminate. cbn [bind].
  assert (H1 : il_x0_set s1 = il_x0_set s).
  { unfold il_solve_setup in E1. cbv zeta in E1. cbn [il_Z il_Zb il_set_stats] in E1. destruct (il_Z s); [destruct (il_Zb s); [|discriminate]|]; inversion E1; reflexivity. }
  destruct (il_sized s1); try discriminate. cbn [bind]. destruct (il_get_Z s1) as [Z| | | | |]; try discriminate. cbn [bind]. cbv zeta.
  pose proof (x0_cost (il_rollout n Z s1) (il_set_Z s1 (Some (il_rollout n Z s1)))) as HC. destruct (il_cost _ _ _) as [J s3]. cbn [snd] in HC. intros H. inversion H. cbn. rewrite HC. exact H1.
Qed.
Lemma solve_keeps debug fuel (s s' : ILQR) : il_ready s -> il_x0_set s = true -> stats_ok (il_stats s) -> freq s <> 0%Z ->
  il_solve ops n m cb debug fuel s = Ok s' -> il_x0_set s' = true /\ freq s' = freq s.
Proof.
  intros Hr HX HS HF H. unfold il_solve in H. destruct (begin_total ops n debug s Hr HX) as (b & Eb & Fb). rewrite Eb in H. cbn [bind] in H.
  destruct (begin_spec ops n (fun _ _ => True) (fun _ => I) (fun _ _ _ => I) debug s b Eb) as (Z & Z1 & S4).
  pose proof (so_ready _ _ _ _ _ _ _ _ S4) as Hrb. apply stats_ok_series in HS. destruct HS as [g Hg]. apply (begin_series ops n debug s b g Eb) in Hg.
  assert (Hb : boundary (st_inner (il_stats b)) g) by (left; apply S4). pose proof (x0_begin debug s b Eb) as Xb. rewrite HX in Xb.
  assert (G : forall it (x x' : ILQR) gx, il_ready x -> st_series (il_stats x) gx -> boundary (st_inner (il_stats x)) gx -> freq x = freq s -> il_x0_set x = true -> il_loop ops n m cb fuel it x = Ok x' -> il_x0_set x' = true /\ freq x' = freq s).
  { induction it as [|it IH]; intros x x' gx Rx Gx Bx Fx Xx E; [inversion E; subst; auto|]. cbn [il_loop] in E.
    destruct (il_iteration ops n m cb fuel x) as [[fin y]| | | | |] eqn:Ei; try discriminate. cbn [bind] in E.
    pose proof (x0_iteration fuel x fin y Ei) as Xy. pose proof (iter_record ops n m cb fuel x fin y gx Rx Ei Gx Bx) as (g' & Z' & _ & K1 & K2 & _ & _ & K5 & _).
    assert (Fy : freq y = freq x).
    { pose proof Rx as (_ & (Zx & HZx & _) & _). pose proof Ei as E2. unfold il_iteration, il_get_Z in E2. rewrite HZx in E2. cbn [bind] in E2. destruct (il_backward_pass n m fuel (il_update_expansions ops n m Zx x)) as [s2| | | | |] eqn:EB; try discriminate.
      destruct (iteration_total ops n m cb fuel x Zx s2 gx Rx HZx EB Gx Bx) as (fin' & y' & E3 & Fq); [congruence|]. rewrite Ei in E3. inversion E3; subst. exact Fq. }
    destruct fin; [inversion E; subst; split; congruence|]. apply (IH y x' g' K5 K1 K2); congruence. }
  apply (G _ b s' g Hrb Hg Hb Fb Xb H).
Qed.
Lemma loop_more fuel fuel' : fuel <= fuel' -> forall it (s s' : ILQR), il_loop ops n m cb fuel it s = Ok s' -> il_loop ops n m cb fuel' it s = Ok s'.
Proof.
  intros L. induction it as [|it IH]; intros s s' H; [exact H|]. cbn [il_loop] in *. destruct (il_iteration ops n m cb fuel s) as [[fin y]| | | | |] eqn:E; try discriminate. rewrite (iteration_fuel _ _ _ _ _ _ _ _ E L). cbn [bind] in *. destruct fin; auto.
Qed.
Lemma solve_more debug fuel fuel' (s s' : ILQR) : fuel <= fuel' -> il_solve ops n m cb debug fuel s = Ok s' -> il_solve ops n m cb debug fuel' s = Ok s'.
Proof. intros L H. unfold il_solve in *. destruct (il_begin ops n debug s); try discriminate. cbn [bind] in *. eapply loop_more; eassumption. Qed.
End Any.

Section AL.
Context (n m : nat).
Notation IL := (ILQR RS (ALCost RS)).
(** what an outer iteration needs *)
Definition outer_ok (s : IL) : Prop :=
  il_ready s /\ il_x0_set s = true /\ (1 <= il_N s) /\ stats_ok (il_stats s) /\ freq s <> 0%Z /\ reg_ok (il_opts s) /\ (0 < o_reg_min (il_opts s))%R.
Lemma as_iteration_total debug (s : IL) : outer_ok s -> exists fuel d s', (forall fuel', fuel <= fuel' -> as_iteration n m debug fuel' s = Ok (d, s')) /\ (d = None -> outer_ok s').
Proof.
  intros (Hr & HX & HN & HS & HF & RO & RM).
  destruct (solve_total al_ops n m als_max_violation debug s Hr HX HN HS HF RO RM) as [fuel T]. destruct (T fuel (le_n _)) as [s1 E1].
  destruct (solve_keeps al_ops n m als_max_violation debug fuel s s1 Hr HX HS HF E1) as [X1 F1].
  pose proof (solve_stats_ok al_ops n m als_max_violation debug fuel s s1 E1 HS) as S1.
  destruct (solve_ready al_ops n m als_max_violation (fun _ _ => True) (fun _ => I) (fun _ _ _ _ _ => I) (fun _ _ _ => I) (fun _ _ _ _ => I) (fun _ _ _ _ => I) debug fuel s s1 E1) as [R1 [f1 f2 f3 f4]].
  assert (IT : exists d s', as_iteration n m debug fuel s = Ok (d, s') /\ freq s' = freq s /\ il_x0_set s' = true).
  { unfold as_iteration. rewrite E1. cbn [bind]. set (s2 := il_map_costobjs al_update_duals s1).
    assert (F3 : freq (as_update_stats s2) = freq s). { unfold freq, as_update_stats. cbn [il_stats il_set_stats]. unfold st_logZ, st_logF. rewrite !freq_log. exact F1. }
    assert (X3 : il_x0_set (as_update_stats s2) = true) by exact X1.
    pose proof (upd_spec s1) as (_ & _ & _ & _ & _ & _ & _ & _ & _ & _ & _ & U12). destruct (U12 S1) as (_ & V2 & V3). change (as_update_stats (il_map_costobjs al_update_duals s1)) with (as_update_stats s2) in V2, V3.
    set (s3 := as_update_stats s2) in *. clearbody s3. cbv zeta. set (lg := (kInner <=? lg_level (st_log (il_stats s3)))%Z). clearbody lg.
    assert (P4 : exists s4, (if lg then Ok s3 else do st <- st_print_last (il_stats s3) ; Ok (il_set_stats s3 st)) = Ok s4 /\ freq s4 = freq s /\ il_x0_set s4 = true /\ st_ser (il_stats s4) = st_ser (il_stats s3)).
    { destruct lg; [exists s3; auto|]. unfold st_print_last, lg_print. unfold freq in F3 at 1. rewrite F3. destruct (Z.eqb_spec (freq s) 0); [congruence|]. destruct (Z.rem _ _ =? 0)%Z; cbn [bind]; eexists; (split; [reflexivity|]); (split; [exact F3|]); split; try exact X3; reflexivity. }
    destruct P4 as (s4 & -> & F4 & X4 & E4). cbn [bind]. unfold as_is_done. rewrite !(back_ext _ _ _ E4), V2, V3. cbn [bind].
    match goal with |- context [match ?d with Some _ => _ | None => _ end] => destruct d end; eexists _, _; (split; [reflexivity|]); [auto|]. destruct lg; split; try exact F4; exact X4. }
  destruct IT as (d & s' & ET & FT & XT). exists fuel, d, s'. split.
  - intros f' L. unfold as_iteration in *. rewrite E1 in ET. rewrite (solve_more al_ops n m als_max_violation debug fuel f' s s1 L E1). exact ET.
  - intros ->. destruct (as_iter_spec n m debug fuel s None s' ET) as (s1' & s4 & S4). destruct (outer_problem n m debug fuel s None s' s1' s4 S4) as (P1 & P4 & P').
    pose proof (ou_solve _ _ _ _ _ _ _ _ _ S4) as E1'. rewrite E1 in E1'. inversion E1'; subst s1'. clear E1'. destruct (ou_stats _ _ _ _ _ _ _ _ _ S4 S1) as (S4' & _).
    pose proof (ou_end _ _ _ _ _ _ _ _ _ S4) as EN. cbn in EN. destruct EN as (O1 & O2 & O3 & O4 & O5 & O6 & O7 & O8 & O9 & O10 & O11 & O12 & O13).
    pose proof (sp_trans _ _ _ P1 (sp_trans _ _ _ P4 P')) as PS. destruct PS as [Q1 Q2 Q3 Q4]. destruct R1 as (r1 & r2 & r3). assert (EZ : il_Z s' = il_Z s1) by (rewrite O4; apply S4). assert (EB : il_Zb s' = il_Zb s1) by (rewrite O5; apply S4).
    split; [|split; [exact XT|]; split; [lia|]; split; [eapply stats_ok_ext; [exact O12|exact O13|exact S4']|]; split; [congruence|]; rewrite Q1; auto].
    assert (EL : forall a b : list (KPF RS (ALCost RS)), map kp_dyn a = map kp_dyn b -> Datatypes.length a = Datatypes.length b). { intros a b E. apply (f_equal (@Datatypes.length _)) in E. rewrite !map_length in E. exact E. }
    split; [rewrite (EL _ _ Q4), Q2; apply Hr|]. rewrite EZ, EB, Q2, <- f1. auto.
Qed.
Lemma as_loop_total debug : forall it (a : ALS RS), outer_ok (as_il a) -> exists fuel a', forall fuel', fuel <= fuel' -> as_loop n m debug fuel' it a = Ok a'.
Proof.
  induction it as [|it IH]; intros a H; [exists 0, a; reflexivity|]. destruct (as_iteration_total debug (as_il a) H) as (f & d & s' & E & K). destruct d as [e|].
  - exists f, (mkALS s' e). intros f' L. cbn [as_loop]. rewrite (E f' L). reflexivity.
  - destruct (IH (mkALS s' (as_status a)) (K eq_refl)) as (f1 & a' & E1). exists (Nat.max f f1), a'. intros f' L. cbn [as_loop]. rewrite (E f') by lia. cbn [bind]. apply E1. lia.
Qed.
Lemma as_init_total debug (s : IL) : il_ready s -> il_x0_set s = true -> (0 <= o_max_total (il_opts s))%Z -> (1 <= o_header_freq (il_opts s))%Z ->
  exists b, as_init debug s = Ok b /\ freq b <> 0%Z /\ il_x0_set b = true.
Proof.
  intros Hr HX HM HH. unfold as_init. cbv zeta. set (s1 := if o_reset_duals (il_opts s) then il_map_costobjs al_reset_duals s else s).
  assert (Hk : forall f (t : IL), il_ready t -> il_ready (il_set_costobjs f t)).
  { intros f t (A & B & C). split; [|auto]. cbn [il_kps il_set_kps il_set_costobjs il_N]. unfold il_set_costobjs. cbn. rewrite (proj2 (set_costs_dyn f (il_kps t))). exact A. }
  assert (H1 : il_ready s1 /\ il_x0_set s1 = true /\ il_stats s1 = il_stats s). { unfold s1. destruct (o_reset_duals _); [split; [apply Hk; exact Hr|auto]|auto]. }
  destruct H1 as (R1 & X1 & T1). clearbody s1.
  assert (H2 : exists s2, (if ltb zero (o_init_pen (il_opts s)) then do cs <- als_set_penalty debug (o_init_pen (il_opts s)) (il_costobjs s1) ; Ok (il_set_costobjs cs s1) else Ok s1) = Ok s2 /\ il_ready s2 /\ il_x0_set s2 = true /\ il_stats s2 = il_stats s).
  { destruct (ltb zero (o_init_pen (il_opts s))) eqn:E; [|exists s1; auto]. rewrite als_set_penalty_ok; [|intros _; cbn in E |- *; unfold Rltb in E; unfold Rleb; destruct (Rlt_dec 0 (o_init_pen (il_opts s))); [|discriminate]; destruct (Rle_dec 0 (o_init_pen (il_opts s))); [reflexivity|lra]].
    cbn [bind]. eexists. split; [reflexivity|]. split; [apply Hk; exact R1|auto]. }
  destruct H2 as (s2 & -> & R2 & X2 & T2). cbn [bind].
  assert (H3 : exists st, st_reset debug (il_opts s) (il_stats s2) = Ok st /\ lg_freq (st_log st) <> 0%Z).
  { unfold st_reset. cbv zeta. destruct (Z.ltb_spec (o_max_total (il_opts s)) 0); [lia|]. unfold lg_set_frequency.
    assert (EA : (0 <=? (if o_verbose (il_opts s) <? kInner then o_header_freq (il_opts s) else int_max))%Z = true) by (destruct (_ <? _)%Z; apply Z.leb_le; [lia|unfold int_max; lia]).
    rewrite EA. unfold altro_assert. assert (E : (if debug && negb true then Abort else Ok tt) = Ok tt) by (destruct debug; reflexivity). rewrite ?E. destruct debug; cbn [bind negb andb]; eexists; (split; [reflexivity|]); cbn; destruct (_ <? _)%Z; unfold int_max; lia. }
  destruct H3 as (st & -> & FS). cbn [bind].
  destruct R2 as (r1 & (Z & HZ & r2) & r3). unfold il_recost. cbn [il_Z il_set_stats]. rewrite HZ. assert (EA : altro_assert debug true = Ok tt) by (unfold altro_assert; destruct debug; reflexivity). rewrite EA. cbn [bind].
  unfold il_get_Z. cbn [il_Z il_set_stats]. rewrite HZ. cbn [bind]. change (il_N (il_set_stats s2 (st_logZ "iter_al" 0%Z st))) with (il_N s2). change (il_kps (il_set_stats s2 (st_logZ "iter_al" 0%Z st))) with (il_kps s2). rewrite r1, r2, !Nat.eqb_refl. cbn [andb bind].
  eexists. split; [reflexivity|]. unfold il_cost. destruct (calc_costs _ _ _). split; [|exact X2]. unfold freq. cbn [il_stats il_set_stats snd]. unfold st_logF, st_logZ. rewrite !freq_log. unfold il_set_costs; cbn [il_stats]; unfold il_set_stats; cbn [il_stats]. rewrite ?freq_log. exact FS.
Qed.
Theorem al_solve_total debug (a : ALS RS) : let s := as_il a in
  il_ready s -> il_x0_set s = true -> 1 <= il_N s -> map fst (st_ser (il_stats s)) = series_titles -> reg_ok (il_opts s) -> (0 < o_reg_min (il_opts s))%R ->
  (0 <= o_max_total (il_opts s))%Z -> (1 <= o_header_freq (il_opts s))%Z ->
  exists fuel a', forall fuel', fuel <= fuel' -> as_solve n m debug fuel' a = Ok a'.
Proof.
  intros s Hr HX HN HS RO RM HM HH. destruct (as_init_total debug s Hr HX HM HH) as (b & Eb & Fb & Xb). destruct (init_spec debug s b Eb) as ([O1 O2 O3 O4] & HZ & HZb & _ & _ & _ & _ & SK).
  assert (OK : outer_ok (as_il (mkALS b (as_status a)))).
  { cbn [as_il]. split; [|split; [exact Xb|]; split; [lia|]; split; [apply SK; exact HS|]; split; [exact Fb|]; rewrite O1; auto].
    destruct Hr as (A & B & C). split; [|rewrite HZ, HZb, O2; auto]. apply (f_equal (@Datatypes.length _)) in O4. rewrite !map_length in O4. rewrite O4, O2. exact A. }
  destruct (as_loop_total debug (Z.to_nat (o_max_outer (il_opts b))) _ OK) as (f & a' & E). exists f, a'. intros f' L. unfold as_solve. fold s. rewrite Eb. cbn [bind]. apply E. exact L.
Qed.
End AL.
