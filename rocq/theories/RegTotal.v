(** Completion of solves over any scalars, from an invariant of the regularisation and the completion of the backward pass. *)
From Coq Require Import Lia List Bool ZArith String Arith.
From Verif Require Import Base Lin ConModel ConSpec LogModel StatsModel StatsSpec StatsProofs TrajModel IlqrModel IlqrSpec IlqrFrame IlqrProofs IlqrProofs2 IlqrProofs3 IlqrProofs4 IlqrProofs6 CostInst AlModel ConProofs4 AlProofs AlProofs2 TotalProofs AlTotal.
Import ListNotations.
Local Open Scope nat_scope.

Section Solve.
Context {F : Scalar} {CS : Type} (ops : CostOps F CS) (n m : nat) (cb : list CS -> F).
Notation ILQR := (ILQR F CS).
(** what is asked of the options; what the regularisation and its rate satisfy *)
Context (ROK : Opts F -> Prop) (INV : F -> F -> Prop).
Context (Hinit : forall o, ROK o -> INV (o_reg_initial o) zero).
Context (Hinc : forall s : ILQR, ROK (il_opts s) -> INV (il_rho s) (il_drho s) -> INV (il_rho (il_increase_reg s)) (il_drho (il_increase_reg s))).
Context (Hdec : forall s : ILQR, ROK (il_opts s) -> INV (il_rho s) (il_drho s) -> INV (il_rho (il_decrease_reg s)) (il_drho (il_decrease_reg s))).
Context (Hback : forall s : ILQR, ROK (il_opts s) -> 1 <= il_N s -> INV (il_rho s) (il_drho s) -> Datatypes.length (il_kps s) = S (il_N s) -> exists fuel s', il_backward_pass n m fuel s = Ok s').
Definition reg_inv (s : ILQR) : Prop := ROK (il_opts s) /\ INV (il_rho s) (il_drho s).
Definition same_reg (s s' : ILQR) : Prop := il_opts s' = il_opts s /\ il_rho s' = il_rho s /\ il_drho s' = il_drho s.
Lemma same_inv s s' : same_reg s s' -> reg_inv s -> reg_inv s'.
Proof. intros (A & B & C) (D & E). unfold reg_inv. rewrite A, B, C. auto. Qed.
Lemma same_reg_trans s1 s2 s3 : same_reg s1 s2 -> same_reg s2 s3 -> same_reg s1 s3.
Proof. intros (A & B & C) (D & E & G). repeat split; congruence. Qed.
Lemma rinv_inc s : reg_inv s -> reg_inv (il_increase_reg s).
Proof. intros (A & B). split; [exact A|apply Hinc; assumption]. Qed.
Lemma rinv_loop kN : forall fuel cnt (s s' : ILQR), bp_loop n m fuel kN cnt s = Ok s' -> reg_inv s -> reg_inv s'.
Proof.
  induction fuel as [|f IH]; intros cnt s s' H R; [discriminate|]. cbn [bp_loop] in H. cbv zeta in H. set (w := bp_sweep _ _ _ _ _ _ _ _) in *. set (s1 := il_set_dV _ _ _) in *. assert (R1 : reg_inv s1) by exact R.
  destruct (sw_ok w); [destruct (il_N s); [apply IH in H; assumption|inversion H; subst; exact R1]|]. pose proof (rinv_inc s1 R1) as R2.
  destruct (_ <=? _)%Z; [inversion H; exact R2|apply IH in H; assumption].
Qed.
Lemma rinv_pass fuel (s s' : ILQR) : il_backward_pass n m fuel s = Ok s' -> reg_inv s -> reg_inv s'.
Proof.
  unfold il_backward_pass. destruct (nth_error _ _) as [k0|]; [|discriminate]. cbv zeta. destruct (bp_loop n m fuel _ _ _) as [s2| | | | |] eqn:E; try discriminate. intros H R. apply rinv_loop in E; [|exact R]. cbn [bind] in H.
  match type of H with Ok (il_decrease_reg ?x) = Ok s' => set (t := x) in H; assert (RT : reg_inv t) by exact E end. assert (ET : il_decrease_reg t = s') by congruence. rewrite <- ET. destruct RT as [A B]. split; [exact A|apply Hdec; assumption].
Qed.
Lemma reg_cost Z (s : ILQR) : same_reg s (snd (il_cost ops Z s)).
Proof. unfold il_cost. destruct (calc_costs _ _ _). repeat split. Qed.
Lemma reg_rollout a Z Zb (s : ILQR) : same_reg s (snd (il_rollout_closed n m a Z Zb s)).
Proof. unfold il_rollout_closed. destruct (roll_closed _ _ _ _ _ _ _) as [[e|] Zb']; repeat split. Qed.
Lemma reg_search J0 Z : forall it a (s : ILQR), same_reg s (snd (line_search ops n m it J0 a Z s)).
Proof.
  induction it as [|it IH]; intros a s; [repeat split|]. cbn [line_search].
  pose proof (reg_rollout a Z (match il_Zb s with Some Zb => Zb | None => [] end) s) as H1. destruct (il_rollout_closed _ _ _ _ _ _) as [ok s1]. cbn [snd] in H1. destruct ok.
  - pose proof (reg_cost (match il_Zb s1 with Some Zb => Zb | None => [] end) s1) as H2. destruct (il_cost _ _ _) as [J s2]. cbn [snd] in H2. cbv zeta. pose proof (same_reg_trans _ _ _ H1 H2) as H3.
    match goal with |- context [if ?c then _ else _] => destruct c end; [cbn [snd]; eapply same_reg_trans; [exact H3|repeat split]|eapply same_reg_trans; [exact H3|apply IH]].
  - eapply same_reg_trans; [exact H1|apply IH].
Qed.
Lemma rinv_forward Z (s : ILQR) : reg_inv s -> reg_inv (il_forward_pass ops n m Z s).
Proof.
  intros R. unfold il_forward_pass. cbv zeta. pose proof (reg_search (lsum (il_costs s)) Z (Z.to_nat (o_ls_iters (il_opts s))) one s) as H. destruct (line_search _ _ _ _ _ _ _ _) as [[ok J] s1]. cbn [snd] in H.
  pose proof (same_inv _ _ H R) as R1. destruct ok; match goal with |- context [if ?c then _ else _] => destruct c end; try exact R1; exact (rinv_inc _ R1).
Qed.
(** behind the forward pass an iteration leaves the regularisation alone *)
Lemma iteration_reg fuel (s : ILQR) fin s' : il_iteration ops n m cb fuel s = Ok (fin, s') ->
  exists Z s2, il_backward_pass n m fuel (il_update_expansions ops n m Z s) = Ok s2 /\ same_reg s (il_update_expansions ops n m Z s) /\ same_reg (il_forward_pass ops n m Z s2) s'.
Proof.
  unfold il_iteration. destruct (il_get_Z s) as [Z| | | | |]; try discriminate. cbn [bind].
  destruct (il_backward_pass n m fuel _) as [s2| | | | |] eqn:EB; try discriminate. cbn [bind]. intros H. exists Z, s2. split; [exact EB|].
  split; [unfold il_update_expansions; destruct (expand_all _ _ _ _ _); repeat split|]. clear EB.
  set (s3 := il_forward_pass ops n m Z s2) in *. clearbody s3.
  destruct (il_get_Z s3) as [Z'| | | | |]; try discriminate. cbn [bind] in H.
  destruct (il_update_stats m cb Z' s3) as [s4| | | | |] eqn:EU; try discriminate. cbn [bind] in H.
  assert (H4 : same_reg s3 s4).
  { unfold il_update_stats in EU. destruct (il_ff_gain m Z' s3) as [dg s3'] eqn:Eg. assert (E3 : same_reg s3 s3') by (unfold il_ff_gain in Eg; inversion Eg; repeat split).
    match type of EU with (do _ <- ?a ; _) = _ => destruct a; try discriminate end. cbn [bind] in EU. inversion EU. exact E3. }
  destruct (if (kInner <=? _)%Z then _ else _) as [s5| | | | |] eqn:EP; try discriminate. cbn [bind] in H.
  assert (H5 : same_reg s4 s5).
  { destruct (kInner <=? _)%Z; [|inversion EP; repeat split]. destruct (st_print_last _); try discriminate. inversion EP. repeat split. }
  unfold il_is_done in H. destruct (st_back "dJ" _); try discriminate. cbn [bind] in H. destruct (st_back "grad" _); try discriminate. cbn [bind] in H.
  assert (H6 : same_reg s5 s').
  { destruct (ltb _ _ && ltb _ _); [inversion H; repeat split|]. destruct (o_max_inner (il_opts s5) <=? _)%Z; [inversion H; repeat split|]. destruct (o_max_total (il_opts s5) <=? _)%Z; [inversion H; repeat split|]. destruct (negb _); inversion H; repeat split. }
  eapply same_reg_trans; [exact H4|]. eapply same_reg_trans; eassumption.
Qed.
Lemma rinv_iteration fuel (s : ILQR) fin s' : il_iteration ops n m cb fuel s = Ok (fin, s') -> reg_inv s -> reg_inv s'.
Proof.
  intros H R. destruct (iteration_reg fuel s fin s' H) as (Z & s2 & EB & U & V). apply rinv_pass in EB; [|exact (same_inv _ _ U R)]. exact (same_inv _ _ V (rinv_forward Z s2 EB)).
Qed.
(** what increases and decreases establish holds after every iteration *)
Context (RNG : Opts F -> F -> Prop).
Context (Rinc : forall s : ILQR, reg_inv s -> RNG (il_opts s) (il_rho (il_increase_reg s))).
Context (Rdec : forall s : ILQR, reg_inv s -> RNG (il_opts s) (il_rho (il_decrease_reg s))).
Lemma iteration_range fuel (s : ILQR) fin s' : il_iteration ops n m cb fuel s = Ok (fin, s') -> reg_inv s -> RNG (il_opts s') (il_rho s').
Proof.
  intros H R. destruct (iteration_reg fuel s fin s' H) as (Z & s2 & EB & U & (V1 & V2 & _)). rewrite V1, V2. clear V1 V2. pose proof (rinv_pass _ _ _ EB (same_inv _ _ U R)) as R2.
  assert (P2 : RNG (il_opts s2) (il_rho s2)).
  { unfold il_backward_pass in EB. destruct (nth_error _ _) as [k0|]; [|discriminate]. cbv zeta in EB. destruct (bp_loop n m fuel _ _ _) as [t0| | | | |] eqn:E; try discriminate. apply rinv_loop in E; [|exact (same_inv _ _ U R)]. cbn [bind] in EB.
    match type of EB with Ok (il_decrease_reg ?x) = Ok s2 => set (t := x) in EB; assert (RT : reg_inv t) by exact E end. assert (ET : il_decrease_reg t = s2) by congruence. rewrite <- ET. change (il_opts (il_decrease_reg t)) with (il_opts t). apply Rdec. exact RT. }
  unfold il_forward_pass. cbv zeta. pose proof (reg_search (lsum (il_costs s2)) Z (Z.to_nat (o_ls_iters (il_opts s2))) one s2) as HS. destruct (line_search _ _ _ _ _ _ _ _) as [[ok J] s1]. cbn [snd] in HS.
  pose proof (same_inv _ _ HS R2) as R1. destruct HS as (S1 & S2 & _).
  assert (P1 : RNG (il_opts s1) (il_rho s1)) by (rewrite S1, S2; exact P2). pose proof (Rinc s1 R1) as P3. destruct ok; match goal with |- context [if ?c then _ else _] => destruct c end; first [exact P1|exact P3].
Qed.
Theorem solve_any debug (s : ILQR) : il_ready s -> il_x0_set s = true -> 1 <= il_N s -> stats_ok (il_stats s) -> freq s <> 0%Z -> ROK (il_opts s) ->
  exists fuel, forall fuel', fuel <= fuel' -> exists s', il_solve ops n m cb debug fuel' s = Ok s'.
Proof.
  intros Hr HX HN HS HF RO. destruct (begin_total ops n debug s Hr HX) as (b & Eb & Fb).
  destruct (begin_spec ops n (fun _ _ => True) (fun _ => I) (fun _ _ _ => I) debug s b Eb) as (Z & Z1 & S4). 
  pose proof (so_ready _ _ _ _ _ _ _ _ S4) as Hrb. pose proof (so_frame _ _ _ _ _ _ _ _ S4) as [f1 f2 f3 f4]. pose proof (so_rho _ _ _ _ _ _ _ _ S4) as [q1 q2].
  apply stats_ok_series in HS. destruct HS as [g Hg]. apply (begin_series ops n debug s b g Eb) in Hg.
  set (P := fun x : ILQR => il_ready x /\ (exists g, st_series (il_stats x) g /\ boundary (st_inner (il_stats x)) g) /\ freq x = freq s /\ reg_inv x /\ il_N x = il_N s).
  assert (Pb : P b). { split; [exact Hrb|]; split; [exists g; split; [exact Hg|left; apply S4]|]. split; [exact Fb|]. split; [|congruence]. split; [rewrite f3; exact RO|]. rewrite q1, q2. apply Hinit. exact RO. }
  destruct (loop_total ops n m cb P) with (iters := Z.to_nat (o_max_inner (il_opts b))) (s := b) as [fuel H].
  - intros x (A & B & _). auto.
  - intros x (_ & _ & A & _). congruence.
  - intros x Zx (A & _ & _ & C & D) HZx. 
    destruct (frame_update_expansions ops n m (fun _ _ => True) (fun _ => I) (fun _ _ _ _ _ => I) (fun _ _ _ => I) (fun _ _ _ _ => I) (fun _ _ _ _ => I) Zx x) as ([u1 u2 u3 u4] & _).
    assert (U : same_reg x (il_update_expansions ops n m Zx x)) by (unfold il_update_expansions; destruct (expand_all _ _ _ _ _); repeat split). apply (same_inv _ _ U) in C. destruct C as [C1 C2].
    apply Hback; [exact C1|rewrite u1, D; exact HN|exact C2|]. rewrite u1, <- (kps_len (fun _ _ => True) _ _ u4). apply A.
  - intros x f x' (A & (gx & B1 & B2) & C & D & E) Ei Fx. destruct (iter_record ops n m cb f x false x' gx A Ei B1 B2) as (g' & Z' & _ & K1 & K2 & _ & _ & K5 & _).
    destruct (iter_counts ops n m cb f x false x' A Ei) as (_ & _ & _ & _ & O1 & O2). split; [exact K5|]. split; [exists g'; auto|]. split; [congruence|]. split; [exact (rinv_iteration f x false x' Ei D)|congruence].
  - exact Pb.
  - exists fuel. intros f' L. unfold il_solve. rewrite Eb. cbn [bind]. apply H. exact L.
Qed.
(** the invariant along a solve *)
Lemma rinv_solve debug fuel (s s' : ILQR) : il_solve ops n m cb debug fuel s = Ok s' -> ROK (il_opts s) -> reg_inv s'.
Proof.
  unfold il_solve. destruct (il_begin ops n debug s) as [b| | | | |] eqn:Eb; try discriminate. cbn [bind]. intros H RO.
  destruct (begin_spec ops n (fun _ _ => True) (fun _ => I) (fun _ _ _ => I) debug s b Eb) as (Z & Z1 & S4).
  pose proof (so_frame _ _ _ _ _ _ _ _ S4) as [f1 f2 f3 f4]. pose proof (so_rho _ _ _ _ _ _ _ _ S4) as [q1 q2].
  assert (RB : reg_inv b). { split; [rewrite f3; exact RO|]. rewrite q1, q2. apply Hinit. exact RO. } clear f3 q1 q2 f4 f1 f2 S4 Eb. revert b RB H. generalize (Z.to_nat (o_max_inner (il_opts s))) as it0.
  intros _ b RB. generalize (Z.to_nat (o_max_inner (il_opts b))). intros it. revert b RB. induction it as [|it IH]; intros b RB H; [inversion H; subst; exact RB|]. cbn [il_loop] in H.
  destruct (il_iteration ops n m cb fuel b) as [[fin y]| | | | |] eqn:Ei; try discriminate. cbn [bind] in H. pose proof (rinv_iteration fuel b fin y Ei RB) as RY. destruct fin; [inversion H; subst; exact RY|]. apply (IH y); assumption.
Qed.
Lemma solve_range debug fuel (s s' : ILQR) : il_solve ops n m cb debug fuel s = Ok s' -> ROK (il_opts s) -> (1 <= o_max_inner (il_opts s))%Z -> RNG (il_opts s') (il_rho s').
Proof.
  unfold il_solve. destruct (il_begin ops n debug s) as [b| | | | |] eqn:Eb; try discriminate. cbn [bind]. intros H RO HM.
  destruct (begin_spec ops n (fun _ _ => True) (fun _ => I) (fun _ _ _ => I) debug s b Eb) as (Z & Z1 & S4).
  pose proof (so_frame _ _ _ _ _ _ _ _ S4) as [f1 f2 f3 f4]. pose proof (so_rho _ _ _ _ _ _ _ _ S4) as [q1 q2].
  assert (RB : reg_inv b). { split; [rewrite f3; exact RO|]. rewrite q1, q2. apply Hinit. exact RO. } rewrite f3 in H. clear f3 q1 q2 f4 f1 f2 S4 Eb.
  destruct (Z.to_nat (o_max_inner (il_opts s))) as [|it] eqn:EI; [lia|]. clear EI.
  revert b RB H. induction it as [|it IH]; intros b RB H; cbn [il_loop] in H; destruct (il_iteration ops n m cb fuel b) as [[fin y]| | | | |] eqn:Ei; try discriminate; cbn [bind] in H; pose proof (iteration_range fuel b fin y Ei RB) as RY.
  - assert (y = s') by (destruct fin; congruence). subst y. exact RY.
  - destruct fin; [assert (y = s') by congruence; subst y; exact RY|]. apply (IH y); [exact (rinv_iteration fuel b false y Ei RB)|exact H].
Qed.
End Solve.

Section AL.
Context {F : Scalar} (n m : nat).
Notation IL := (ILQR F (ALCost F)).
Context (ROK : Opts F -> Prop) (INV : F -> F -> Prop).
Context (Hinit : forall o, ROK o -> INV (o_reg_initial o) zero).
Context (Hinc : forall s : IL, ROK (il_opts s) -> INV (il_rho s) (il_drho s) -> INV (il_rho (il_increase_reg s)) (il_drho (il_increase_reg s))).
Context (Hdec : forall s : IL, ROK (il_opts s) -> INV (il_rho s) (il_drho s) -> INV (il_rho (il_decrease_reg s)) (il_drho (il_decrease_reg s))).
Context (Hback : forall s : IL, ROK (il_opts s) -> 1 <= il_N s -> INV (il_rho s) (il_drho s) -> Datatypes.length (il_kps s) = S (il_N s) -> exists fuel s', il_backward_pass n m fuel s = Ok s').
(** a positive number is not below zero *)
Context (Hlt : forall x : F, ltb zero x = true -> leb zero x = true).
Definition outer_any (s : IL) : Prop :=
  il_ready s /\ il_x0_set s = true /\ (1 <= il_N s) /\ stats_ok (il_stats s) /\ freq s <> 0%Z /\ ROK (il_opts s).
Lemma as_iteration_any debug (s : IL) : outer_any s -> exists fuel d s', (forall fuel', fuel <= fuel' -> as_iteration n m debug fuel' s = Ok (d, s')) /\ (d = None -> outer_any s').
Proof.
  intros (Hr & HX & HN & HS & HF & RO).
  destruct (solve_any al_ops n m als_max_violation ROK INV Hinit Hinc Hdec Hback debug s Hr HX HN HS HF RO) as [fuel T]. destruct (T fuel (le_n _)) as [s1 E1].
  destruct (solve_keeps al_ops n m als_max_violation debug fuel s s1 Hr HX HS HF E1) as [X1 F1].
  pose proof (solve_stats_ok al_ops n m als_max_violation debug fuel s s1 E1 HS) as S1.
  destruct (solve_ready al_ops n m als_max_violation (fun _ _ => True) (fun _ => I) (fun _ _ _ _ _ => I) (fun _ _ _ => I) (fun _ _ _ _ => I) (fun _ _ _ _ => I) debug fuel s s1 E1) as [R1 [f1 f2 f3 f4]].
  assert (IT : exists d s', as_iteration n m debug fuel s = Ok (d, s') /\ freq s' = freq s /\ il_x0_set s' = true).
  { unfold as_iteration. rewrite E1. cbn [bind]. set (s2 := il_map_costobjs al_update_duals s1).
    assert (F3 : freq (as_update_stats s2) = freq s). { unfold freq, as_update_stats. cbn [il_stats il_set_stats]. unfold st_logZ, st_logF. rewrite !freq_log. exact F1. }
    assert (X3 : il_x0_set (as_update_stats s2) = true) by exact X1.
    pose proof (upd_spec s1) as (_ & _ & _ & _ & _ & _ & _ & _ & _ & _ & _ & U12). destruct (U12 S1) as (_ & V2 & V3). change (as_update_stats (il_map_costobjs al_update_duals s1)) with (as_update_stats s2) in V2, V3.
    set (s3 := as_update_stats s2) in *. clearbody s3. cbv zeta. set (lg := (kInner <=? lg_level (st_log (il_stats s3)))%Z). clearbody lg.
    assert (P4 : exists s4, (if lg then Ok s3 else do st <- st_print_last (il_stats s3) ; Ok (il_set_stats s3 st)) = Ok s4 /\ freq s4 = freq s /\ il_x0_set s4 = true /\ st_ser (il_stats s4) = st_ser (il_stats s3)).
    { destruct lg; [exists s3; auto|]. unfold st_print_last, lg_print. unfold freq in F3 at 1. rewrite F3. destruct (Z.eqb_spec (freq s) 0); [congruence|]. destruct (Z.rem _ _ =? 0)%Z; cbn [bind]; eexists; (split; [reflexivity|]); (split; [exact F3|]); split; try exact X3; reflexivity. }
    destruct P4 as (s4 & -> & F4 & X4 & E4). cbn [bind]. unfold as_is_done. rewrite !(back_ext _ _ _ E4), V2, V3. cbn [bind].
    match goal with |- context [match ?d with Some _ => _ | None => _ end] => destruct d end; eexists _, _; (split; [reflexivity|]); [auto|]. destruct lg; split; try exact F4; exact X4. }
  destruct IT as (d & s' & ET & FT & XT). exists fuel, d, s'. split.
  - intros f' L. unfold as_iteration in *. rewrite E1 in ET. rewrite (solve_more al_ops n m als_max_violation debug fuel f' s s1 L E1). exact ET.
  - intros ->. destruct (as_iter_spec n m debug fuel s None s' ET) as (s1' & s4 & S4). destruct (outer_problem n m debug fuel s None s' s1' s4 S4) as (P1 & P4 & P').
    pose proof (ou_solve _ _ _ _ _ _ _ _ _ S4) as E1'. rewrite E1 in E1'. inversion E1'; subst s1'. clear E1'. destruct (ou_stats _ _ _ _ _ _ _ _ _ S4 S1) as (S4' & _).
    pose proof (ou_end _ _ _ _ _ _ _ _ _ S4) as EN. cbn in EN. destruct EN as (O1 & O2 & O3 & O4 & O5 & O6 & O7 & O8 & O9 & O10 & O11 & O12 & O13).
    pose proof (sp_trans _ _ _ P1 (sp_trans _ _ _ P4 P')) as PS. destruct PS as [Q1 Q2 Q3 Q4]. destruct R1 as (r1 & r2 & r3). assert (EZ : il_Z s' = il_Z s1) by (rewrite O4; apply S4). assert (EB : il_Zb s' = il_Zb s1) by (rewrite O5; apply S4).
    split; [|split; [exact XT|]; split; [lia|]; split; [eapply stats_ok_ext; [exact O12|exact O13|exact S4']|]; split; [congruence|]; rewrite Q1; auto].
    assert (EL : forall a b : list (KPF F (ALCost F)), map kp_dyn a = map kp_dyn b -> Datatypes.length a = Datatypes.length b). { intros a b E. apply (f_equal (@Datatypes.length _)) in E. rewrite !map_length in E. exact E. }
    split; [rewrite (EL _ _ Q4), Q2; apply Hr|]. rewrite EZ, EB, Q2, <- f1. auto.
Qed.
Lemma as_loop_any debug : forall it (a : ALS F), outer_any (as_il a) -> exists fuel a', forall fuel', fuel <= fuel' -> as_loop n m debug fuel' it a = Ok a'.
Proof.
  induction it as [|it IH]; intros a H; [exists 0, a; reflexivity|]. destruct (as_iteration_any debug (as_il a) H) as (f & d & s' & E & K). destruct d as [e|].
  - exists f, (mkALS s' e). intros f' L. cbn [as_loop]. rewrite (E f' L). reflexivity.
  - destruct (IH (mkALS s' (as_status a)) (K eq_refl)) as (f1 & a' & E1). exists (Nat.max f f1), a'. intros f' L. cbn [as_loop]. rewrite (E f') by lia. cbn [bind]. apply E1. lia.
Qed.
Lemma as_init_any debug (s : IL) : il_ready s -> il_x0_set s = true -> (0 <= o_max_total (il_opts s))%Z -> (1 <= o_header_freq (il_opts s))%Z ->
  exists b, as_init debug s = Ok b /\ freq b <> 0%Z /\ il_x0_set b = true.
Proof.
  intros Hr HX HM HH. unfold as_init. cbv zeta. set (s1 := if o_reset_duals (il_opts s) then il_map_costobjs al_reset_duals s else s).
  assert (Hk : forall f (t : IL), il_ready t -> il_ready (il_set_costobjs f t)).
  { intros f t (A & B & C). split; [|auto]. cbn [il_kps il_set_kps il_set_costobjs il_N]. unfold il_set_costobjs. cbn. rewrite (proj2 (set_costs_dyn f (il_kps t))). exact A. }
  assert (H1 : il_ready s1 /\ il_x0_set s1 = true /\ il_stats s1 = il_stats s). { unfold s1. destruct (o_reset_duals _); [split; [apply Hk; exact Hr|auto]|auto]. }
  destruct H1 as (R1 & X1 & T1). clearbody s1.
  assert (H2 : exists s2, (if ltb zero (o_init_pen (il_opts s)) then do cs <- als_set_penalty debug (o_init_pen (il_opts s)) (il_costobjs s1) ; Ok (il_set_costobjs cs s1) else Ok s1) = Ok s2 /\ il_ready s2 /\ il_x0_set s2 = true /\ il_stats s2 = il_stats s).
  { destruct (ltb zero (o_init_pen (il_opts s))) eqn:E; [|exists s1; auto]. rewrite als_set_penalty_ok; [|intros _; apply Hlt; exact E].
    cbn [bind]. eexists. split; [reflexivity|]. split; [apply Hk; exact R1|auto]. }
  destruct H2 as (s2 & -> & R2 & X2 & T2). cbn [bind].
  assert (H3 : exists st, st_reset debug (il_opts s) (il_stats s2) = Ok st /\ lg_freq (st_log st) <> 0%Z).
  { unfold st_reset. cbv zeta. destruct (Z.ltb_spec (o_max_total (il_opts s)) 0); [lia|]. unfold lg_set_frequency.
    assert (EA : (0 <=? (if o_verbose (il_opts s) <? kInner then o_header_freq (il_opts s) else int_max))%Z = true) by (destruct (_ <? _)%Z; apply Z.leb_le; [lia|unfold int_max; lia]).
    rewrite EA. unfold altro_assert. assert (E : (if debug && negb true then Abort else Ok tt) = Ok tt) by (destruct debug; reflexivity). rewrite ?E. destruct debug; cbn [bind negb andb]; eexists; (split; [reflexivity|]); cbn; destruct (_ <? _)%Z; unfold int_max; lia. }
  destruct H3 as (st & -> & FS). cbn [bind].
  destruct R2 as (r1 & (Z & HZ & r2) & r3). unfold il_recost. cbn [il_Z il_set_stats]. rewrite HZ. assert (EA : altro_assert debug true = Ok tt) by (unfold altro_assert; destruct debug; reflexivity). rewrite EA. cbn [bind].
  unfold il_get_Z. cbn [il_Z il_set_stats]. rewrite HZ. cbn [bind]. change (il_N (il_set_stats s2 (st_logZ "iter_al" 0%Z st))) with (il_N s2). change (il_kps (il_set_stats s2 (st_logZ "iter_al" 0%Z st))) with (il_kps s2). rewrite r1, r2, !Nat.eqb_refl. cbn [andb bind].
  eexists. split; [reflexivity|]. unfold il_cost. destruct (calc_costs _ _ _). split; [|exact X2]. unfold freq. cbn [il_stats il_set_stats snd]. unfold st_logF, st_logZ. rewrite !freq_log. unfold il_set_costs; cbn [il_stats]; unfold il_set_stats; cbn [il_stats]. rewrite ?freq_log. exact FS.
Qed.
Theorem al_solve_any debug (a : ALS F) : let s := as_il a in
  il_ready s -> il_x0_set s = true -> 1 <= il_N s -> map fst (st_ser (il_stats s)) = series_titles -> ROK (il_opts s) ->
  (0 <= o_max_total (il_opts s))%Z -> (1 <= o_header_freq (il_opts s))%Z ->
  exists fuel a', forall fuel', fuel <= fuel' -> as_solve n m debug fuel' a = Ok a'.
Proof.
  intros s Hr HX HN HS RO HM HH. destruct (as_init_any debug s Hr HX HM HH) as (b & Eb & Fb & Xb). destruct (init_spec debug s b Eb) as ([O1 O2 O3 O4] & HZ & HZb & _ & _ & _ & _ & SK).
  assert (OK : outer_any (as_il (mkALS b (as_status a)))).
  { cbn [as_il]. split; [|split; [exact Xb|]; split; [lia|]; split; [apply SK; exact HS|]; split; [exact Fb|]; rewrite O1; auto].
    destruct Hr as (A & B & C). split; [|rewrite HZ, HZb, O2; auto]. apply (f_equal (@Datatypes.length _)) in O4. rewrite !map_length in O4. rewrite O4, O2. exact A. }
  destruct (as_loop_any debug (Z.to_nat (o_max_outer (il_opts b))) _ OK) as (f & a' & E). exists f, a'. intros f' L. unfold as_solve. fold s. rewrite Eb. cbn [bind]. apply E. exact L.
Qed.
(** the regularisation after a solve with at least one outer and one inner iteration *)
Context (RNG : Opts F -> F -> Prop).
Context (Rinc : forall s : IL, reg_inv ROK INV s -> RNG (il_opts s) (il_rho (il_increase_reg s))).
Context (Rdec : forall s : IL, reg_inv ROK INV s -> RNG (il_opts s) (il_rho (il_decrease_reg s))).
Lemma outer_reg debug fuel (s : IL) d s' : as_iteration n m debug fuel s = Ok (d, s') -> exists s1, il_solve al_ops n m als_max_violation debug fuel s = Ok s1 /\ same_reg s1 s'.
Proof.
  unfold as_iteration. destruct (il_solve _ _ _ _ _ _ _) as [s1| | | | |]; try discriminate. cbn [bind]. cbv zeta. intros H. exists s1. split; [reflexivity|].
  set (s3 := as_update_stats (il_map_costobjs al_update_duals s1)) in *. assert (H3 : same_reg s1 s3) by (repeat split). clearbody s3. set (lg := (kInner <=? lg_level (st_log (il_stats s3)))%Z) in *. clearbody lg.
  destruct (if lg then Ok s3 else _) as [s4| | | | |] eqn:E4; try discriminate. cbn [bind] in H.
  assert (H4 : same_reg s3 s4). { destruct lg; [inversion E4; repeat split|]. destruct (st_print_last (il_stats s3)); try discriminate. inversion E4. repeat split. }
  pose proof (same_reg_trans _ _ _ H3 H4) as H14. destruct (as_is_done s4) as [[e|]| | | | |]; try discriminate; cbn [bind] in H; assert (ES : snd (d, s') = s') by reflexivity; rewrite <- ES; inversion H; cbn [snd]; [subst; exact H14|].
  destruct lg; exact H14.
Qed.
Lemma outer_range debug fuel (s : IL) d s' : as_iteration n m debug fuel s = Ok (d, s') -> ROK (il_opts s) -> (1 <= o_max_inner (il_opts s))%Z ->
  il_opts s' = il_opts s /\ INV (il_rho s') (il_drho s') /\ RNG (il_opts s') (il_rho s').
Proof.
  intros H RO HM. destruct (outer_reg debug fuel s d s' H) as (s1 & E1 & (S1 & S2 & S3)). rewrite S1, S2, S3.
  destruct (solve_ready al_ops n m als_max_violation (fun _ _ => True) (fun _ => I) (fun _ _ _ _ _ => I) (fun _ _ _ => I) (fun _ _ _ _ => I) (fun _ _ _ _ => I) debug fuel s s1 E1) as [_ [_ _ f3 _]].
  split; [exact f3|]. split; [apply (rinv_solve al_ops n m als_max_violation ROK INV Hinit Hinc Hdec debug fuel s s1 E1 RO)|].
  exact (solve_range al_ops n m als_max_violation ROK INV Hinit Hinc Hdec RNG Rinc Rdec debug fuel s s1 E1 RO HM).
Qed.
Theorem al_solve_range debug fuel (a a' : ALS F) : as_solve n m debug fuel a = Ok a' -> let o := il_opts (as_il a) in ROK o -> (1 <= o_max_inner o)%Z -> (1 <= o_max_outer o)%Z ->
  let s' := as_il a' in il_opts s' = o /\ INV (il_rho s') (il_drho s') /\ RNG o (il_rho s').
Proof.
  unfold as_solve. destruct (as_init debug (as_il a)) as [b| | | | |] eqn:Eb; try discriminate. cbn [bind]. intros H. cbv zeta. set (o := il_opts (as_il a)). intros RO HM HO. destruct (init_spec debug (as_il a) b Eb) as ([O1 _ _ _] & _). fold o in O1. rewrite O1 in H.
  destruct (Z.to_nat (o_max_outer o)) as [|it] eqn:EI; [lia|]. clear EI Eb. generalize dependent (as_status a). intros st H.
  revert b st O1 H. induction it as [|it IH]; intros b st O1 H; cbn [as_loop as_il] in H; destruct (as_iteration n m debug fuel b) as [[d y]| | | | |] eqn:Ei; try discriminate; cbn [bind] in H;
    destruct (outer_range debug fuel b d y Ei ltac:(rewrite O1; exact RO) ltac:(rewrite O1; exact HM)) as (P1 & P2 & P3); rewrite O1 in P1; rewrite P1 in P3.
  - destruct d; inversion H; cbn [as_il]; auto.
  - destruct d as [e|]; [inversion H; cbn [as_il]; auto|]. exact (IH y _ P1 H).
Qed.
End AL.
