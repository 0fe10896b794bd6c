(** iLQR results in the form of the property statements. *)
From Coq Require Import ZArith QArith String List Bool Lia Reals Lra.
From Verif Require Import Base Lin RLin LogModel StatsModel StatsSpec StatsProofs TrajModel IlqrModel IlqrSpec IlqrFrame IlqrProofs IlqrProofs2 IlqrProofs3 IlqrProofs4 IlqrProofs5.
Import ListNotations.

Section S.
Context {F : Scalar}.

Lemma nodup_titles : NoDup series_titles.
Proof. unfold series_titles. repeat constructor; simpl; intuition discriminate. Qed.
Lemma find_fst_nodup (l : list (string * list F)) p : NoDup (map fst l) -> In p l ->
  find (fun q => String.eqb (fst q) (fst p)) l = Some p.
Proof.
  induction l as [|q l IH]; simpl; intros Hn Hi; [easy|]. inversion Hn; subst.
  destruct Hi as [->|Hi]; [now rewrite String.eqb_refl|].
  destruct (String.eqb_spec (fst q) (fst p)) as [E|E]; [|now apply IH].
  exfalso. apply H1. rewrite E. now apply in_map.
Qed.
Lemma stats_ok_series (st : Stats F) : stats_ok st <-> exists g, st_series st g.
Proof.
  split.
  - intros [H1 H2]. exists (fun t => match st_get t st with Some l => l | None => [] end). split; [exact H1|].
    intros p Hp. split; [now apply H2|]. unfold st_get. rewrite (find_fst_nodup _ p).
    + reflexivity.
    + rewrite H1. apply nodup_titles.
    + exact Hp.
  - intros [g [H1 H2]]. split; [exact H1|]. intros p Hp. now apply H2.
Qed.
Lemma stats_ok_new : stats_ok (@st_new F).
Proof. split; [reflexivity|]. intros p Hp. simpl in Hp. repeat (destruct Hp as [<-|Hp]; [reflexivity|]). easy. Qed.

Lemma limits_within n m o (Z : Traj F) : limits n m o Z -> within_limits n m o Z.
Proof.
  induction Z as [|z Z IH]; intros H k a a' Hk Hk'; [destruct k; discriminate|].
  destruct Z as [|z' Z]; [destruct k; [|destruct k]; simpl in Hk'; discriminate|].
  simpl in H. destruct H as (H1 & H2 & H3). destruct k as [|k].
  - simpl in Hk, Hk'. inversion Hk; inversion Hk'; subst. auto.
  - apply (IH H3 k a a'); auto.
Qed.
End S.

Section P.
Context {F : Scalar} {CS : Type} (ops : CostOps F CS) (n m : nat) (cb : list CS -> F).
Notation ILQR := (ILQR F CS).
Let R := fun _ _ : CS => True.

Theorem rollout_feasible (s : ILQR) Z : length (il_kps s) = S (il_N s) -> length Z = S (il_N s) ->
  let Z1 := il_rollout n Z s in
  dyn_feasible n (il_x0 s) (map kp_dyn (il_kps s)) Z1 /\ times Z1 = times Z /\ map z_u Z1 = map z_u Z.
Proof.
  intros H1 H2. unfold il_rollout. cbv zeta.
  destruct (roll_spec n (il_kps s) (vstore n (il_x0 s)) Z) as (A & B & _ & C & D); [lia|].
  split; [now apply follows_feasible|]. auto.
Qed.
Theorem solve_dyn_feasible debug fuel (s s' : ILQR) : il_solve ops n m cb debug fuel s = Ok s' ->
  exists Z Z', il_Z s = Some Z /\ il_Z s' = Some Z' /\ length Z' = S (il_N s) /\
    dyn_feasible n (il_x0 s) (map kp_dyn (il_kps s)) Z' /\
    map z_t Z' = map z_t Z /\ removelast (map z_h Z') = removelast (map z_h Z).
Proof.
  intros H. destruct (solve_feasible ops n m cb R) with (1:=fun _:CS=>I) (debug:=debug) (fuel:=fuel) (s:=s) (s':=s')
    as (Z & Z' & A & B & C & D & E & G & G'); try (intros; exact I); auto.
  exists Z, Z'. repeat (split; [assumption|]). split; [now apply follows_feasible|]. auto.
Qed.
Lemma reach_feas debug fuel (s0 b s : ILQR) j : il_begin ops n debug s0 = Ok b -> reach ops n m cb fuel b j s ->
  exists Z, il_Z s0 = Some Z /\ feas n (il_x0 s0) (map kp_dyn (il_kps s0)) Z s /\ il_ready s.
Proof.
  intros Hb Hr.
  destruct (begin_spec ops n R) with (1:=fun _:CS=>I) (debug:=debug) (s:=s0) (s':=b) as (Z & Z1 & S4); try (intros; exact I); auto.
  exists Z. split; [apply (so_Z _ _ _ _ _ _ _ _ S4)|]. revert Hr. 
  assert (Hrd : il_ready b) by apply (so_ready _ _ _ _ _ _ _ _ S4).
  induction 1 as [|j s s' Hr [IH1 IH2] Hi].
  - split; [|exact Hrd]. destruct S4. destruct so_frame as [f1 f2 f3 f4].
    split; [exact f2|]. split.
    + clear -f4. induction f4; simpl; auto. destruct H as [H _]. now rewrite H, IHf4.
    + destruct so_Z1 as [z1 z2]. destruct so_grid as (Zb & g1 & g2). exists Z1, Zb.
      assert (G : same_grid Z Z1).
      { assert (Et : map z_t Z1 = map z_t Z) by (apply (f_equal (map fst)) in so_times; unfold times in so_times; rewrite !map_map in so_times; exact so_times).
        assert (Eh : map z_h Z1 = map z_h Z) by (apply (f_equal (map snd)) in so_times; unfold times in so_times; rewrite !map_map in so_times; exact so_times).
        split; [exact Et|now rewrite Eh]. }
      repeat (split; [assumption|]). destruct G as [G1 G2], g2 as [G3 G4]. split; congruence.
  - split; [|destruct (reach_ready ops n m cb fuel b (S j) s' Hrd) as (A & _); [econstructor; eauto|exact A]].
    exact (feas_iter ops n m cb R (fun _ => I) (fun _ _ _ _ _ => I) (fun _ _ _ => I) (fun _ _ _ _ => I) (fun _ _ _ _ => I) _ _ _ fuel s false s' IH2 IH1 Hi).
Qed.
(** every state during a solve *)
Theorem reach_dyn_feasible debug fuel (s0 b s : ILQR) j : il_begin ops n debug s0 = Ok b -> reach ops n m cb fuel b j s ->
  exists Z Z', il_Z s0 = Some Z /\ il_Z s = Some Z' /\ length Z' = S (il_N s0) /\
    dyn_feasible n (il_x0 s0) (map kp_dyn (il_kps s0)) Z' /\
    map z_t Z' = map z_t Z /\ removelast (map z_h Z') = removelast (map z_h Z).
Proof.
  intros Hb Hr. destruct (reach_feas _ _ _ _ _ _ Hb Hr) as (Z & HZ & (E1 & E2 & Z' & Zb & A & B & C & D & [E E'] & G) & Hrd).
  exists Z, Z'. repeat (split; [assumption|]).
  split.
  - destruct (begin_spec ops n R) with (1:=fun _:CS=>I) (debug:=debug) (s:=s0) (s':=b) as (Z0 & Z1 & S4); try (intros; exact I); auto.
    destruct (reach_ready ops n m cb fuel b j s (so_ready _ _ _ _ _ _ _ _ S4) Hr) as (_ & _ & _ & _ & _ & _ & HN).
    pose proof (fr_N _ _ _ (so_frame _ _ _ _ _ _ _ _ S4)) as HN'.
    destruct Hrd as (_ & (Z2 & HZ2 & HL) & _). rewrite A in HZ2. inversion HZ2; subst. congruence.
  - split; [now apply follows_feasible|]. auto.
Qed.

(** ** failed and successful line searches *)
Theorem forward_outcome Z (s : ILQR) Zb : il_Z s = Some Z -> il_Zb s = Some Zb -> length (il_kps s) = S (il_N s) ->
  length Z = S (il_N s) -> length Zb = S (il_N s) ->
  let s3 := il_forward_pass ops n m Z s in
  (il_Z s3 = il_Z s /\ il_stats s3 = il_stats s) \/
  (exists Z' J alpha z, il_Z s3 = Some Z' /\ length Z' = S (il_N s) /\
     dyn_feasible n (il_x0 s) (map kp_dyn (il_kps s)) Z' /\
     ltb J (lsum (il_costs s)) = true /\ J = lsum (il_costs s3) /\
     il_stats s3 = st_logF "z" z (st_logF "alpha" alpha (st_logF "cost" J (il_stats s))) /\
     (o_check_bounds (il_opts s) = true -> within_limits n m (il_opts s) Z')).
Proof.
  intros HZ HZb H1 H2 H3. cbv zeta.
  destruct (forward_spec ops n m R (fun _ => I)) with (Z:=Z) (s:=s) (Zb:=Zb) as (_ & _ & _ & Ha & _); try (intros; exact I); auto.
  destruct Ha as [Ha|Hr]; [right|left].
  - destruct (accept_props ops n m R Z s _ Zb Ha HZb H1 H2 H3) as (Z' & A & B & C & D & E).
    destruct Ha as (s1 & J & (alpha & ks & Zc & Zd & z & K1 & K2 & K3 & K4 & K5 & K6 & K7 & K8 & K9 & K10 & K11 & K12 & K13) & G1 & G2 & G3 & G4 & G5 & G6).
    exists Z', J, alpha, z. split; [exact A|]. split; [exact B|]. split; [now apply follows_feasible|].
    split; [exact K11|]. split; [now rewrite G4|]. split; [rewrite G5, K13; reflexivity|]. intros Hc. apply limits_within. auto.
  - destruct Hr as (A & B & _). auto.
Qed.
Theorem closed_rejected alpha Z Zb (s s' : ILQR) : il_rollout_closed n m alpha Z Zb s = (false, s') ->
  exists Zc, il_Zb s' = Some Zc /\ il_Z s' = il_Z s /\ o_check_bounds (il_opts s) = true /\
  ((il_status s' = kStateLimit /\ exists k z, nth_error Zc (S k) = Some z /\ ltb (o_state_max (il_opts s)) (norm n (z_x z)) = true) \/
   (il_status s' = kControlLimit /\ exists k z, nth_error Zc k = Some z /\ ltb (o_control_max (il_opts s)) (norm m (z_u z)) = true)).
Proof.
  unfold il_rollout_closed. destruct (roll_closed n m (il_opts s) alpha (vstore n (il_x0 s)) (il_kps s) Z Zb) as [[e|] r] eqn:E; intros H; inversion H; subst.
  exists r. destruct (roll_closed_stop n m _ _ _ _ _ _ _ _ E) as [Hc Hs]. simpl. auto.
Qed.
Theorem closed_completed alpha Z Zb (s s' : ILQR) : length (il_kps s) = S (il_N s) -> length Z = S (il_N s) -> length Zb = S (il_N s) ->
  il_rollout_closed n m alpha Z Zb s = (true, s') -> o_check_bounds (il_opts s) = true ->
  exists Zc, il_Zb s' = Some Zc /\ within_limits n m (il_opts s) Zc.
Proof.
  intros H1 H2 H3. unfold il_rollout_closed. destruct (roll_closed n m (il_opts s) alpha (vstore n (il_x0 s)) (il_kps s) Z Zb) as [[e|] r] eqn:E; intros H Hc; inversion H; subst.
  exists r. destruct (roll_closed_spec n m (il_opts s) alpha (il_kps s) (vstore n (il_x0 s)) Z Zb r) as (A & B & C); [lia|lia|exact E|]. split; [reflexivity|]. apply limits_within; auto.
Qed.
(** the trajectory of a solve: the initial rollout, or one within the limits *)
Theorem solve_limits debug fuel (s s' : ILQR) : il_solve ops n m cb debug fuel s = Ok s' -> o_check_bounds (il_opts s) = true ->
  exists Z Z', il_Z s = Some Z /\ il_Z s' = Some Z' /\
    (Z' = il_rollout n Z s \/ within_limits n m (il_opts s) Z').
Proof.
  intros H Hc.
  destruct (solve_start ops n m cb R) with (1:=fun _:CS=>I) (debug:=debug) (fuel:=fuel) (s:=s) (s':=s') as (b & Z & Z1 & Hb & S4 & Hl); try (intros; exact I); auto.
  exists Z.
  pose (P := fun t : ILQR => il_opts t = il_opts s /\ exists Z', il_Z t = Some Z' /\ (Z' = il_rollout n Z s \/ within_limits n m (il_opts s) Z')).
  destruct (loop_ind ops n m cb R (fun _ => I)) with (P:=P) (fuel:=fuel) (iters:=Z.to_nat (o_max_inner (il_opts s))) (s:=b) (s':=s') as [_ (_ & Z' & A & B)]; try (intros; exact I); auto.
  - intros t fin t' Hrd (Ho & Zt & HZt & Hor) Hi.
    destruct (iteration_spec ops n m cb R (fun _ => I)) with (fuel:=fuel) (s:=t) (fin:=fin) (s':=t') as (Z0 & s2 & s3 & IO & Hr2 & Hr' & _); try (intros; exact I); auto.
    assert (Ho2 : il_opts s2 = il_opts s) by (rewrite (fr_opts _ _ _ (it_frame2 _ _ _ _ _ _ _ _ _ _ IO)); exact Ho).
    assert (Ho3 : il_opts t' = il_opts s) by (rewrite (fr_opts _ _ _ (it_frame _ _ _ _ _ _ _ _ _ _ IO)), (fr_opts _ _ _ (it_frame23 _ _ _ _ _ _ _ _ _ _ IO)); exact Ho2).
    split; [exact Ho3|]. rewrite (it_Z' _ _ _ _ _ _ _ _ _ _ IO).
    destruct (it_acc _ _ _ _ _ _ _ _ _ _ IO) as [Ha|Hj].
    + destruct Hr2 as (L1 & (Z2 & HZ2 & L2) & (Zb2 & HZb2 & L3)).
      assert (HL : length Z0 = S (il_N s2)).
      { pose proof (it_Z _ _ _ _ _ _ _ _ _ _ IO) as q1. pose proof (it_Z2 _ _ _ _ _ _ _ _ _ _ IO) as q2. rewrite q1 in q2. rewrite q2 in HZ2. inversion HZ2; subst. auto. }
      destruct (accept_props ops n m R Z0 s2 s3 Zb2 Ha HZb2 L1 HL L3) as (Z' & A & B & C & D & E).
      exists Z'. split; [exact A|]. right. apply limits_within. rewrite <- Ho2. apply E. now rewrite Ho2.
    + destruct Hj as (E & _). rewrite E, (it_Z2 _ _ _ _ _ _ _ _ _ _ IO). eauto.
  - apply (so_ready _ _ _ _ _ _ _ _ S4).
  - split; [apply (fr_opts _ _ _ (so_frame _ _ _ _ _ _ _ _ S4))|]. destruct (so_Z1 _ _ _ _ _ _ _ _ S4) as [A B]. exists Z1. split; [exact A|]. left. exact B.
  - exists Z'. split; [apply (so_Z _ _ _ _ _ _ _ _ S4)|]. auto.
Qed.
End P.

Section C.
Context {F : Scalar} {CS : Type} (ops : CostOps F CS) (n m : nat) (cb : list CS -> F).
Context (Inv : CS -> Prop) (V : CS -> vec F -> vec F -> F) (HV : faithful_cost ops Inv V) (HF : lt_order F).
Notation ILQR := (ILQR F CS).

Theorem solve_total_cost debug fuel (s0 s' : ILQR) : Forall (fun k => Inv (kp_cost k)) (il_kps s0) -> stats_ok (il_stats s0) ->
  il_solve ops n m cb debug fuel s0 = Ok s' ->
  exists Z Z', il_Z s0 = Some Z /\ il_Z s' = Some Z' /\
    st_initial_cost (il_stats s') = total_cost V s0 (il_rollout n Z s0) /\
    (Z' = il_rollout n Z s0 \/ ltb (total_cost V s0 Z') (total_cost V s0 (il_rollout n Z s0)) = true).
Proof.
  intros Hi Hs H. apply stats_ok_series in Hs. destruct Hs as [g Hg]. destruct HF as (_ & _ & Ht).
  destruct (solve_cost ops n m cb Inv V HV debug fuel s0 s' g Ht Hi Hg H) as (Z & Z' & A & B & C & D).
  exists Z, Z'. auto.
Qed.
Lemma begin_series debug (s0 b : ILQR) g : il_begin ops n debug s0 = Ok b -> st_series (il_stats s0) g -> st_series (il_stats b) g.
Proof.
  intros Hb H.
  destruct (begin_spec ops n (fun _ _ : CS => True)) with (1:=fun _:CS=>I) (debug:=debug) (s:=s0) (s':=b) as (Z & Z1 & S4); try (intros; exact I); auto.
  destruct (so_ser _ _ _ _ _ _ _ _ S4) as [A B]. eapply ser_ext; [| |exact H]; auto.
Qed.
Theorem step_total_cost debug fuel (s0 b s s' : ILQR) j fin : Forall (fun k => Inv (kp_cost k)) (il_kps s0) -> stats_ok (il_stats s0) ->
  il_begin ops n debug s0 = Ok b -> reach ops n m cb fuel b j s -> il_iteration ops n m cb fuel s = Ok (fin, s') ->
  exists Z Z', il_Z s = Some Z /\ il_Z s' = Some Z' /\
    (Z' = Z \/ ltb (total_cost V s0 Z') (total_cost V s0 Z) = true).
Proof.
  intros Hi Hs Hb Hr H. apply stats_ok_series in Hs. destruct Hs as [g Hg]. destruct HF as (_ & _ & Ht).
  destruct (begin_spec ops n (Rv Inv V)) with (debug:=debug) (s:=s0) (s':=b) as (Z & Z1 & S4); auto.
  { intros c Hc. auto. }
  { intros c x u Hc. apply (fc_eval _ _ _ HV); auto. }
  assert (Hkb : inv_kps Inv (il_kps b) /\ vals V (il_kps b) = vals V (il_kps s0)).
  { pose proof (fr_kps _ _ _ (so_frame _ _ _ _ _ _ _ _ S4)) as K. clear -K Hi. unfold inv_kps, vals.
    induction K; [split; [constructor|reflexivity]|]. inversion Hi; subst. destruct (IHK H3) as [A B].
    destruct H as [_ H]. destruct (H H2) as [C D]. split; [constructor; auto|]. simpl. now rewrite D, B. }
  destruct Hkb as [Hkb Hvb].
  destruct (reach_cost ops n m cb Inv V HV fuel b Z1 g j s) as (Z2 & g2 & A & B & C & D & E & _); auto.
  { apply (so_ready _ _ _ _ _ _ _ _ S4). }
  { apply (so_Z1 _ _ _ _ _ _ _ _ S4). }
  { apply (so_inner _ _ _ _ _ _ _ _ S4). }
  { eapply begin_series; eauto. }
  assert (Hrd : il_ready s).
  { destruct (reach_ready ops n m cb fuel b j s) as (A' & _); auto. apply (so_ready _ _ _ _ _ _ _ _ S4). }
  destruct (iter_cost ops n m cb Inv V HV fuel s fin s' g2 Hrd B H D E) as (Z3 & Z' & g' & K1 & K2 & K3 & K4 & K5 & K6 & K7 & K8 & K9 & K10 & K11).
  exists Z3, Z'. split; [exact K1|]. split; [exact K2|].
  destruct K11 as [[K11 _]|[K11 _]]; [right|left; exact K11].
  unfold J_of in K11. rewrite C, Hvb in K11. exact K11.
Qed.
Lemma begin_stats_ok debug (s0 b : ILQR) : il_begin ops n debug s0 = Ok b -> stats_ok (il_stats s0) -> stats_ok (il_stats b).
Proof. intros H H1. apply stats_ok_series in H1. destruct H1 as [g H1]. apply stats_ok_series. exists g. eapply begin_series; eauto. Qed.
End C.

Section G.
Context {F : Scalar} {CS : Type} (ops : CostOps F CS) (n m : nat) (cb : list CS -> F).
Notation ILQR := (ILQR F CS).
Let R := fun _ _ : CS => True.

Lemma iter_record fuel (s : ILQR) fin s' g : il_ready s -> il_iteration ops n m cb fuel s = Ok (fin, s') ->
  st_series (il_stats s) g -> boundary (st_inner (il_stats s)) g ->
  exists g' Z', il_Z s' = Some Z' /\ st_series (il_stats s') g' /\ boundary (st_inner (il_stats s')) g' /\
    (2 <= st_len (il_stats s'))%nat /\ last_of g' "grad" = fst (il_ff_gain m Z' s') /\ il_ready s' /\
    last_of g' "viol" = cb (map kp_cost (il_kps s')).
Proof.
  intros H1 H2 H3 H4.
  destruct (iteration_record ops n m cb R (fun _ => I)) with (fuel:=fuel) (s:=s) (fin:=fin) (s':=s') (g:=g)
    as (Z & Z' & s2 & s3 & g' & J & A & B & C & D & (l & E) & G & K & L & M & N); try (intros; exact I); auto.
  exists g', Z'. split; [exact B|]. split; [exact C|]. split; [right; eauto|]. split; [exact D|]. split; [exact K|]. split; [|exact L].
  destruct (iteration_spec ops n m cb R (fun _ => I)) with (fuel:=fuel) (s:=s) (fin:=fin) (s':=s') as (Z0 & t2 & t3 & IO & Hr2 & Hr' & _); try (intros; exact I); auto.
Qed.
Lemma reach_series fuel (b : ILQR) g0 j s : il_ready b -> st_series (il_stats b) g0 -> st_inner (il_stats b) = 0%Z ->
  reach ops n m cb fuel b j s -> exists g, st_series (il_stats s) g /\ boundary (st_inner (il_stats s)) g /\ il_ready s.
Proof.
  intros H1 H2 H3. induction 1 as [|j s s' Hr (g & A & B & C) Hi].
  - exists g0. split; [exact H2|]. split; [left; exact H3|exact H1].
  - destruct (iter_record fuel s false s' g C Hi A B) as (g' & Z' & _ & K1 & K2 & _ & _ & K3 & _). exists g'. auto.
Qed.
(** the gain recorded by the last iteration of a solve *)
Theorem solve_gain debug fuel (s0 s' : ILQR) : stats_ok (il_stats s0) ->
  il_solve ops n m cb debug fuel s0 = Ok s' -> (1 <= o_max_inner (il_opts s0))%Z ->
  exists Z, il_Z s' = Some Z /\ st_back "grad" (il_stats s') = Ok (avg_gain m (il_N s') (gain_at s') (ctrl_at Z)) /\
    st_back "viol" (il_stats s') = Ok (cb (map kp_cost (il_kps s'))) /\ stats_ok (il_stats s').
Proof.
  intros Hs H Hm.
  destruct (solve_run ops n m cb debug fuel s0 s' H Hm) as (b & j & s & Hb & Hr & Hi & _ & _ & Hrb & Hrs & Hib & _).
  apply stats_ok_series in Hs. destruct Hs as [g0 Hg]. apply (begin_series ops n debug s0 b g0 Hb) in Hg.
  destruct (reach_series fuel b g0 j s Hrb Hg Hib Hr) as (g & A & B & C).
  destruct (iter_record fuel s true s' g C Hi A B) as (g' & Z' & K0 & K1 & K2 & K3 & K4 & K5 & K6).
  exists Z'. split; [exact K0|].
  destruct In_titles as (_ & _ & Tg & Tv & _).
  split; [|split; [|apply stats_ok_series; eauto]].
  - rewrite (ser_back _ _ _ K1 Tg) by lia. f_equal. change (last (g' "grad"%string) zero) with (last_of g' "grad"%string). rewrite K4. apply ff_gain_avg; [apply K5|].
    destruct K5 as (_ & (Z2 & E & L) & _). rewrite K0 in E. inversion E; subst; auto.
  - rewrite (ser_back _ _ _ K1 Tv) by lia. f_equal. exact K6.
Qed.
End G.

(** ** rational and real arithmetic are ordered *)
Lemma QS_lt_order : lt_order QS.
Proof.
  assert (H : forall a b : Q, Qltb a b = true <-> (a < b)%Q).
  { intros a b. unfold Qltb. rewrite Qlt_alt. destruct (a ?= b)%Q; split; congruence. }
  split; [|split]; simpl.
  - intros a. destruct (Qltb a a) eqn:E; auto. apply H in E. exfalso. now apply (Qlt_irrefl a).
  - intros a b E. apply H in E. destruct (Qltb b a) eqn:E'; auto. apply H in E'. exfalso. apply (Qlt_irrefl a). eapply Qlt_trans; eauto.
  - intros a b c E1 E2. apply H in E1, E2. apply H. eapply Qlt_trans; eauto.
Qed.
