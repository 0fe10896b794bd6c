(** The augmented-Lagrangian outer loop: statuses and iteration limits. *)
From Coq Require Import ZArith String List Bool Lia.
From Verif Require Import Base Lin RLin ConModel LogModel StatsModel StatsSpec StatsProofs TrajModel IlqrModel IlqrSpec IlqrFrame IlqrProofs IlqrProofs2 IlqrProofs3 IlqrProofs4 IlqrProofs5 IlqrProofs6 CostInst AlModel.
Import ListNotations.
Local Open Scope Z_scope.

(** states of an outer solve: [as_reach b j s]: [s] after [j] outer iterations that did not end the solve *)
Inductive as_reach {F : Scalar} n m debug fuel (b : ILQR F (ALCost F)) : nat -> ILQR F (ALCost F) -> Prop :=
| as_reach0 : as_reach n m debug fuel b 0 b
| as_reachS j s s' : as_reach n m debug fuel b j s -> as_iteration n m debug fuel s = Ok (None, s') ->
    as_reach n m debug fuel b (S j) s'.

Section Inner.
Context {F : Scalar} {CS : Type} (ops : CostOps F CS) (n m : nat) (cb : list CS -> F).
Notation ILQR := (ILQR F CS).

Lemma done_false (s s' : ILQR) : il_is_done s = Ok (false, s') ->
  s' = s /\ st_inner (il_stats s) < o_max_inner (il_opts s) /\ st_total (il_stats s) < o_max_total (il_opts s).
Proof.
  unfold il_is_done. destruct (st_back "dJ" (il_stats s)); try discriminate. cbn [bind].
  destruct (st_back "grad" (il_stats s)); try discriminate. cbn [bind].
  destruct (ltb a _ && ltb a0 _); [discriminate|].
  destruct (Z.leb_spec (o_max_inner (il_opts s)) (st_inner (il_stats s))); [discriminate|].
  destruct (Z.leb_spec (o_max_total (il_opts s)) (st_total (il_stats s))); [discriminate|].
  destruct (negb _); [discriminate|]. intros E. injection E as <-. split; [reflexivity|split; assumption].
Qed.
Lemma done_opts (s s' : ILQR) fin : il_is_done s = Ok (fin, s') -> il_opts s' = il_opts s /\ il_stats s' = il_stats s.
Proof.
  unfold il_is_done. destruct (st_back "dJ" (il_stats s)); try discriminate. cbn [bind].
  destruct (st_back "grad" (il_stats s)); try discriminate. cbn [bind].
  repeat match goal with |- context [if ?b then _ else _] => destruct b end; intros E; inversion E; auto.
Qed.
Lemma iter_false fuel (s s' : ILQR) : il_ready s -> il_iteration ops n m cb fuel s = Ok (false, s') ->
  st_inner (il_stats s') < o_max_inner (il_opts s') /\ st_total (il_stats s') < o_max_total (il_opts s').
Proof.
  intros Hr H.
  destruct (iteration_spec ops n m cb (fun _ _ => True) (fun _ => I)) with (fuel:=fuel) (s:=s) (fin:=false) (s':=s')
    as (Z & s2 & s3 & _ & _ & _ & Z' & s4 & s5 & b & _ & _ & _ & Hd); try (intros; exact I); auto.
  destruct (done_false _ _ Hd) as (-> & A & B). auto.
Qed.
Theorem solve_bounds debug fuel (s0 s' : ILQR) : il_solve ops n m cb debug fuel s0 = Ok s' ->
  0 <= st_inner (il_stats s') <= Z.max 0 (o_max_inner (il_opts s0)) /\
  st_total (il_stats s') = st_total (il_stats s0) + st_inner (il_stats s') /\
  st_outer (il_stats s') = st_outer (il_stats s0) /\
  (st_total (il_stats s0) < o_max_total (il_opts s0) -> st_total (il_stats s') <= o_max_total (il_opts s0)) /\
  il_opts s' = il_opts s0 /\ il_N s' = il_N s0 /\ il_ready s'.
Proof.
  intros H.
  destruct (solve_ready ops n m cb (fun _ _ => True) (fun _ => I)) with (debug:=debug) (fuel:=fuel) (s:=s0) (s':=s') as [Hrd Hfr]; try (intros; exact I); auto.
  assert (Ho : il_opts s' = il_opts s0) by apply (fr_opts _ _ _ Hfr).
  assert (HN : il_N s' = il_N s0) by apply (fr_N _ _ _ Hfr).
  assert (Hout : st_outer (il_stats s') = st_outer (il_stats s0)).
  { destruct (solve_start ops n m cb (fun _ _ => True) (fun _ => I)) with (debug:=debug) (fuel:=fuel) (s:=s0) (s':=s') as (b & Z & Z1 & Hb & S4 & Hl); try (intros; exact I); auto.
    destruct (loop_ind ops n m cb (fun _ _ => True) (fun _ => I)) with (P:=fun t : ILQR => st_outer (il_stats t) = st_outer (il_stats s0)) (fuel:=fuel) (iters:=Z.to_nat (o_max_inner (il_opts s0))) (s:=b) (s':=s') as [_ E]; try (intros; exact I); auto.
    - intros t fin t' Hr Ht Hi. destruct (iter_counts ops n m cb fuel t fin t' Hr Hi) as (_ & _ & E & _). congruence.
    - apply (so_ready _ _ _ _ _ _ _ _ S4).
    - apply (so_outer _ _ _ _ _ _ _ _ S4). }
  destruct (Z_le_gt_dec 1 (o_max_inner (il_opts s0))) as [Hm|Hm].
  - destruct (solve_run ops n m cb debug fuel s0 s' H Hm) as (b & j & s & Hb & Hr & Hi & Hj & Hin & Hrb & Hrs & Hib & Htb & Hsb & Hos).
    destruct (reach_ready ops n m cb fuel b j s Hrb Hr) as (_ & A1 & A2 & _ & _ & A3 & _).
    destruct (iter_counts ops n m cb fuel s true s' Hrs Hi) as (B1 & B2 & _).
    assert (Hlt : st_total (il_stats s0) < o_max_total (il_opts s0) -> st_total (il_stats s) < o_max_total (il_opts s0)).
    { intros Hl. inversion Hr; subst.
      - congruence.
      - destruct (reach_ready ops n m cb fuel b j0 s1 Hrb H0) as (C & _).
        destruct (iter_false fuel s1 s C H1) as [_ D]. congruence. }
    split; [lia|]. split; [lia|]. split; [exact Hout|]. split; [intros Hl; specialize (Hlt Hl); lia|]. auto.
  - unfold il_solve in H. destruct (il_begin ops n debug s0) as [b| | | | |] eqn:Eb; try discriminate. cbn [bind] in H.
    destruct (begin_spec ops n (fun _ _ : CS => True)) with (1:=fun _:CS=>I) (debug:=debug) (s:=s0) (s':=b) as (Z & Z1 & S4); try (intros; exact I); auto.
    rewrite (fr_opts _ _ _ (so_frame _ _ _ _ _ _ _ _ S4)) in H.
    replace (Z.to_nat (o_max_inner (il_opts s0))) with 0%nat in H by lia. simpl in H. inversion H; subst.
    pose proof (so_inner _ _ _ _ _ _ _ _ S4). pose proof (so_total _ _ _ _ _ _ _ _ S4).
    split; [lia|]. split; [lia|]. split; [exact Hout|]. split; [lia|]. auto.
Qed.
Theorem solve_stats_ok debug fuel (s0 s' : ILQR) : il_solve ops n m cb debug fuel s0 = Ok s' -> stats_ok (il_stats s0) -> stats_ok (il_stats s').
Proof.
  intros H Hs. destruct (Z_le_gt_dec 1 (o_max_inner (il_opts s0))) as [Hm|Hm].
  - destruct (solve_gain ops n m cb debug fuel s0 s' Hs H Hm) as (Z & _ & _ & _ & A). exact A.
  - unfold il_solve in H. destruct (il_begin ops n debug s0) as [b| | | | |] eqn:Eb; try discriminate. cbn [bind] in H.
    destruct (begin_spec ops n (fun _ _ : CS => True)) with (1:=fun _:CS=>I) (debug:=debug) (s:=s0) (s':=b) as (Z & Z1 & S4); try (intros; exact I); auto.
    rewrite (fr_opts _ _ _ (so_frame _ _ _ _ _ _ _ _ S4)) in H.
    replace (Z.to_nat (o_max_inner (il_opts s0))) with 0%nat in H by lia. simpl in H. inversion H; subst.
    eapply begin_stats_ok; eauto.
Qed.
End Inner.

Section Log.
Context {F : Scalar}.
Lemma stats_ok_log (st : Stats F) t v : stats_ok st -> stats_ok (st_log_val t v st) /\ (1 <= st_len (st_log_val t v st))%nat.
Proof.
  intros H. apply stats_ok_series in H. destruct H as [g H]. split; [|rewrite len_log; lia].
  apply stats_ok_series. eexists. apply ser_log. exact H.
Qed.
Lemma stats_ok_ext (st st' : Stats F) : st_ser st' = st_ser st -> st_len st' = st_len st -> stats_ok st -> stats_ok st'.
Proof. unfold stats_ok. intros -> ->. auto. Qed.
Lemma back_ext t (st st' : Stats F) : st_ser st' = st_ser st -> st_back t st' = st_back t st.
Proof. unfold st_back, st_get. intros ->. auto. Qed.
(** back() after Log *)
Lemma back_log (st : Stats F) t v t' : stats_ok st -> In t' series_titles -> (t' = t \/ st_len st <> 0%nat) ->
  st_back t' (st_log_val t v st) = if String.eqb t' t then Ok (lval_num v) else st_back t' st.
Proof.
  intros H Ht Hc. apply stats_ok_series in H. destruct H as [g H].
  rewrite (ser_back _ _ _ (ser_log st g t v H) Ht) by (rewrite len_log; lia). rewrite last_log.
  destruct (String.eqb_spec t' t) as [E|E]; [reflexivity|]. destruct Hc as [Hc|Hc]; [easy|].
  rewrite (ser_back _ _ _ H Ht); [reflexivity|lia].
Qed.
End Log.

Section Outer.
Context {F : Scalar} (n m : nat).
Notation IL := (ILQR F (ALCost F)).

Lemma set_costs_costobjs cs (s : IL) : length cs = length (il_kps s) -> il_costobjs (il_set_costobjs cs s) = cs.
Proof.
  unfold il_costobjs, il_set_costobjs. cbn [il_kps il_set_kps]. generalize (il_kps s). revert cs.
  induction cs as [|c cs IH]; intros [|k ks] H; simpl in *; try discriminate; auto. f_equal. apply IH. lia.
Qed.
Lemma set_costs_dyn cs : forall kps : list (KPF F (ALCost F)), map kp_dyn (kps_set_costs cs kps) = map kp_dyn kps /\ length (kps_set_costs cs kps) = length kps.
Proof.
  induction cs as [|c cs IH]; intros [|k ks]; simpl; auto. destruct (IH ks) as [A B]. rewrite A, B. auto.
Qed.
Lemma map_costobjs f (s : IL) : il_costobjs (il_map_costobjs f s) = map f (il_costobjs s).
Proof. unfold il_map_costobjs. apply set_costs_costobjs. unfold il_costobjs. now rewrite !map_length. Qed.

Record outer_step (debug : bool) (fuel : nat) (s : IL) (d : option status) (s' s1 s4 : IL) : Prop := mkOuter {
  ou_solve : il_solve al_ops n m als_max_violation debug fuel s = Ok s1;
  ou_status : il_status s4 = il_status s1;
  ou_opts : il_opts s4 = il_opts s1; ou_N : il_N s4 = il_N s1; ou_x0 : il_x0 s4 = il_x0 s1;
  ou_Z : il_Z s4 = il_Z s1; ou_Zb : il_Zb s4 = il_Zb s1;
  ou_costs : il_costobjs s4 = map al_update_duals (il_costobjs s1);
  ou_dyn : map kp_dyn (il_kps s4) = map kp_dyn (il_kps s1);
  ou_inner : st_inner (il_stats s4) = st_inner (il_stats s1);
  ou_outer : st_outer (il_stats s4) = st_outer (il_stats s1) + 1;
  ou_total : st_total (il_stats s4) = st_total (il_stats s1);
  ou_stats : stats_ok (il_stats s1) -> stats_ok (il_stats s4) /\
    st_back "viol" (il_stats s4) = Ok (als_max_violation (il_costobjs s4)) /\
    st_back "pen" (il_stats s4) = Ok (als_max_penalty (il_costobjs s4));
  ou_done : as_is_done s4 = Ok d;
  ou_end : match d with
           | Some _ => s' = s4
           | None => il_opts s' = il_opts s4 /\ il_N s' = il_N s4 /\ il_x0 s' = il_x0 s4 /\ il_Z s' = il_Z s4 /\ il_Zb s' = il_Zb s4 /\
               il_status s' = il_status s4 /\ map kp_dyn (il_kps s') = map kp_dyn (il_kps s4) /\
               il_costobjs s' = map al_update_penalties (il_costobjs s4) /\
               st_inner (il_stats s') = st_inner (il_stats s4) /\ st_outer (il_stats s') = st_outer (il_stats s4) /\
               st_total (il_stats s') = st_total (il_stats s4) /\ st_ser (il_stats s') = st_ser (il_stats s4) /\ st_len (il_stats s') = st_len (il_stats s4)
           end }.

Lemma log_counts (st : Stats F) t v : st_inner (st_log_val t v st) = st_inner st /\ st_outer (st_log_val t v st) = st_outer st /\ st_total (st_log_val t v st) = st_total st.
Proof. unfold st_log_val, st_set_data. cbn. destruct (Nat.eqb (st_len st) 0); cbn; auto. Qed.

(** the dual update and the recording of the statistics *)
Definition upd_core (s1 s3 : IL) : Prop :=
  il_status s3 = il_status s1 /\ il_opts s3 = il_opts s1 /\ il_N s3 = il_N s1 /\ il_x0 s3 = il_x0 s1 /\ il_Z s3 = il_Z s1 /\ il_Zb s3 = il_Zb s1 /\
  il_costobjs s3 = map al_update_duals (il_costobjs s1) /\ map kp_dyn (il_kps s3) = map kp_dyn (il_kps s1) /\
  st_inner (il_stats s3) = st_inner (il_stats s1) /\ st_outer (il_stats s3) = st_outer (il_stats s1) + 1 /\ st_total (il_stats s3) = st_total (il_stats s1) /\
  (stats_ok (il_stats s1) -> stats_ok (il_stats s3) /\
    st_back "viol" (il_stats s3) = Ok (als_max_violation (il_costobjs s3)) /\
    st_back "pen" (il_stats s3) = Ok (als_max_penalty (il_costobjs s3))).
Lemma record_core (st0 : Stats F) V P k : let st := st_logZ "iter_al" k (st_logF "pen" P (st_logF "viol" V st0)) in
  st_inner st = st_inner st0 /\ st_outer st = st_outer st0 /\ st_total st = st_total st0 /\
  (stats_ok st0 -> stats_ok st /\ st_back "viol" st = Ok V /\ st_back "pen" st = Ok P).
Proof.
  cbv zeta. unfold st_logZ, st_logF.
  split; [rewrite !(fun st t v => proj1 (log_counts st t v)); reflexivity|].
  split; [rewrite !(fun st t v => proj1 (proj2 (log_counts st t v))); reflexivity|].
  split; [rewrite !(fun st t v => proj2 (proj2 (log_counts st t v))); reflexivity|].
  intros Hs0. 
  destruct (stats_ok_log st0 "viol"%string (VFlt V) Hs0) as [A1 A2].
  destruct (stats_ok_log _ "pen"%string (VFlt P) A1) as [B1 B2].
  destruct (stats_ok_log _ "iter_al"%string (VInt k) B1) as [C1 C2].
  destruct In_titles as (_ & _ & _ & Tv & Tp).
  split; [exact C1|].
  rewrite (back_log _ "iter_al"%string _ "viol"%string B1 Tv) by (right; lia).
  rewrite (back_log _ "iter_al"%string _ "pen"%string B1 Tp) by (right; lia). cbn [String.eqb Ascii.eqb Bool.eqb].
  rewrite (back_log _ "pen"%string _ "viol"%string A1 Tv) by (right; lia).
  rewrite (back_log _ "pen"%string _ "pen"%string A1 Tp) by (left; reflexivity). cbn [String.eqb Ascii.eqb Bool.eqb].
  rewrite (back_log _ "viol"%string _ "viol"%string Hs0 Tv) by (left; reflexivity). cbn [String.eqb Ascii.eqb Bool.eqb lval_num]. auto.
Qed.
Lemma update_stats_core (s2 : IL) :
  il_kps (as_update_stats s2) = il_kps s2 /\ il_status (as_update_stats s2) = il_status s2 /\ il_opts (as_update_stats s2) = il_opts s2 /\
  il_N (as_update_stats s2) = il_N s2 /\ il_x0 (as_update_stats s2) = il_x0 s2 /\ il_Z (as_update_stats s2) = il_Z s2 /\ il_Zb (as_update_stats s2) = il_Zb s2 /\
  exists k, il_stats (as_update_stats s2) = st_logZ "iter_al" k (st_logF "pen" (als_max_penalty (il_costobjs s2))
      (st_logF "viol" (als_max_violation (il_costobjs s2)) (st_set_counts (il_stats s2) (st_initial_cost (il_stats s2)) (st_inner (il_stats s2)) (st_outer (il_stats s2) + 1) (st_total (il_stats s2))))).
Proof. unfold as_update_stats. do 7 (split; [reflexivity|]). cbv zeta. exact (ex_intro _ _ eq_refl). Qed.
Lemma upd_spec (s1 : IL) : upd_core s1 (as_update_stats (il_map_costobjs al_update_duals s1)).
Proof.
  assert (H2 : exists s2 : IL, il_map_costobjs al_update_duals s1 = s2 /\ il_costobjs s2 = map al_update_duals (il_costobjs s1) /\
    map kp_dyn (il_kps s2) = map kp_dyn (il_kps s1) /\ il_stats s2 = il_stats s1 /\ il_status s2 = il_status s1 /\ il_opts s2 = il_opts s1 /\
    il_N s2 = il_N s1 /\ il_x0 s2 = il_x0 s1 /\ il_Z s2 = il_Z s1 /\ il_Zb s2 = il_Zb s1).
  { eexists. split; [reflexivity|]. split; [apply map_costobjs|]. split; [apply (proj1 (set_costs_dyn _ _))|]. repeat split. }
  destruct H2 as (s2 & -> & E1 & E2 & E3 & E4 & E5 & E6 & E7 & E8 & E9).
  destruct (update_stats_core s2) as (U1 & U2 & U3 & U4 & U5 & U6 & U7 & k & U8).
  generalize dependent (as_update_stats s2). intros s3 U1 U2 U3 U4 U5 U6 U7 U8. rewrite E3 in U8.
  destruct (record_core (st_set_counts (il_stats s1) (st_initial_cost (il_stats s1)) (st_inner (il_stats s1)) (st_outer (il_stats s1) + 1) (st_total (il_stats s1)))
     (als_max_violation (il_costobjs s2)) (als_max_penalty (il_costobjs s2)) k) as (R1 & R2 & R3 & R4).
  rewrite <- U8 in R1, R2, R3, R4.
  assert (Ec : il_costobjs s3 = il_costobjs s2) by (unfold il_costobjs; rewrite U1; reflexivity).
  unfold upd_core. split; [congruence|]. split; [congruence|]. split; [congruence|]. split; [congruence|]. split; [congruence|].
  split; [congruence|]. split; [congruence|]. split; [rewrite U1; exact E2|]. split; [exact R1|]. split; [exact R2|]. split; [exact R3|].
  intros Hs. rewrite Ec. apply R4. eapply stats_ok_ext; [| |exact Hs]; reflexivity.
Qed.
Definition core_eq (s3 s4 : IL) : Prop :=
  il_status s4 = il_status s3 /\ il_opts s4 = il_opts s3 /\ il_N s4 = il_N s3 /\ il_x0 s4 = il_x0 s3 /\ il_Z s4 = il_Z s3 /\
     il_Zb s4 = il_Zb s3 /\ il_kps s4 = il_kps s3 /\ st_inner (il_stats s4) = st_inner (il_stats s3) /\ st_outer (il_stats s4) = st_outer (il_stats s3) /\
     st_total (il_stats s4) = st_total (il_stats s3) /\ st_ser (il_stats s4) = st_ser (il_stats s3) /\ st_len (il_stats s4) = st_len (il_stats s3).
Lemma print_core (lg : bool) (s3 s4 : IL) : (if lg then Ok s3 else do st <- st_print_last (il_stats s3) ; Ok (il_set_stats s3 st)) = Ok s4 -> core_eq s3 s4.
Proof.
  destruct lg; intros E4.
  - injection E4 as <-. unfold core_eq. repeat split.
  - unfold st_print_last in E4. destruct (lg_print (st_log (il_stats s3))) as [[out g]| | | | |]; try discriminate. cbn [bind] in E4.
    injection E4 as <-. unfold core_eq. repeat split.
Qed.
Lemma header_core (lg : bool) (s4 : IL) : core_eq s4 (if lg then il_set_stats s4 (st_print_header (il_stats s4)) else s4).
Proof. unfold core_eq. destruct lg; repeat split. Qed.

Lemma as_iter_spec debug fuel (s : IL) d s' : as_iteration n m debug fuel s = Ok (d, s') ->
  exists s1 s4, outer_step debug fuel s d s' s1 s4.
Proof.
  unfold as_iteration. destruct (il_solve al_ops n m als_max_violation debug fuel s) as [s1| | | | |] eqn:E; try discriminate. cbn [bind].
  pose proof (upd_spec s1) as (U1 & U2 & U3 & U4 & U5 & U6 & U7 & U8 & U9 & U10 & U11 & U12). cbv zeta.
  generalize dependent (as_update_stats (il_map_costobjs al_update_duals s1)). intros s3 U1 U2 U3 U4 U5 U6 U7 U8 U9 U10 U11 U12.
  generalize (kInner <=? lg_level (st_log (il_stats s3))). intros lg.
  destruct (if lg then Ok s3 else do st <- st_print_last (il_stats s3) ; Ok (il_set_stats s3 st)) as [s4| | | | |] eqn:E4; try discriminate.
  cbn [bind]. destruct (print_core _ _ _ E4) as (K1 & K2 & K3 & K4 & K5 & K6 & K7 & K8 & K9 & K10 & K11 & K12). clear E4.
  destruct (as_is_done s4) as [d'| | | | |] eqn:Ed; try discriminate. cbn [bind]. intros H. exists s1, s4.
  assert (Ec : il_costobjs s4 = il_costobjs s3) by (unfold il_costobjs; rewrite K7; reflexivity).
  pose proof (header_core lg s4) as (L1 & L2 & L3 & L4 & L5 & L6 & L7 & L8 & L9 & L10 & L11 & L12).
  generalize dependent (if lg then il_set_stats s4 (st_print_header (il_stats s4)) else s4). intros s5 H L1 L2 L3 L4 L5 L6 L7 L8 L9 L10 L11 L12.
  assert (Hdd : d = d' /\ match d' with Some _ => s' = s4 | None => s' = il_map_costobjs al_update_penalties s5 end).
  { destruct d'; injection H as <- <-; auto. }
  destruct Hdd as [-> Hs']. clear H.
  constructor; try congruence.
  - intros H0. destruct (U12 H0) as (V1 & V2 & V3). split; [eapply stats_ok_ext; eauto|]. rewrite !(back_ext _ _ _ K11), Ec. auto.
  - destruct d'; [exact Hs'|]. subst s'. rewrite map_costobjs.
    assert (Ec5 : il_costobjs s5 = il_costobjs s4) by (unfold il_costobjs; rewrite L7; reflexivity). rewrite Ec5.
    assert (Hd : map kp_dyn (il_kps (il_map_costobjs al_update_penalties s5)) = map kp_dyn (il_kps s4)).
    { unfold il_map_costobjs, il_set_costobjs. cbn [il_kps il_set_kps]. rewrite (proj1 (set_costs_dyn _ _)), L7. reflexivity. }
    unfold il_map_costobjs, il_set_costobjs in *. cbn [il_opts il_N il_x0 il_Z il_Zb il_status il_stats il_set_kps il_kps] in *.
    auto 20.
Qed.
End Outer.
