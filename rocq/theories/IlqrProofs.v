(** iLQR iteration and solve: feasibility, cost decrease, limits, statuses (any arithmetic). *)
From Coq Require Import ZArith String List Bool Lia.
From Verif Require Import Base Lin RLin LogModel StatsModel TrajModel IlqrModel IlqrSpec IlqrFrame.
Import ListNotations.

Section Iter.
Context {F : Scalar} {CS : Type} (ops : CostOps F CS) (n m : nat) (cb : list CS -> F).
Context (R : CS -> CS -> Prop)
  (Rrefl : forall c, R c c) (Rtrans : forall a b c, R a b -> R b c -> R a c)
  (Re : forall c x u, R c (snd (co_eval ops c x u)))
  (Rg : forall c x u b, R c (snd (co_grad ops c x u b)))
  (Rh : forall c x u b, R c (snd (co_hess ops c x u b))).
Notation frame := (frame R). Notation kps_sim := (kps_sim R).
Notation ILQR := (ILQR F CS).

Lemma set_status_frame (s : ILQR) e : frame s (il_set_status s e).
Proof. split; simpl; auto. apply (kps_refl R Rrefl). Qed.

(** ** forward pass *)
Definition fp_accept (Z : Traj F) (s s3 : ILQR) : Prop :=
  exists s1 J, ls_success ops n m R Z s s1 (lsum (il_costs s)) J /\
    il_Z s3 = il_Zb s1 /\ il_Zb s3 = il_Zb s1 /\ il_kps s3 = il_kps s1 /\ il_costs s3 = il_costs s1 /\
    il_stats s3 = il_stats s1 /\ il_rho s3 = il_rho s /\ il_drho s3 = il_drho s /\
    (ltb (lsum (il_costs s)) J = false -> il_status s3 = kUnsolved).
Definition fp_reject (s s3 : ILQR) : Prop :=
  il_Z s3 = il_Z s /\ il_stats s3 = il_stats s /\
  il_rho s3 = il_rho (il_increase_reg s) /\ il_drho s3 = il_drho (il_increase_reg s).

Lemma forward_spec Z s Zb : il_Zb s = Some Zb ->
  let s3 := il_forward_pass ops n m Z s in
  frame s s3 /\ same_stats_core (il_stats s) (il_stats s3) /\
  (exists Zb1, il_Zb s3 = Some Zb1 /\ length Zb1 = length Zb /\ times Zb1 = times Zb) /\
  (fp_accept Z s s3 \/ fp_reject s s3) /\
  map kp_K (il_kps s3) = map kp_K (il_kps s) /\ map kp_d (il_kps s3) = map kp_d (il_kps s).
Proof.
  intros HZb. unfold il_forward_pass.
  destruct (line_search ops n m (Z.to_nat (o_ls_iters (il_opts s))) (lsum (il_costs s)) one Z s) as [[ok J] s1] eqn:E.
  destruct (line_search_spec ops n m R Rrefl Rtrans Re _ _ _ _ _ _ _ _ _ HZb E) as (L & Hok & Hfail & Hst & Hst' & HK & Hd).
  destruct L as [L1 L2 L3 L4 L5 L6 L7].
  destruct L4 as (Zb0 & Zb1 & G1 & G2 & G3 & G4). rewrite HZb in G1. inversion G1; subst Zb0.
  assert (Hmk : forall s2 : ILQR, frame s s2 -> same_stats_core (il_stats s) (il_stats s2) -> il_Zb s2 = Some Zb1 ->
     map kp_K (il_kps s2) = map kp_K (il_kps s) /\ map kp_d (il_kps s2) = map kp_d (il_kps s) ->
     (forall e, fp_accept Z s (il_set_status s2 e) \/ fp_reject s (il_set_status s2 e)) -> True) by auto.
  clear Hmk. destruct ok.
  - specialize (Hok eq_refl).
    assert (Hacc : forall e, (ltb (lsum (il_costs s)) J = false -> e = kUnsolved) ->
              fp_accept Z s (il_set_status (il_set_Z s1 (il_Zb s1)) e)).
    { intros e He. exists s1, J. split; [exact Hok|]. simpl. destruct L6. repeat split; auto. }
    assert (Hun : il_status s1 = kUnsolved).
    { destruct Hok as (a & ks & Zc & Zd & z & P). apply P. }
    destruct (ltb (lsum (il_costs s)) J) eqn:Elt.
    + split; [destruct L1; split; simpl; auto|]. split; [exact L5|]. split; [exists Zb1; auto|].
      split; [left; apply Hacc; easy|auto].
    + split; [destruct L1; split; simpl; auto|]. split; [exact L5|]. split; [exists Zb1; auto|].
      split; [left|auto]. specialize (Hacc kUnsolved (fun _ => eq_refl)).
      destruct Hacc as (s1' & J' & P). exists s1', J'. simpl in *.
      destruct P as (P1 & P2 & P3 & P4 & P5 & P6 & P7 & P8 & P9). repeat split; auto.
  - specialize (L7 eq_refl).
    assert (Hrej : forall e, fp_reject s (il_set_status (il_increase_reg s1) e)).
    { intros e. unfold fp_reject. simpl. destruct L6 as [-> ->]. destruct L1 as [_ _ -> _]. repeat split; auto. }
    destruct (ltb (lsum (il_costs s)) (lsum (il_costs s))).
    + split; [destruct L1; split; simpl; auto|]. split; [exact L5|]. split; [exists Zb1; auto|].
      split; [right; apply Hrej|auto].
    + split; [destruct L1; split; simpl; auto|]. split; [exact L5|]. split; [exists Zb1; auto|].
      split; [right|auto]. destruct (Hrej kUnsolved) as (P1 & P2 & P3 & P4). repeat split; auto.
Qed.

(** an accepted candidate is a closed-loop rollout that passed all checks *)
Lemma accept_props Z s s3 Zb : fp_accept Z s s3 -> il_Zb s = Some Zb -> length (il_kps s) = S (il_N s) ->
  length Z = S (il_N s) -> length Zb = S (il_N s) ->
  exists Z', il_Z s3 = Some Z' /\ length Z' = S (il_N s) /\
    head_x (vstore n (il_x0 s)) Z' /\ follows n (map kp_dyn (il_kps s)) Z' /\
    (o_check_bounds (il_opts s) = true -> limits n m (il_opts s) Z').
Proof.
  intros (s1 & J & Hs & H1 & H2 & H3 & H4 & H5 & H6 & H7 & H8) HZb Hk HZ HZbl.
  destruct Hs as (alpha & ks & Zc & Zd & z & P1 & P2 & P2a & P2b & P3 & P4 & P5 & P5b & P6 & P7 & P8 & P9 & P10).
  rewrite HZb in P2. exists Zd. split; [congruence|].
  pose proof (kps_len R _ _ P1) as Hks.
  pose proof (proj1 (roll_closed_len n m (il_opts s) alpha ks (vstore n (il_x0 s)) Z Zc)) as Hlen. rewrite P3 in Hlen. simpl in Hlen.
  split; [congruence|]. rewrite <- (kps_dyns R _ _ P1).
  eapply roll_closed_spec; [| |exact P3]; lia.
Qed.

(** ** statistics update, printing, termination test *)
Lemma ff_gain_frame Z (s : ILQR) : let s1 := snd (il_ff_gain m Z s) in
  frame s s1 /\ il_Z s1 = il_Z s /\ il_Zb s1 = il_Zb s /\ il_stats s1 = il_stats s /\ il_status s1 = il_status s /\
  il_kps s1 = il_kps s /\ il_costs s1 = il_costs s /\ il_rho s1 = il_rho s /\ il_drho s1 = il_drho s.
Proof. simpl. repeat split; auto. apply (kps_refl R Rrefl). Qed.

Lemma st_new_core (st : Stats F) : same_stats_core st (st_new_iteration st).
Proof. repeat split. Qed.
Lemma st_log_core t v (st : Stats F) : same_stats_core st (st_log_val t v st).
Proof. apply st_log_counts. Qed.

Lemma update_stats_spec Z s s4 : il_update_stats m cb Z s = Ok s4 ->
  frame s s4 /\ il_Z s4 = il_Z s /\ il_Zb s4 = il_Zb s /\ il_status s4 = il_status s /\ il_kps s4 = il_kps s /\
  il_costs s4 = il_costs s /\ il_rho s4 = il_rho s /\ il_drho s4 = il_drho s /\
  st_inner (il_stats s4) = (st_inner (il_stats s) + 1)%Z /\ st_total (il_stats s4) = (st_total (il_stats s) + 1)%Z /\
  st_outer (il_stats s4) = st_outer (il_stats s) /\ st_initial_cost (il_stats s4) = st_initial_cost (il_stats s) /\
  exists dJ st1, 
    (if (st_inner (il_stats s) =? 0)%Z
     then exists c, st_back "cost" (il_stats s) = Ok c /\ dJ = sub (st_initial_cost (il_stats s)) c
     else exists c1 c0, st_back2 "cost" (il_stats s) = Ok c1 /\ st_back "cost" (il_stats s) = Ok c0 /\ dJ = sub c1 c0) /\
    st1 = st_set_counts (il_stats s) (st_initial_cost (il_stats s)) (st_inner (il_stats s) + 1)%Z (st_outer (il_stats s)) (st_total (il_stats s) + 1)%Z /\
    il_stats s4 = st_new_iteration (st_logF "grad" (fst (il_ff_gain m Z s)) (st_logZ "iters" (st_total (il_stats s) + 1)%Z
       (st_logF "viol" (cb (map kp_cost (il_kps s))) (st_logF "dJ" dJ st1)))).
Proof.
  intros E. unfold il_update_stats in E. pose proof (ff_gain_frame Z s) as Hf. cbv zeta in Hf.
  destruct (il_ff_gain m Z s) as [dg s1] eqn:Eg. simpl in Hf.
  destruct Hf as (F1 & F2 & F3 & F4 & F5 & F6 & F7 & F8 & F9).
  rewrite F4, F6 in E.
  assert (exists dJ, (if (st_inner (il_stats s) =? 0)%Z
     then exists c, st_back "cost" (il_stats s) = Ok c /\ dJ = sub (st_initial_cost (il_stats s)) c
     else exists c1 c0, st_back2 "cost" (il_stats s) = Ok c1 /\ st_back "cost" (il_stats s) = Ok c0 /\ dJ = sub c1 c0) /\
     Ok s4 = Ok (il_set_stats s1 (st_new_iteration (st_logF "grad" dg
       (st_logZ "iters" (st_total (il_stats s) + 1)%Z
       (st_logF "viol" (cb (map kp_cost (il_kps s))) (st_logF "dJ" dJ (st_set_counts (il_stats s) (st_initial_cost (il_stats s)) (st_inner (il_stats s) + 1)%Z (st_outer (il_stats s)) (st_total (il_stats s) + 1)%Z)))))))) as (dJ & HdJ & E').
  { assert (Htot : forall a b (st : Stats F), st_total (st_logF "viol" a (st_logF "dJ" b st)) = st_total st).
    { intros a b st. unfold st_logF. destruct (st_log_counts "viol" (VFlt a) (st_log_val "dJ" (VFlt b) st)) as (_ & -> & _).
      destruct (st_log_counts "dJ" (VFlt b) st) as (_ & -> & _). reflexivity. }
    destruct (st_inner (il_stats s) =? 0)%Z.
    - destruct (st_back "cost" (il_stats s)) as [c| | | | |]; cbn [bind] in E; try discriminate.
      eexists; split; [exists c; split; reflexivity|]. rewrite <- E. rewrite Htot. reflexivity.
    - destruct (st_back2 "cost" (il_stats s)) as [c1| | | | |]; cbn [bind] in E; try discriminate.
      destruct (st_back "cost" (il_stats s)) as [c0| | | | |]; cbn [bind] in E; try discriminate.
      eexists; split; [exists c1, c0; repeat split; reflexivity|]. rewrite <- E. rewrite Htot. reflexivity. }
  inversion E'; subst s4; clear E'. set (st1 := st_set_counts _ _ _ _ _) in *.
  set (stn := st_logF "grad" dg _).
  assert (Hc : same_stats_core st1 (st_new_iteration stn)).
  { apply (same_core_trans _ stn); [|apply st_new_core]. unfold stn, st_logF, st_logZ.
    eapply same_core_trans; [|apply st_log_core]. eapply same_core_trans; [|apply st_log_core].
    eapply same_core_trans; [|apply st_log_core]. apply st_log_core. }
  destruct Hc as (C1 & C2 & C3 & C4).
  split; [destruct F1; split; simpl; auto|]. cbn [il_set_stats il_Z il_Zb il_status il_kps il_costs il_rho il_drho il_stats].
  repeat split; auto. 
  exists dJ, st1. repeat split; auto.
Qed.

Lemma print_spec (b : bool) (s s5 : ILQR) :
  (if b then do st <- st_print_last (il_stats s) ; Ok (il_set_stats s st) else Ok s) = Ok s5 ->
  frame s s5 /\ il_Z s5 = il_Z s /\ il_Zb s5 = il_Zb s /\ il_status s5 = il_status s /\ il_kps s5 = il_kps s /\
  il_costs s5 = il_costs s /\ il_rho s5 = il_rho s /\ il_drho s5 = il_drho s /\
  same_stats_core (il_stats s) (il_stats s5) /\ st_ser (il_stats s5) = st_ser (il_stats s) /\
  st_len (il_stats s5) = st_len (il_stats s).
Proof.
  destruct b; intros E.
  - unfold st_print_last in E. destruct (lg_print (st_log (il_stats s))) as [[out g]| | | | |]; simpl in E; try discriminate.
    inversion E; subst. simpl. repeat split; auto. apply (kps_refl R Rrefl).
  - inversion E; subst. repeat split; auto. apply (kps_refl R Rrefl).
Qed.

Lemma st_back_ext t (a b : Stats F) : st_ser a = st_ser b -> st_back t a = st_back t b.
Proof. unfold st_back, st_get. intros ->. reflexivity. Qed.

Lemma is_done_spec (s : ILQR) fin (s' : ILQR) : il_is_done s = Ok (fin, s') ->
  s' = il_set_status s (il_status s') /\
  exists dJ g, st_back "dJ" (il_stats s) = Ok dJ /\ st_back "grad" (il_stats s) = Ok g /\
  let o := il_opts s in let st := il_stats s in
  let conv := ltb dJ (o_cost_tol o) && ltb g (o_grad_tol o) in
  (fin = true /\ il_status s' = kSolved /\ conv = true \/
   fin = true /\ il_status s' = kMaxInnerIterations /\ conv = false /\ (o_max_inner o <= st_inner st)%Z \/
   fin = true /\ il_status s' = kMaxIterations /\ conv = false /\ (st_inner st < o_max_inner o)%Z /\ (o_max_total o <= st_total st)%Z \/
   fin = true /\ il_status s' = il_status s /\ il_status s <> kUnsolved /\ conv = false /\ (st_inner st < o_max_inner o)%Z /\ (st_total st < o_max_total o)%Z \/
   fin = false /\ il_status s' = kUnsolved /\ il_status s = kUnsolved /\ conv = false /\ (st_inner st < o_max_inner o)%Z /\ (st_total st < o_max_total o)%Z).
Proof.
  intros E. unfold il_is_done in E.
  destruct (st_back "dJ" (il_stats s)) as [dJ| | | | |]; cbn [bind] in E; try discriminate.
  destruct (st_back "grad" (il_stats s)) as [g| | | | |]; cbn [bind] in E; try discriminate.
  destruct (ltb dJ (o_cost_tol (il_opts s)) && ltb g (o_grad_tol (il_opts s))) eqn:Ec.
  { inversion E; subst. split; [reflexivity|]. exists dJ, g. split; [reflexivity|]. split; [reflexivity|]. cbv zeta. rewrite Ec. cbn [il_status il_set_status]. auto 10. }
  destruct (o_max_inner (il_opts s) <=? st_inner (il_stats s))%Z eqn:E1.
  { apply Z.leb_le in E1. inversion E; subst. split; [reflexivity|]. exists dJ, g. split; [reflexivity|]. split; [reflexivity|]. cbv zeta. rewrite Ec. cbn [il_status il_set_status]. auto 10. }
  apply Z.leb_gt in E1.
  destruct (o_max_total (il_opts s) <=? st_total (il_stats s))%Z eqn:E2.
  { apply Z.leb_le in E2. inversion E; subst. split; [reflexivity|]. exists dJ, g. split; [reflexivity|]. split; [reflexivity|]. cbv zeta. rewrite Ec. cbn [il_status il_set_status]. auto 10. }
  apply Z.leb_gt in E2.
  assert (Hs : s = il_set_status s (il_status s)) by (destruct s; reflexivity).
  destruct (status_eqb (il_status s) kUnsolved) eqn:E3; simpl in E; inversion E; subst; clear E.
  - assert (il_status s' = kUnsolved) by (destruct (il_status s'); simpl in E3; congruence).
    split; [exact Hs|]. exists dJ, g. split; [reflexivity|]. split; [reflexivity|]. cbv zeta. rewrite Ec. do 4 right. auto 10.
  - assert (il_status s' <> kUnsolved) by (intros H; rewrite H in E3; discriminate).
    split; [exact Hs|]. exists dJ, g. split; [reflexivity|]. split; [reflexivity|]. cbv zeta. rewrite Ec. do 3 right. left. auto 10.
Qed.

(** ** one iteration *)
Record iter_out (fin : bool) (s s' : ILQR) (Z : Traj F) (s2 s3 : ILQR) : Prop := mkIter {
  it_Z : il_Z s = Some Z;
  it_back : exists fuel, il_backward_pass n m fuel (il_update_expansions ops n m Z s) = Ok s2;
  it_fwd : s3 = il_forward_pass ops n m Z s2;
  it_acc : fp_accept Z s2 s3 \/ fp_reject s2 s3;
  it_frame2 : frame s s2; it_frame : frame s3 s'; it_frame23 : frame s2 s3;
  it_Z2 : il_Z s2 = il_Z s; it_Zb2 : il_Zb s2 = il_Zb s;
  it_costs2 : il_costs s2 = fst (expand_all ops n m (il_kps s) Z);
  it_stats2 : exists rho, il_stats s2 = st_logF "reg" rho (il_stats s);
  it_Z' : il_Z s' = il_Z s3; it_Zb' : il_Zb s' = il_Zb s3; it_kps' : il_kps s' = il_kps s3;
  it_costs' : il_costs s' = il_costs s3;
  it_inner : st_inner (il_stats s') = (st_inner (il_stats s) + 1)%Z;
  it_total : st_total (il_stats s') = (st_total (il_stats s) + 1)%Z;
  it_outer : st_outer (il_stats s') = st_outer (il_stats s);
  it_init : st_initial_cost (il_stats s') = st_initial_cost (il_stats s) }.

Lemma iteration_spec fuel s fin s' : il_ready s -> il_iteration ops n m cb fuel s = Ok (fin, s') ->
  exists Z s2 s3, iter_out fin s s' Z s2 s3 /\ il_ready s2 /\ il_ready s' /\
    exists Z' s4 s5 (b : bool), il_Z s3 = Some Z' /\ il_update_stats m cb Z' s3 = Ok s4 /\
      (if b then do st <- st_print_last (il_stats s4) ; Ok (il_set_stats s4 st) else Ok s4) = Ok s5 /\
      il_is_done s5 = Ok (fin, s').
Proof.
  intros (Hk & (Z & HZ & HZl) & (Zb & HZb & HZbl)) E. unfold il_iteration, il_get_Z in E. rewrite HZ in E. cbn [bind] in E.
  destruct (frame_update_expansions ops n m R Rrefl Rtrans Re Rg Rh Z s) as (U1 & [U2 U3] & U4 & U5).
  assert (Uc : il_costs (il_update_expansions ops n m Z s) = fst (expand_all ops n m (il_kps s) Z)).
  { unfold il_update_expansions. destruct (expand_all ops n m (il_kps s) Z). reflexivity. }
  set (s1 := il_update_expansions ops n m Z s) in *.
  destruct (il_backward_pass n m fuel s1) as [s2| | | | |] eqn:EB; cbn [bind] in E; try discriminate.
  assert (Hk1 : length (il_kps s1) = S (il_N s1)).
  { destruct U1 as [H1 _ _ H4]. rewrite H1, <- (kps_len R _ _ H4). exact Hk. }
  destruct (frame_backward n m R Rrefl Rtrans fuel s1 s2 Hk1 EB) as (B1 & [B2 B3] & B4 & B5 & B6 & B7).
  assert (HZb2 : il_Zb s2 = Some Zb) by congruence.
  assert (F2 : frame s s2) by (eapply (frame_trans R Rtrans); eauto).
  destruct (forward_spec Z s2 Zb HZb2) as (W1 & W2 & (Zb1 & W3 & W4 & W5) & W6 & _).
  set (s3 := il_forward_pass ops n m Z s2) in *.
  assert (Hk2 : length (il_kps s2) = S (il_N s2)).
  { destruct B1 as [H1 _ _ H4]. rewrite H1, <- (kps_len R _ _ H4). exact Hk1. }
  assert (HN2 : il_N s2 = il_N s) by apply F2.
  destruct (il_Z s3) as [Z'|] eqn:EZ'; cbn [bind] in E; [|discriminate].
  assert (HZ'l : length Z' = S (il_N s)).
  { destruct W6 as [W6|W6].
    - destruct (accept_props Z s2 s3 Zb W6 HZb2 Hk2 ltac:(lia) ltac:(lia)) as (Za & A1 & A2 & _). rewrite EZ' in A1. inversion A1; subst. lia.
    - destruct W6 as [W6 _]. rewrite EZ' in W6. rewrite B2, U2, HZ in W6. inversion W6; subst. exact HZl. }
  destruct (il_update_stats m cb Z' s3) as [s4| | | | |] eqn:ES; cbn [bind] in E; try discriminate.
  destruct (update_stats_spec Z' s3 s4 ES) as (S1 & S2 & S3 & S4 & S5 & S6 & S7 & S8 & S9 & S10 & S11 & S12 & _).
  set (bb := (kInner <=? lg_level (st_log (il_stats s4)))%Z) in *.
  destruct (if bb then do st <- st_print_last (il_stats s4); Ok (il_set_stats s4 st) else Ok s4) as [s5| | | | |] eqn:EP; cbn [bind] in E; try discriminate.
  destruct (print_spec bb s4 s5 EP) as (P1 & P2 & P3 & P4 & P5 & P6 & P7 & P8 & P9 & P10 & P11).
  destruct (is_done_spec s5 fin s' E) as (D1 & D2).
  exists Z, s2, s3.
  assert (F35 : frame s3 s') by (rewrite D1; destruct S1, P1; split; simpl; try congruence; eapply (kps_trans R Rtrans); eauto).
  destruct P9 as (Q1 & Q2 & Q3 & Q4). destruct W2 as (Q5 & Q6 & Q7 & Q8). destruct B4 as (Q9 & Q10 & Q11 & Q12).
  assert (HD : il_Z s' = il_Z s5 /\ il_Zb s' = il_Zb s5 /\ il_kps s' = il_kps s5 /\ il_costs s' = il_costs s5 /\ il_stats s' = il_stats s5 /\ il_N s' = il_N s5)
    by (rewrite D1; repeat split). destruct HD as (D3 & D4 & D5 & D6 & D7 & D8).
  split; [|split; [|split]].
  - split; auto; try congruence; try (rewrite D7; congruence).
    + exists fuel. exact EB.
    + destruct B6 as [rho B6]. exists rho. rewrite B6, U4. reflexivity.
  - split; [exact Hk2|]. split; [exists Z|exists Zb]; split; congruence.
  - split; [|split].
    + destruct F35 as [H1 _ _ H4]. destruct W1 as [H5 _ _ H6]. rewrite <- (kps_len R _ _ H4), <- (kps_len R _ _ H6), H1, H5. exact Hk2.
    + exists Z'. split; [congruence|]. destruct F35 as [H1 _ _ _]. destruct W1 as [H5 _ _ _]. congruence.
    + exists Zb1. split; [congruence|]. destruct F35 as [H1 _ _ _]. destruct W1 as [H5 _ _ _]. congruence.
  - exists Z', s4, s5, bb. auto.
Qed.
End Iter.
