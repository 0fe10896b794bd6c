(** iLQR solve: whole-run theorems (any arithmetic). *)
From Coq Require Import ZArith String List Bool Lia.
From Verif Require Import Base Lin RLin LogModel StatsModel TrajModel IlqrModel IlqrSpec IlqrFrame IlqrProofs.
Import ListNotations.

Section Solve.
Context {F : Scalar} {CS : Type} (ops : CostOps F CS) (n m : nat) (cb : list CS -> F).
Context (R : CS -> CS -> Prop)
  (Rrefl : forall c, R c c) (Rtrans : forall a b c, R a b -> R b c -> R a c)
  (Re : forall c x u, R c (snd (co_eval ops c x u)))
  (Rg : forall c x u b, R c (snd (co_grad ops c x u b)))
  (Rh : forall c x u b, R c (snd (co_hess ops c x u b))).
Notation frame := (frame R). Notation kps_sim := (kps_sim R).
Notation ILQR := (ILQR F CS).

(** same time grid: all times, and all steps but the last *)
Definition same_grid (Z Z' : Traj F) : Prop :=
  map z_t Z' = map z_t Z /\ removelast (map z_h Z') = removelast (map z_h Z).
Lemma grid_times Z Z' : times Z = times Z' -> same_grid Z Z'.
Proof.
  unfold times. intros H. split.
  - apply (f_equal (map fst)) in H. rewrite !map_map in H. simpl in H. auto.
  - apply (f_equal (map snd)) in H. rewrite !map_map in H. simpl in H. f_equal. symmetry. exact H.
Qed.
Lemma grid_refl Z : same_grid Z Z.
Proof. split; auto. Qed.
Lemma grid_trans A B C : same_grid A B -> same_grid B C -> same_grid A C.
Proof. intros [] []; split; congruence. Qed.
Lemma copy_times_len (Z : Traj F) : forall Zb, length (copy_times Z Zb) = length Zb.
Proof.
  induction Z as [|z Z IH]; intros [|zb Zb]; auto; [destruct Z; auto|].
  destruct Z as [|z' Z]; [reflexivity|].
  change (S (length (copy_times (z' :: Z) Zb)) = S (length Zb)). now rewrite IH.
Qed.
Lemma copy_times_grid Z : forall Zb, length Z = length Zb ->
  length (copy_times Z Zb) = length Zb /\ same_grid Z (copy_times Z Zb).
Proof.
  induction Z as [|z Z IH]; intros [|zb Zb] H; try discriminate; [simpl; split; auto; apply grid_refl|].
  destruct Z as [|z' Z].
  - destruct Zb; [|discriminate]. simpl. repeat split.
  - destruct Zb as [|zb' Zb]; [discriminate|]. specialize (IH (zb' :: Zb) ltac:(simpl in *; lia)).
    destruct IH as [I1 [I2 I3]]. set (r := copy_times (z' :: Z) (zb' :: Zb)) in *.
    change (copy_times (z :: z' :: Z) (zb :: zb' :: Zb)) with (mkKP (z_x zb) (z_u zb) (z_t z) (z_h z) :: r).
    simpl in I1. split; [simpl; lia|]. split.
    + cbn [map]. cbn [map] in I2. rewrite I2. reflexivity.
    + cbn [map z_h]. cbn [map] in I3. destruct r as [|a r]; [discriminate|]. cbn [map] in *.
      change (z_h z :: removelast (z_h a :: map z_h r) = z_h z :: removelast (z_h z' :: map z_h Z)). now rewrite I3.
Qed.

(** ** Start of a solve *)
Record started (debug : bool) (s s4 : ILQR) (Z Z1 : Traj F) : Prop := mkStarted {
  so_Z : il_Z s = Some Z;
  so_kps : length (il_kps s) = S (il_N s) /\ length Z = S (il_N s);
  so_ready : il_ready s4;
  so_frame : frame s s4;
  so_Z1 : il_Z s4 = Some Z1 /\ Z1 = roll n (vstore n (il_x0 s)) (il_kps s) Z;
  so_head : head_x (vstore n (il_x0 s)) Z1; so_follows : follows n (map kp_dyn (il_kps s)) Z1;
  so_times : times Z1 = times Z; so_u : map z_u Z1 = map z_u Z;
  so_grid : exists Zb, il_Zb s4 = Some Zb /\ same_grid Z1 Zb;
  so_inner : st_inner (il_stats s4) = 0%Z;
  so_total : st_total (il_stats s4) = st_total (il_stats s);
  so_outer : st_outer (il_stats s4) = st_outer (il_stats s);
  so_ser : st_ser (il_stats s4) = st_ser (il_stats s) /\ st_len (il_stats s4) = st_len (il_stats s);
  so_costs : il_costs s4 = fst (calc_costs ops (il_kps s) Z1);
  so_kps4 : il_kps s4 = snd (calc_costs ops (il_kps s) Z1);
  so_init : st_initial_cost (il_stats s4) = lsum (il_costs s4);
  so_status : il_status s4 = kUnsolved;
  so_rho : il_rho s4 = o_reg_initial (il_opts s) /\ il_drho s4 = zero;
  so_dbg : debug = true -> il_x0_set s = true }.

Lemma begin_spec debug s s' : il_begin ops n debug s = Ok s' -> exists Z Z1, started debug s s' Z Z1.
Proof.
  intros E. unfold il_begin in E.
  destruct (altro_assert debug (il_x0_set s)) as [[]| | | | |] eqn:A1; cbn [bind] in E; try discriminate.
  destruct (altro_assert debug _) as [[]| | | | |] eqn:A2 in E; cbn [bind] in E; try discriminate.
  destruct (altro_assert debug _) as [[]| | | | |] eqn:A3 in E; cbn [bind] in E; try discriminate.
  destruct (il_solve_setup s) as [s1| | | | |] eqn:ES; cbn [bind] in E; try discriminate.
  destruct (il_sized s1) eqn:Esz; cbn [bind] in E; try discriminate.
  unfold il_solve_setup in ES. cbn [il_Z il_Zb il_set_stats] in ES.
  destruct (il_Z s) as [Z|] eqn:EZ.
  2:{ inversion ES; subst s1. exfalso. unfold il_sized in Esz. cbn in Esz. rewrite EZ in Esz.
      rewrite andb_false_r in Esz. discriminate. }
  destruct (il_Zb s) as [Zb|] eqn:EZb; [|discriminate].
  set (st1 := st_set_verbosity _ _) in ES. set (Zb1 := copy_times Z Zb) in ES.
  assert (H1Z : il_Z s1 = Some Z) by (inversion ES; subst; exact EZ).
  assert (H1Zb : il_Zb s1 = Some Zb1) by (inversion ES; subst; reflexivity).
  assert (H1k : il_kps s1 = il_kps s) by (inversion ES; subst; reflexivity).
  assert (H1N : il_N s1 = il_N s) by (inversion ES; subst; reflexivity).
  assert (H1x : il_x0 s1 = il_x0 s) by (inversion ES; subst; reflexivity).
  assert (H1o : il_opts s1 = il_opts s) by (inversion ES; subst; reflexivity).
  assert (H1s : il_stats s1 = st1) by (inversion ES; subst; reflexivity).
  assert (H1st : il_status s1 = kUnsolved) by (inversion ES; subst; reflexivity).
  assert (H1r : il_rho s1 = o_reg_initial (il_opts s) /\ il_drho s1 = zero) by (inversion ES; subst; split; reflexivity).
  clear ES. unfold il_sized in Esz. rewrite H1Z, H1Zb, H1k, H1N in Esz.
  apply andb_prop in Esz. destruct Esz as [L1 L2]. apply andb_prop in L2. destruct L2 as [L2 L3].
  apply Nat.eqb_eq in L1, L2, L3.
  assert (LZ : length Z = length Zb).
  { unfold Zb1 in L3. rewrite copy_times_len in L3. lia. }
  unfold il_get_Z in E. rewrite H1Z in E. cbn [bind] in E.
  set (Z1 := il_rollout n Z s1) in E.
  assert (EZ1 : Z1 = roll n (vstore n (il_x0 s)) (il_kps s) Z) by (unfold Z1, il_rollout; now rewrite H1x, H1k).
  destruct (roll_spec n (il_kps s) (vstore n (il_x0 s)) Z ltac:(lia)) as (R1 & R2 & R3 & R4 & R5).
  rewrite <- EZ1 in R1, R2, R3, R4, R5.
  unfold il_cost in E. cbn [il_kps il_set_Z] in E. rewrite H1k in E.
  pose proof (sim_calc_costs ops R Rrefl Re (il_kps s) Z1) as Hsim.
  destruct (calc_costs ops (il_kps s) Z1) as [Js ks] eqn:EC. cbn [snd] in Hsim.
  set (s4 := il_set_stats _ _) in E.
  inversion E; subst s'; clear E. exists Z, Z1.
  assert (O4 : il_opts s4 = il_opts s) by exact H1o.
  split; auto.
  - split; [cbn; rewrite H1N, <- (kps_len R _ _ Hsim); exact L1|]. split.
    + exists Z1. split; [reflexivity|]. cbn. rewrite H1N, R3. exact L2.
    + exists Zb1. split; [exact H1Zb|]. cbn. rewrite H1N. exact L3.
  - split; cbn; auto.
  - exists Zb1. split; [exact H1Zb|].
    eapply grid_trans; [apply grid_times; exact R4|]. apply copy_times_grid; exact LZ.
  - cbn. rewrite H1s. reflexivity.
  - cbn. rewrite H1s. reflexivity.
  - cbn. rewrite H1s. reflexivity.
  - cbn. rewrite H1s. split; reflexivity.
  - cbn. rewrite EC. reflexivity.
  - cbn. rewrite EC. reflexivity.
  - intros ->. unfold altro_assert in A1. destruct (il_x0_set s); [reflexivity|discriminate].
Qed.

Lemma solve_start debug fuel s s' : il_solve ops n m cb debug fuel s = Ok s' ->
  exists s4 Z Z1, il_begin ops n debug s = Ok s4 /\ started debug s s4 Z Z1 /\
    il_loop ops n m cb fuel (Z.to_nat (o_max_inner (il_opts s))) s4 = Ok s'.
Proof.
  intros E. unfold il_solve in E. destruct (il_begin ops n debug s) as [s4| | | | |] eqn:EB; cbn [bind] in E; try discriminate.
  destruct (begin_spec _ _ _ EB) as (Z & Z1 & H). exists s4, Z, Z1. split; [reflexivity|]. split; [exact H|].
  destruct H as [_ _ _ [_ _ <- _] _ _ _ _ _ _ _ _ _ _ _ _ _ _ _ _]. exact E.
Qed.

(** ** Loop induction principle: a property of the state kept by every iteration *)
Lemma loop_ind (P : ILQR -> Prop) fuel :
  (forall s fin s', il_ready s -> P s -> il_iteration ops n m cb fuel s = Ok (fin, s') -> P s') ->
  forall iters s s', il_ready s -> P s -> il_loop ops n m cb fuel iters s = Ok s' -> il_ready s' /\ P s'.
Proof.
  intros HP. induction iters as [|it IH]; intros s s' Hr Hp E; cbn [il_loop] in E.
  - inversion E; subst; auto.
  - destruct (il_iteration ops n m cb fuel s) as [[fin s1]| | | | |] eqn:E1; cbn [bind] in E; try discriminate.
    assert (Hr1 : il_ready s1).
    { destruct (iteration_spec ops n m cb R Rrefl Rtrans Re Rg Rh _ _ _ _ Hr E1) as (Z & s2 & s3 & _ & _ & H & _). exact H. }
    destruct fin; [inversion E; subst; split; [exact Hr1|exact (HP _ _ _ Hr Hp E1)]|]. eapply IH; [exact Hr1| |exact E]. exact (HP _ _ _ Hr Hp E1).
Qed.
(** property of the last iteration *)
Lemma loop_last fuel : forall iters s s', il_ready s -> (0 < iters)%nat -> il_loop ops n m cb fuel iters s = Ok s' ->
  exists s0 fin, il_ready s0 /\ frame s s0 /\ il_iteration ops n m cb fuel s0 = Ok (fin, s') /\
    exists j, (j < iters)%nat /\ st_inner (il_stats s0) = (st_inner (il_stats s) + Z.of_nat j)%Z /\
    (fin = false -> S j = iters).
Proof.
  induction iters as [|it IH]; intros s s' Hr Hi E; [lia|]. cbn [il_loop] in E.
  destruct (il_iteration ops n m cb fuel s) as [[fin s1]| | | | |] eqn:E1; cbn [bind] in E; try discriminate.
  destruct (iteration_spec ops n m cb R Rrefl Rtrans Re Rg Rh _ _ _ _ Hr E1) as (Z & s2 & s3 & Hio & _ & Hr1 & _).
  assert (Hf : frame s s1).
  { eapply (frame_trans R Rtrans); [apply Hio|]. eapply (frame_trans R Rtrans); apply Hio. }
  destruct fin.
  - inversion E; subst. exists s, true. split; [exact Hr|]. split; [apply (frame_refl R Rrefl)|]. split; [exact E1|].
    exists 0%nat. split; [lia|]. split; [lia|discriminate].
  - destruct it as [|it].
    + cbn [il_loop] in E. inversion E; subst. exists s, false. split; [exact Hr|]. split; [apply (frame_refl R Rrefl)|].
      split; [exact E1|]. exists 0%nat. split; [lia|]. split; [lia|auto].
    + destruct (IH s1 s' Hr1 ltac:(lia) E) as (s0 & fin & H1 & H2 & H3 & j & H4 & H5 & H6).
      exists s0, fin. split; [exact H1|]. split; [eapply (frame_trans R Rtrans); eauto|]. split; [exact H3|].
      exists (S j). split; [lia|]. split.
      * rewrite H5. destruct Hio. lia.
      * intros Hfin. specialize (H6 Hfin). lia.
Qed.

(** ** C17: dynamic feasibility *)
Definition feas (x0 : vec F) (dyns : list (Dyn F)) (G : Traj F) (s : ILQR) : Prop :=
  il_x0 s = x0 /\ map kp_dyn (il_kps s) = dyns /\
  exists Z Zb, il_Z s = Some Z /\ il_Zb s = Some Zb /\ head_x (vstore n x0) Z /\ follows n dyns Z /\
    same_grid G Z /\ same_grid G Zb.
Lemma feas_iter x0 dyns G fuel s fin s' : il_ready s -> feas x0 dyns G s ->
  il_iteration ops n m cb fuel s = Ok (fin, s') -> feas x0 dyns G s'.
Proof.
  intros Hr (Hx & Hd & Z0 & Zb & HZ0 & HZb & H1 & H2 & H3 & H4) E.
  destruct (iteration_spec ops n m cb R Rrefl Rtrans Re Rg Rh _ _ _ _ Hr E) as (Z & s2 & s3 & Hio & Hr2 & Hr' & _).
  destruct Hio as [I1 I2 I3 I4 I5 I6 I7 I8 I9 I10 I11 I12 I13 I14 _ _ _ _ _].
  assert (HZZ : Z0 = Z) by congruence. subst Z0.
  assert (Hx' : il_x0 s' = x0). { destruct I5, I6, I7. congruence. }
  assert (Hd2 : map kp_dyn (il_kps s2) = dyns). { destruct I5. rewrite (kps_dyns R _ _ fr_kps). exact Hd. }
  assert (Hd' : map kp_dyn (il_kps s') = dyns).
  { destruct I6, I7. rewrite (kps_dyns R _ _ fr_kps), (kps_dyns R _ _ fr_kps0). exact Hd2. }
  split; [exact Hx'|]. split; [exact Hd'|].
  assert (HZb2 : il_Zb s2 = Some Zb) by congruence.
  destruct (forward_spec ops n m R Rrefl Rtrans Re Z s2 Zb HZb2) as (W1 & W2 & (Zb1 & W3 & W4 & W5) & _).
  rewrite <- I3 in W3, W1. 
  assert (Gb : same_grid G Zb1) by (eapply grid_trans; [exact H4|apply grid_times; auto]).
  destruct I4 as [I4|I4].
  - destruct Hr2 as (L1 & (Z' & L2 & L3) & (Zb' & L4 & L5)). rewrite HZb2 in L4. inversion L4; subst Zb'.
    assert (Z' = Z) by congruence. subst Z'.
    destruct (accept_props ops n m R Z s2 s3 Zb I4 HZb2 L1 L3 L5) as (Zn & A1 & A2 & A3 & A4 & _).
    assert (Hsame : il_Z s3 = il_Zb s3). { destruct I4 as (sx & J & _ & B1 & B2 & _). congruence. }
    exists Zn, Zb1. split; [congruence|]. split; [congruence|].
    assert (il_x0 s2 = x0) by (destruct I5; congruence). rewrite H in A3. rewrite Hd2 in A4.
    assert (Zn = Zb1) by congruence. subst Zn. repeat split; auto; apply Gb.
  - destruct I4 as (B1 & _). exists Z, Zb1. split; [congruence|]. split; [congruence|]. auto.
Qed.
Theorem solve_feasible debug fuel s s' : il_solve ops n m cb debug fuel s = Ok s' ->
  exists Z Z', il_Z s = Some Z /\ il_Z s' = Some Z' /\ length Z' = S (il_N s) /\ 
    head_x (vstore n (il_x0 s)) Z' /\ follows n (map kp_dyn (il_kps s)) Z' /\ same_grid Z Z'.
Proof.
  intros E. destruct (solve_start _ _ _ _ E) as (s4 & Z & Z1 & EB & [] & El).
  destruct (loop_ind (feas (il_x0 s) (map kp_dyn (il_kps s)) Z) fuel) with (s := s4) (s' := s') (iters := Z.to_nat (o_max_inner (il_opts s)))
    as [Hr (_ & _ & Z' & Zb & H1 & H2 & H3 & H4 & H5 & H6)]; auto.
  - intros. eapply feas_iter; eauto.
  - destruct so_frame0. split; [auto|]. split; [apply (kps_dyns R _ _ fr_kps)|].
    destruct so_grid0 as (Zb & G1 & G2). destruct so_Z2 as [G3 _]. exists Z1, Zb.
    split; [exact G3|]. split; [exact G1|]. split; [exact so_head0|]. split; [exact so_follows0|].
    assert (same_grid Z Z1) by (apply grid_times; auto). split; auto. eapply grid_trans; eauto.
  - exists Z, Z'. repeat split; auto; try apply H5.
    destruct Hr as (_ & (Za & Ha & La) & _). rewrite H1 in Ha. inversion Ha; subst Za. rewrite La. f_equal.
    destruct so_frame0. 
    enough (il_N s' = il_N s4) by congruence.
    enough (frame s4 s') by (destruct H; auto).
    apply (proj2 (loop_ind (fun x => frame s4 x) fuel ltac:(intros sa fin sb Hra Hfa Ea;
      destruct (iteration_spec ops n m cb R Rrefl Rtrans Re Rg Rh _ _ _ _ Hra Ea) as (Zc & s2 & s3 & Hio & _);
      eapply (frame_trans R Rtrans); [exact Hfa|]; eapply (frame_trans R Rtrans); [apply Hio|]; eapply (frame_trans R Rtrans); apply Hio) _ s4 s' so_ready0 (frame_refl R Rrefl s4) El)).
Qed.
End Solve.
