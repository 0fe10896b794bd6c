(** Linear-quadratic problems are solved by one iteration. *)
From Coq Require Import Reals Lra Lia List Bool ZArith Psatz Arith.
From Verif Require Import Base Lin LogModel StatsModel TrajModel IlqrModel IlqrSpec IlqrFrame IlqrProofs IlqrProofs2 IlqrProofs4 IlqrProofs5 IlqrProofs7 LsSpec RLin LqSpec LltProofs DynProofs LqProofs LqProofs2 LqProofs3 LqProbSpec LqProofs4.
Import ListNotations.
Local Open Scope R_scope.

Lemma nth_firstn_split {A} (l : list A) N a : nth_error l N = Some a -> length l = S N -> l = firstn N l ++ [a].
Proof.
  intros H L. rewrite <- (firstn_skipn N l) at 1. f_equal. revert N H L. induction l as [|b l IH]; intros [|N] H L; cbn in *; try discriminate; [inversion H; destruct l; [reflexivity|discriminate]|]. apply IH; auto.
Qed.
Lemma nth_error_ex {A} (l : list A) i : (i < length l)%nat -> exists a, nth_error l i = Some a.
Proof. intros H. destruct (nth_error l i) eqn:E; [eauto|]. apply nth_error_None in E. lia. Qed.
Lemma nth_map_eq {A B} (f : A -> B) l l' i a b : map f l = map f l' -> nth_error l i = Some a -> nth_error l' i = Some b -> f a = f b.
Proof. intros E Ha Hb. apply (map_nth_error f) in Ha, Hb. rewrite E in Ha. congruence. Qed.

Lemma list_eq_nth {A} (l l' : list A) : length l = length l' -> (forall i a b, nth_error l i = Some a -> nth_error l' i = Some b -> a = b) -> l = l'.
Proof.
  revert l'. induction l as [|a l IH]; intros [|b l'] L H; try discriminate; [reflexivity|]. f_equal; [exact (H 0%nat a b eq_refl eq_refl)|]. apply IH; [cbn in L; lia|]. exact (fun i => H (S i)).
Qed.

Section S.
Context {CS : Type} (n m : nat) (ops : CostOps RS CS) (Inv : CS -> Prop) (D : CS -> Quad) (HQ : quad_costs n m ops Inv D).
Notation K := (KPF RS CS).
Notation stage_of := (@stage_of CS n).
Notation ILQR := (ILQR RS CS).
Notation qv c := (quad_val n m (D c)).
Lemma sweep_keeps rho (kps : list K) SN sN v0 v1 : map (fun k => (kp_cost k, kp_dyn k)) (sw_kps (bp_sweep n m rho kps SN sN v0 v1)) = map (fun k => (kp_cost k, kp_dyn k)) kps.
Proof.
  induction kps as [|k r IH]; [reflexivity|]. cbn [bp_sweep]. destruct (sw_ok _); [|cbn [sw_kps map]; rewrite IH; reflexivity].
  destruct (kpf_gains n m _) as [k2|] eqn:G; cbn [sw_kps map]; rewrite IH; [|reflexivity]. f_equal.
  destruct (gains_fields n m _ _ G) as (_ & _ & _ & _ & A & B). change (kp_cost (kpf_ctg n m k2)) with (kp_cost k2). change (kp_dyn (kpf_ctg n m k2)) with (kp_dyn k2). rewrite A, B. reflexivity.
Qed.

Section Step.
Context (s : ILQR) (Z Zb : Traj RS).
Context (LP : lq_problem n m Inv D s) (HZ : il_Z s = Some Z) (CZ : candidate n s Z Z) (HZb : il_Zb s = Some Zb) (LZb : length Zb = S (il_N s)) (GZb : same_steps (il_N s) Z Zb).
Context (N1 : (1 <= il_N s)%nat) (R0 : il_rho s = 0).
Let N := il_N s.
Let s1 := il_update_expansions ops n m Z s.
Let kps1 := snd (expand_all ops n m (il_kps s) Z).
Lemma s1_eq : s1 = il_set_costs s (fst (expand_all ops n m (il_kps s) Z)) kps1.
Proof. unfold s1, kps1, il_update_expansions. destruct (expand_all ops n m (il_kps s) Z). reflexivity. Qed.
Lemma s1_kps : il_kps s1 = kps1. Proof. rewrite s1_eq. reflexivity. Qed.
Lemma s1_N : il_N s1 = N. Proof. rewrite s1_eq. reflexivity. Qed.
Lemma lenZ : length Z = S N. Proof. apply CZ. Qed.
Lemma len1 : length kps1 = S N.
Proof. unfold kps1. destruct (expand_all_nth n m ops Inv (il_kps s) Z) as [L _]; [rewrite lenZ, (lp_len _ _ _ _ _ LP); reflexivity|apply LP|]. rewrite L. apply LP. Qed.
(** knot point i after the expansion *)
Definition expanded (k : K) (z : KP RS) (k1 : K) : Prop := D (kp_cost k1) = D (kp_cost k) /\ kp_dyn k1 = kp_dyn k /\ Inv (kp_cost k1) /\
  (forall i j, (i < n)%nat -> (j < n)%nat -> sg_xx (stage_of k1) i j = qd_Q (D (kp_cost k)) i j) /\
  (forall i j, (i < n)%nat -> (j < m)%nat -> sg_xu (stage_of k1) i j = qd_H (D (kp_cost k)) i j) /\
  (forall i j, (i < m)%nat -> (j < m)%nat -> sg_uu (stage_of k1) i j = qd_R (D (kp_cost k)) i j) /\
  (forall i, (i < n)%nat -> sg_x (stage_of k1) i = app n (qd_Q (D (kp_cost k))) (z_x z) i + app m (qd_H (D (kp_cost k))) (z_u z) i + qd_q (D (kp_cost k)) i) /\
  (forall i, (i < m)%nat -> sg_u (stage_of k1) i = app n (fun i j => qd_H (D (kp_cost k)) j i) (z_x z) i + app m (qd_R (D (kp_cost k))) (z_u z) i + qd_r (D (kp_cost k)) i) /\
  (forall i j, (i < n)%nat -> (j < n + m)%nat -> kp_jac k1 i j = dy_jac (kp_dyn k) (z_x z) (z_u z) (z_t z) (z_h z) mzero i j).
Lemma nth1 i k1 : nth_error kps1 i = Some k1 -> exists k z, nth_error (il_kps s) i = Some k /\ nth_error Z i = Some z /\ expanded k z k1.
Proof.
  intros H. assert (Hi : (i < S N)%nat) by (rewrite <- len1; apply nth_error_Some; congruence).
  destruct (nth_error_ex (il_kps s) i) as [k Ek]; [rewrite (lp_len _ _ _ _ _ LP); exact Hi|]. destruct (nth_error_ex Z i) as [z Ez]; [rewrite lenZ; exact Hi|].
  exists k, z. split; [exact Ek|]. split; [exact Ez|]. destruct (expand_all_nth n m ops Inv (il_kps s) Z) as [_ X]; [rewrite lenZ, (lp_len _ _ _ _ _ LP); reflexivity|apply LP|].
  destruct (X i k z Ek Ez) as (J & k' & E & E'). fold kps1 in E'. rewrite H in E'. inversion E'; subst k'.
  assert (HI : Inv (kp_cost k)). { pose proof (lp_inv _ _ _ _ _ LP) as F. rewrite Forall_forall in F. apply F. eapply nth_error_In; eauto. }
  destruct (expand_kp_ok n m ops Inv D HQ k z J k1 HI E) as (A & B & C & _ & E1 & E2 & E3 & E4 & E5 & E6). repeat (split; [assumption|]). assumption.
Qed.
Lemma sym1 : sym_data n m s1.
Proof.
  split.
  - rewrite s1_kps, s1_N. apply Forall_forall. intros k1 Hin. apply In_nth_error in Hin. destruct Hin as [i Hi].
    assert (Hlt : (i < N)%nat). { assert (L : (i < length (firstn N kps1))%nat) by (apply nth_error_Some; congruence). rewrite firstn_length in L. lia. }
    assert (Hi' : nth_error kps1 i = Some k1). { rewrite <- (firstn_skipn N kps1). rewrite nth_error_app1; [exact Hi|]. apply nth_error_Some. congruence. }
    destruct (nth1 i k1 Hi') as (k & z & Ek & Ez & X). destruct (lp_seg _ _ _ _ _ LP i k Hlt Ek) as [_ (SQ & SR & _)]. destruct X as (_ & _ & _ & X1 & X2 & X3 & _).
    split; intros a b Ha Hb; [rewrite !X1 by auto; apply SQ; auto|rewrite !X3 by auto; apply SR; auto].
  - intros kN EN. rewrite s1_kps, s1_N in EN. destruct (nth1 N kN EN) as (k & z & Ek & Ez & X). destruct (lp_end _ _ _ _ _ LP k Ek) as [SQ _]. destruct X as (_ & _ & _ & X1 & _).
    intros a b Ha Hb. specialize (X1 a b Ha Hb) as Y1. specialize (X1 b a Hb Ha) as Y2. cbn in Y1, Y2. rewrite Y1, Y2. apply SQ; auto.
Qed.
Lemma in1 i k1 : nth_error (firstn N kps1) i = Some k1 -> (i < N)%nat /\ nth_error kps1 i = Some k1.
Proof.
  intros Hi. assert (L : (i < length (firstn N kps1))%nat) by (apply nth_error_Some; congruence). rewrite firstn_length in L. split; [lia|].
  rewrite <- (firstn_skipn N kps1). rewrite nth_error_app1; [exact Hi|]. apply nth_error_Some. congruence.
Qed.
Lemma quadcost_ext g g' dx du : (forall i j, (i < n)%nat -> (j < n)%nat -> sg_xx g i j = sg_xx g' i j) -> (forall i j, (i < n)%nat -> (j < m)%nat -> sg_xu g i j = sg_xu g' i j) ->
  (forall i j, (i < m)%nat -> (j < m)%nat -> sg_uu g i j = sg_uu g' i j) -> quadcost n m g dx du = quadcost n m g' dx du.
Proof. intros A B C. unfold quadcost. rewrite (form_ext n n _ dx dx (sg_xx g') dx dx), (form_ext n m _ dx du (sg_xu g') dx du), (form_ext m m _ du du (sg_uu g') du du); auto. Qed.
Lemma convex1 : Forall (fun k => convex_stage n m (stage_of k)) (firstn (il_N s1) (il_kps s1)).
Proof.
  rewrite s1_kps, s1_N. apply Forall_forall. intros k1 Hin. apply In_nth_error in Hin. destruct Hin as [i Hi]. destruct (in1 i k1 Hi) as [Hlt Hi'].
  destruct (nth1 i k1 Hi') as (k & z & Ek & Ez & X). destruct (lp_seg _ _ _ _ _ LP i k Hlt Ek) as [_ (SQ & SR & PR & CQ)]. destruct X as (_ & _ & _ & X1 & X2 & X3 & _).
  split.
  - intros dx du. specialize (CQ dx du). unfold quadcost. rewrite (form_ext n n _ dx dx (qd_Q (D (kp_cost k))) dx dx), (form_ext n m _ dx du (qd_H (D (kp_cost k))) dx du), (form_ext m m _ du du (qd_R (D (kp_cost k))) du du); auto.
  - intros w W. rewrite (form_ext m m _ w w (qd_R (D (kp_cost k))) w w) by auto. apply PR. exact W.
Qed.
Lemma semi1 : forall kN, nth_error (il_kps s1) (il_N s1) = Some kN -> possemi n (e_xx (kp_ce kN)).
Proof.
  intros kN EN. rewrite s1_kps, s1_N in EN. destruct (nth1 N kN EN) as (k & z & Ek & Ez & X). destruct (lp_end _ _ _ _ _ LP k Ek) as (SQ & PQ & _). destruct X as (_ & _ & _ & X1 & _).
  intros x. rewrite (form_ext n n _ x x (qd_Q (D (kp_cost k))) x x) by auto. apply PQ.
Qed.

(** a state after the backward pass *)
Context (k0 : K) (H0 : nth_error kps1 N = Some k0) (rho : RS).
Let w := bp_sweep n m rho (firstn N kps1) (e_xx (kp_ce k0)) (e_x (kp_ce k0)) 0 0.
Context (OK : sw_ok w = true).
Let kps2 := sw_kps w.
Let kN := kpf_terminal k0.
Context (s2 : ILQR) (K2 : il_kps s2 = kps2 ++ [kN]) (V0 : il_dV0 s2 = sw_v0 w) (V1 : il_dV1 s2 = sw_v1 w) (O2 : il_opts s2 = il_opts s) (X2 : il_x0 s2 = il_x0 s) (N2 : il_N s2 = N)
  (Z2 : il_Z s2 = Some Z) (Zb2 : il_Zb s2 = Some Zb) (C2 : il_costs s2 = fst (expand_all ops n m (il_kps s) Z)).
Lemma symF : Forall (fun k => sym_stage n m (stage_of k)) (firstn N kps1).
Proof. destruct sym1 as [A _]. rewrite s1_kps, s1_N in A. exact A. Qed.
Lemma symN : sym n (e_xx (kp_ce k0)).
Proof. destruct sym1 as [_ A]. rewrite s1_kps, s1_N in A. apply A. exact H0. Qed.
Lemma len2 : length kps2 = N.
Proof. unfold kps2, w. rewrite LqProofs2.sweep_len. apply firstn_length_le. rewrite len1. lia. Qed.
Lemma nth2 i k2 : nth_error kps2 i = Some k2 -> exists k z k1, (i < N)%nat /\ nth_error (il_kps s) i = Some k /\ nth_error Z i = Some z /\ expanded k z k1 /\
  kp_cost k2 = kp_cost k1 /\ kp_dyn k2 = kp_dyn k1 /\ stage_of k2 = stage_of k1.
Proof.
  intros H. assert (Hi : (i < N)%nat) by (rewrite <- len2; apply nth_error_Some; congruence).
  destruct (nth_error_ex (firstn N kps1) i) as [k1 E1]; [rewrite firstn_length_le; [exact Hi|rewrite len1; lia]|]. destruct (in1 i k1 E1) as [_ E1'].
  destruct (nth1 i k1 E1') as (k & z & Ek & Ez & X). exists k, z, k1. repeat (split; [assumption|]).
  pose proof (nth_map_eq _ _ _ i k2 k1 (sweep_keeps rho (firstn N kps1) (e_xx (kp_ce k0)) (e_x (kp_ce k0)) 0 0) H E1) as E. inversion E.
  pose proof (nth_map_eq _ _ _ i k2 k1 (sweep_stages n m rho (firstn N kps1) (e_xx (kp_ce k0)) (e_x (kp_ce k0)) 0 0) H E1). auto.
Qed.
Lemma nthN : exists k z, nth_error (il_kps s) N = Some k /\ nth_error Z N = Some z /\ expanded k z k0.
Proof. exact (nth1 N k0 H0). Qed.
Lemma same2 : map (fun k => (D (kp_cost k), kp_dyn k)) (il_kps s2) = map (fun k => (D (kp_cost k), kp_dyn k)) (il_kps s).
Proof.
  assert (L : length (il_kps s2) = length (il_kps s)) by (rewrite K2, app_length, len2, (lp_len _ _ _ _ _ LP); cbn; lia).
  apply list_eq_nth; [rewrite !map_length; exact L|]. intros i a b Ha Hb. rewrite nth_error_map in Ha, Hb.
  destruct (nth_error (il_kps s2) i) as [k2|] eqn:E2; [|discriminate]. destruct (nth_error (il_kps s) i) as [k|] eqn:E; [|discriminate]. cbn in Ha, Hb. inversion Ha; inversion Hb; subst a b.
  rewrite K2 in E2. destruct (Nat.lt_ge_cases i N) as [Hi|Hi].
  - rewrite nth_error_app1 in E2 by (rewrite len2; exact Hi). destruct (nth2 i k2 E2) as (k' & z & k1 & _ & Ek & Ez & X & A & B & _). destruct X as (X1 & X3 & _). rewrite A, B, X1, X3. congruence.
  - assert (i = N). { assert (L' : (i < length (kps2 ++ [kN]))%nat) by (apply nth_error_Some; congruence). rewrite app_length, len2 in L'. cbn in L'. lia. } subst i.
    rewrite nth_error_app2 in E2 by (rewrite len2; lia). rewrite len2, Nat.sub_diag in E2. cbn in E2. inversion E2; subst k2. destruct nthN as (k' & z & Ek & Ez & X). destruct X as (X1 & X3 & _). change (kp_cost kN) with (kp_cost k0). change (kp_dyn kN) with (kp_dyn k0). rewrite X1, X3. congruence.
Qed.
Lemma dyns2 : map kp_dyn (il_kps s2) = map kp_dyn (il_kps s).
Proof. pose proof same2 as E. apply (f_equal (map snd)) in E. rewrite !map_map in E. exact E. Qed.
Lemma total2 Y : total_cost (fun c => qv c) s2 Y = lq_cost n m D s Y.
Proof.
  rewrite lq_cost_total. unfold total_cost. f_equal. pose proof same2 as E. apply (f_equal (map (fun p => quad_val n m (fst p)))) in E. rewrite !map_map in E. exact E.
Qed.
Lemma inv2 : inv_kps Inv (il_kps s2).
Proof.
  unfold inv_kps. rewrite K2. apply Forall_app. split.
  - apply Forall_forall. intros k2 Hin. apply In_nth_error in Hin. destruct Hin as [i Hi]. destruct (nth2 i k2 Hi) as (k & z & k1 & _ & _ & _ & X & A & _). rewrite A. apply X.
  - constructor; [|constructor]. destruct nthN as (k & z & _ & _ & X). apply X.
Qed.
(** ** candidates *)
Definition compatible (Y : Traj RS) : Prop := same_steps N Z Y /\ dyn_feasible n (il_x0 s) (map kp_dyn (il_kps s)) Y.
Lemma dyn_diff Y i k2 z y z' y' : compatible Y -> nth_error kps2 i = Some k2 -> nth_error Z i = Some z -> nth_error Y i = Some y -> nth_error Z (S i) = Some z' -> nth_error Y (S i) = Some y' ->
  forall j, (j < n)%nat -> z_x y' j - z_x z' j = next n m (stage_of k2) (fun j => z_x y j - z_x z j) (fun j => z_u y j - z_u z j) j.
Proof.
  intros [GY FY] Hk Hz Hy Hz' Hy' j Hj. destruct (nth2 i k2 Hk) as (k & z1 & k1 & Hi & Ek & Ez & X & A & B & ST). rewrite Hz in Ez. inversion Ez; subst z1.
  destruct (lp_seg _ _ _ _ _ LP i k Hi Ek) as [(MA & MB & mc & AF) _].
  destruct CZ as (_ & _ & FZ). assert (Ed : nth_error (map kp_dyn (il_kps s)) i = Some (kp_dyn k)) by (apply map_nth_error; exact Ek).
  destruct (proj2 FZ i _ z z' Ed Hz Hz') as [b1 F1]. destruct (proj2 FY i _ y y' Ed Hy Hy') as [b2 F2]. destruct (GY i z y Hi Hz Hy) as [T H].
  rewrite F1, F2 by auto. rewrite T, H. destruct (AF (z_x z) (z_u z) (z_t z) (z_h z)) as (E1 & J1 & J2). destruct (AF (z_x y) (z_u y) (z_t z) (z_h z)) as (E2 & _ & _). rewrite E1, E2 by auto.
  rewrite ST. destruct X as (_ & _ & _ & _ & _ & _ & _ & _ & XJ). unfold next. cbn [LqProofs.stage_of sg_A sg_B].
  rewrite (app_ext n (kp_jac k1) _ (MA (z_t z) (z_h z)) (fun j => z_x y j - z_x z j) j) by (auto; intros; rewrite XJ by lia; apply J1; auto).
  rewrite (app_ext m (fun i j => kp_jac k1 i (n + j)%nat) _ (MB (z_t z) (z_h z)) (fun j => z_u y j - z_u z j) j) by (auto; intros; rewrite XJ by lia; apply J2; auto).
  rewrite (app_ext n (MA _ _) (z_x y) (MA (z_t z) (z_h z)) (fun j => z_x z j + (z_x y j - z_x z j)) j) by (auto; intros; lra).
  rewrite (app_ext m (MB _ _) (z_u y) (MB (z_t z) (z_h z)) (fun j => z_u z j + (z_u y j - z_u z j)) j) by (auto; intros; lra).
  rewrite !app_add. lra.
Qed.
Lemma start_same Y z y : compatible Y -> nth_error Z 0 = Some z -> nth_error Y 0 = Some y -> forall j, (j < n)%nat -> z_x y j - z_x z j = 0.
Proof. intros [_ FY] Hz Hy j Hj. destruct CZ as (_ & _ & FZ). rewrite (proj1 FY y j Hy Hj), (proj1 FZ z j Hz Hj). lra. Qed.
Lemma cost_diff Y : compatible Y -> length Y = S N -> exists z0 y0, nth_error Z 0 = Some z0 /\ nth_error Y 0 = Some y0 /\
  lq_cost n m D s Y - lq_cost n m D s Z = model_cost n m (map stage_of kps2) (e_x (kp_ce k0)) (e_xx (kp_ce k0)) (fun j => z_x y0 j - z_x z0 j) (diff_u Z (firstn N Y)).
Proof.
  intros CY LY. destruct (nth_error_ex Z 0) as [z0 E0]; [rewrite lenZ; lia|]. destruct (nth_error_ex Y 0) as [y0 F0]; [lia|]. exists z0, y0. split; [exact E0|]. split; [exact F0|].
  rewrite <- !total2. unfold total_cost. rewrite K2. change (e_x (kp_ce k0)) with (e_x (kp_ce kN)). change (e_xx (kp_ce k0)) with (e_xx (kp_ce kN)). rewrite <- len2.
  apply (diff_cost n m D kps2 kN Z Y z0 y0); auto; try (rewrite len2; auto using lenZ).
  - intros i k2 z y Hk Hz Hy. destruct (nth2 i k2 Hk) as (k & z1 & k1 & Hi & Ek & Ez & X & A & B & ST). rewrite Hz in Ez. inversion Ez; subst z1.
    destruct (lp_seg _ _ _ _ _ LP i k Hi Ek) as [_ (SQ & SR & _)]. destruct X as (XD & _ & _ & H1 & H2 & H3 & H4 & H5 & _). rewrite A, XD, ST. apply quad_exact; auto.
  - intros z y Hz Hy. destruct nthN as (k & z1 & Ek & Ez & X). rewrite Hz in Ez. inversion Ez; subst z1. destruct (lp_end _ _ _ _ _ LP k Ek) as (SQ & _ & ZU). destruct X as (XD & _ & _ & H1 & H2 & H3 & H4 & H5 & _).
    change (kp_cost kN) with (kp_cost k0). rewrite XD. rewrite (quad_exact n m (D (kp_cost k)) (z_x y) (z_u y) (stage_of k0) (z_x z) (z_u z)); auto.
    + unfold stage_cost, lincost, quadcost, quadratic. cbn [kN kpf_terminal kp_ce].
      rewrite (form_ext n m (sg_xu (stage_of k0)) _ _ (fun _ _ => 0) (fun j => z_x y j - z_x z j) (fun j => z_u y j - z_u z j)) by (auto; intros; rewrite H2 by auto; apply ZU; auto).
      rewrite (form_ext m m (sg_uu (stage_of k0)) _ _ (fun _ _ => 0) (fun j => z_u y j - z_u z j) (fun j => z_u y j - z_u z j)) by (auto; intros; rewrite H3 by auto; apply ZU; auto).
      assert (F0' : forall r c x u, form r c (fun _ _ => 0) x u = 0). { intros. rewrite form_app. rewrite (inner_ext r x _ x (fun _ => 0)); auto using inner_zero_r. intros. rewrite app_r. apply rsum_zero'. intros; lra. }
      rewrite !F0'. rewrite (inner_ext m (sg_u (stage_of k0)) (fun j => z_u y j - z_u z j) (fun _ => 0) (fun j => z_u y j - z_u z j)).
      * rewrite inner_zero_l. cbn [LqProofs.stage_of sg_x sg_xx]. lra.
      * intros i Hi. rewrite H5 by auto. destruct (ZU i i Hi) as (_ & _ & Zr). rewrite Zr. rewrite !app_r. rewrite !rsum_zero'; [lra| |]; intros j Hj.
        -- destruct (ZU i j Hj) as (_ & E & _). rewrite E. lra.
        -- destruct (ZU j i Hi) as (E & _ & _). rewrite E. lra.
      * auto.
    + intros a b Ha Hb. destruct (ZU a b Hb) as (_ & E & _). destruct (ZU b a Ha) as (_ & E' & _). rewrite E, E'. reflexivity.
  - intros i k2 z y z' y'. apply dyn_diff. exact CY.
Qed.
Lemma stages2 : map stage_of kps2 = map stage_of (firstn N kps1).
Proof. apply sweep_stages. Qed.
Lemma quadratic0 sv Sv dx : (forall j, (j < n)%nat -> dx j = 0) -> quadratic n sv Sv dx = 0.
Proof. intros H. rewrite (quadratic_ext n sv Sv dx (fun _ => 0)) by auto. unfold quadratic. rewrite inner_zero_r, form_zero_r. lra. Qed.
(** without regularisation no candidate is cheaper than the prediction for the full step *)
Context (RZ : rho = 0).
Lemma w0 : bp_sweep n m (0 : RS) (firstn N kps1) (e_xx (kp_ce k0)) (e_x (kp_ce k0)) 0 0 = w.
Proof. unfold w. rewrite RZ. reflexivity. Qed.
Lemma bound Y : candidate n s Z Y -> lq_cost n m D s Z + sw_v0 w + sw_v1 w <= lq_cost n m D s Y.
Proof.
  intros (LY & GY & FY). destruct (cost_diff Y (conj GY FY) LY) as (z0 & y0 & E0 & F0 & E). rewrite stages2 in E.
  pose proof (sweep_best n m (firstn N kps1) (e_xx (kp_ce k0)) (e_x (kp_ce k0)) 0 0 symF symN) as B. cbv zeta in B. rewrite w0 in B. specialize (B OK (diff_u Z (firstn N Y)) (fun j => z_x y0 j - z_x z0 j)).
  rewrite quadratic0 in B by (intros; apply (start_same Y z0 y0); auto; split; auto).
  assert (L : length (diff_u Z (firstn N Y)) = length (firstn N kps1)). { unfold diff_u. rewrite map_length, combine_length, !firstn_length, len1, lenZ. fold N in LY. lia. }
  specialize (B L). lra.
Qed.
(** the full step realises the prediction *)
Lemma times_steps ts Y : times Y = firstn (length Y) ts -> ts = times Zb -> (length Y <= S N)%nat -> same_steps N Z Y.
Proof.
  intros E -> LY k z y Hk Hz Hy. destruct (nth_error_ex Zb k) as [zb Eb]; [rewrite LZb; fold N; lia|].
  assert (T : nth_error (times Y) k = nth_error (times Zb) k).
  { rewrite E. rewrite <- (firstn_skipn (length Y) (times Zb)) at 2. rewrite nth_error_app1; [reflexivity|]. rewrite firstn_length. unfold times. rewrite map_length, LZb. fold N. assert (k < length Y)%nat by (apply nth_error_Some; congruence). lia. }
  unfold times in T. rewrite !nth_error_map, Hy, Eb in T. cbn in T. inversion T. destruct (GZb k z zb Hk Hz Eb). split; congruence.
Qed.
Lemma sim_compatible a Y : simulates n m s2 (times Zb) Z a Y -> (length Y <= S N)%nat -> compatible Y.
Proof. intros [T F _] LY. split; [eapply times_steps; eauto|]. rewrite X2, dyns2 in F. exact F. Qed.
Lemma law2 a Y : obeys_law n m a (il_kps s2) Z Y -> obeys_law n m a kps2 Z Y.
Proof. rewrite K2. intros H k kp z z' z'' E. apply H. rewrite nth_error_app1; [exact E|]. apply nth_error_Some. congruence. Qed.
Lemma sim_cost a Y : simulates n m s2 (times Zb) Z a Y -> length Y = S N -> lq_cost n m D s Y = lq_cost n m D s Z + a * sw_v0 w + a * a * sw_v1 w.
Proof.
  intros SI LY. pose proof (sim_compatible a Y SI ltac:(lia)) as CY. destruct (cost_diff Y CY LY) as (z0 & y0 & E0 & F0 & E).
  pose proof (sim_policy n m a kps2 Z Y z0 y0 (fun j => z_x y0 j - z_x z0 j) E0 F0 (fun _ _ => eq_refl) ltac:(rewrite len2; apply lenZ) ltac:(rewrite len2; exact LY) (law2 a Y (sim_law _ _ _ _ _ _ _ SI)) (fun i k2 z y z' y' => dyn_diff Y i k2 z y z' y' CY)) as P. rewrite len2 in P.
  rewrite (model_ext n m (map stage_of kps2) _ _ _ (fun j => z_x y0 j - z_x z0 j) _ _ (fun _ _ => eq_refl) P) in E. rewrite stages2 in E.
  pose proof (sweep_alpha n m (firstn N kps1) (e_xx (kp_ce k0)) (e_x (kp_ce k0)) 0 0 symF symN) as A. cbv zeta in A. rewrite w0 in A. fold kps2 in A. rewrite (A OK a) in E.
  rewrite quadratic0 in E by (intros; apply (start_same Y z0 y0); auto). lra.
Qed.
(** two simulations agree *)
Lemma sim_unique a P Y : simulates n m s2 (times Zb) Z a P -> simulates n m s2 (times Zb) Z a Y -> (length P <= S N)%nat -> length Y = S N -> forall i p y, nth_error P i = Some p -> nth_error Y i = Some y ->
  (forall j, (j < n)%nat -> z_x p j = z_x y j) /\ (forall p', nth_error P (S i) = Some p' -> forall j, (j < m)%nat -> z_u p j = z_u y j).
Proof.
  intros SP SY LP' LY. pose proof (sim_compatible a P SP LP') as CP. pose proof (sim_compatible a Y SY ltac:(lia)) as CY.
  assert (U : forall i p y, nth_error P i = Some p -> nth_error Y i = Some y -> (forall j, (j < n)%nat -> z_x p j = z_x y j) -> forall p', nth_error P (S i) = Some p' -> forall j, (j < m)%nat -> z_u p j = z_u y j).
  { intros i p y Hp Hy EX p' Hp' j Hj. assert (Hi : (S i < length P)%nat) by (apply nth_error_Some; congruence).
    destruct (nth_error_ex (il_kps s2) i) as [kp Ek]; [rewrite K2, app_length, len2; cbn; lia|]. destruct (nth_error_ex Z i) as [z Ez]; [rewrite lenZ; lia|]. destruct (nth_error_ex Y (S i)) as [y' Hy']; [lia|].
    rewrite (sim_law _ _ _ _ _ _ _ SP i kp z p p' Ek Ez Hp Hp' j Hj), (sim_law _ _ _ _ _ _ _ SY i kp z y y' Ek Ez Hy Hy' j Hj). f_equal. f_equal. apply dot_ext; auto. intros l Hl. rs. rewrite EX by auto. reflexivity. }
  induction i as [|i IH]; intros p y Hp Hy.
  - assert (EX : forall j, (j < n)%nat -> z_x p j = z_x y j) by (intros j Hj; rewrite (proj1 (proj2 CP) p j Hp Hj), (proj1 (proj2 CY) y j Hy Hj); reflexivity). split; [exact EX|]. intros p' Hp'. eapply U; eauto.
  - assert (Hi : (S i < length P)%nat) by (apply nth_error_Some; congruence).
    destruct (nth_error_ex P i) as [p0 Hp0]; [lia|]. destruct (nth_error_ex Y i) as [y0 Hy0]; [lia|]. destruct (IH p0 y0 Hp0 Hy0) as [EX EU]. specialize (EU p Hp).
    destruct (nth_error_ex kps2 i) as [k2 Ek2]; [rewrite len2; lia|]. destruct (nth_error_ex Z i) as [z Ez]; [rewrite lenZ; lia|]. destruct (nth_error_ex Z (S i)) as [z' Ez']; [rewrite lenZ; lia|].
    assert (EX' : forall j, (j < n)%nat -> z_x p j = z_x y j).
    { intros j Hj. pose proof (dyn_diff P i k2 z p0 z' p CP Ek2 Ez Hp0 Ez' Hp j Hj) as A. pose proof (dyn_diff Y i k2 z y0 z' y CY Ek2 Ez Hy0 Ez' Hy j Hj) as B.
      assert (E : next n m (stage_of k2) (fun j => z_x p0 j - z_x z j) (fun j => z_u p0 j - z_u z j) j = next n m (stage_of k2) (fun j => z_x y0 j - z_x z j) (fun j => z_u y0 j - z_u z j) j)
        by (unfold next; f_equal; apply app_ext; auto; intros l Hl; [rewrite EX by auto|rewrite EU by auto]; reflexivity). rs. lra. }
    split; [exact EX'|]. intros p' Hp'. eapply U; eauto.
Qed.
Lemma sim_exists a : exists Y, simulates n m s2 (times Zb) Z a Y /\ length Y = S N.
Proof.
  clear RZ V0 V1. set (o := mkOpts 0 0 0 0 0 0 0 0 0 0 false 0 0 0 0 0 0 0 0 0 false 0 0 0 0 : Opts RS).
  assert (HN : forall (kps : list K) x Zc Zbc, fst (roll_closed n m o a x kps Zc Zbc) = None).
  { induction kps as [|k kps IH]; intros x [|z Zc] [|zb [|zb' Zbc]]; try reflexivity. cbn [roll_closed]. change (o_check_bounds o) with false. cbn [andb]. set (xn := kpf_dynamics n k x _ _ _ _). specialize (IH xn Zc (zb' :: Zbc)). destruct (roll_closed n m o a xn kps Zc (zb' :: Zbc)). cbn in IH. subst. reflexivity. }
  pose proof (HN (il_kps s2) (vstore n (il_x0 s2)) Z Zb) as H. pose proof (roll_closed_len n m o a (il_kps s2) (vstore n (il_x0 s2)) Z Zb) as [L T].
  destruct (roll_closed n m o a (vstore n (il_x0 s2)) (il_kps s2) Z Zb) as [e Y] eqn:E. cbn in H, L, T. subst e. exists Y.
  assert (LK : length (il_kps s2) = S N) by (rewrite K2, app_length, len2; cbn; lia).
  destruct (roll_closed_spec n m o a (il_kps s2) (vstore n (il_x0 s2)) Z Zb Y ltac:(rewrite LZb, LK; fold N; lia) ltac:(rewrite LZb, lenZ; reflexivity) E) as (H1 & H2 & _).
  split; [|rewrite L; exact LZb]. split.
  - transitivity (times Zb); [exact T|]. rewrite L. assert (LT : length (times Zb) = length Zb) by apply map_length. rewrite <- LT. symmetry. apply firstn_all.
  - apply follows_feasible; [exact H1|exact H2].
  - exact (roll_closed_law n m o a (il_kps s2) (vstore n (il_x0 s2)) Z Zb Y E ltac:(rewrite LZb, LK; fold N; lia) ltac:(rewrite LZb, lenZ; reflexivity)).
Qed.
Lemma sim_candidate a Y : simulates n m s2 (times Zb) Z a Y -> length Y = S N -> candidate n s Z Y.
Proof. intros SI LY. destruct (sim_compatible a Y SI ltac:(lia)) as [A B]. split; [exact LY|]. split; [exact A|exact B]. Qed.
Lemma sim_best Y : simulates n m s2 (times Zb) Z 1 Y -> length Y = S N -> best n m D s Z Y.
Proof. intros SI LY. split; [eapply sim_candidate; eauto|]. intros Y' C'. rewrite (sim_cost 1 Y SI LY). pose proof (bound Y' C'). lra. Qed.
Lemma J0_eq : lsum (il_costs s2) = lq_cost n m D s Z.
Proof. rewrite C2. rewrite (expand_all_val ops n m Inv (fun c => qv c) (faithful n m ops Inv D HQ) (il_kps s) Z (lp_inv _ _ _ _ _ LP)). rewrite lq_cost_total. reflexivity. Qed.
Lemma drop_nonneg : 0 <= - (sw_v0 w + sw_v1 w).
Proof.
  destruct (sweep_descent n m 0 (firstn N kps1) (e_xx (kp_ce k0)) (e_x (kp_ce k0)) 0 0 symF symN (Rle_refl 0) 1 ltac:(lra)) as [A _]. cbv zeta in A. change (bp_sweep n m 0 (firstn N kps1) (e_xx (kp_ce k0)) (e_x (kp_ce k0)) 0 0) with (bp_sweep n m (0 : RS) (firstn N kps1) (e_xx (kp_ce k0)) (e_x (kp_ce k0)) 0 0) in A. rewrite w0 in A. lra.
Qed.
Theorem forward_lq : o_ls_lb (il_opts s) <= 1 <= o_ls_ub (il_opts s) -> (1 <= o_ls_iters (il_opts s))%Z ->
  (o_check_bounds (il_opts s) = true -> forall Y, best n m D s Z Y -> within_limits n m (il_opts s) Y) ->
  exists Z', il_Z (il_forward_pass ops n m Z s2) = Some Z' /\ best n m D s Z Z' /\ (Z' = Z \/ (simulates n m s2 (times Zb) Z 1 Z' /\ lq_cost n m D s Z' < lq_cost n m D s Z)).
Proof.
  intros HLB HIT HLIM. assert (LK : length (il_kps s2) = S (il_N s2)) by (rewrite K2, app_length, len2, N2; cbn; lia).
  pose proof (forward_search ops n m Inv (fun c => qv c) (faithful n m ops Inv D HQ) Z s2 Zb Z2 Zb2 LK ltac:(rewrite N2; apply lenZ) ltac:(rewrite N2; exact LZb) inv2) as FS. cbv zeta in FS. rewrite O2, J0_eq, V0, V1 in FS.
  set (J0 := lq_cost n m D s Z) in *. pose proof drop_nonneg as DN.
  destruct (Rle_lt_or_eq_dec _ _ DN) as [PD|ZD].
  - (* positive expected decrease: the full step is accepted *)
    assert (NT : ~ turned_down n m (fun c => qv c) s2 (times Zb) Z J0 1).
    { intros [(Y & SY & LY & NA)|(CB & P & p & p' & SP & LP' & LIM)].
      - rewrite lenZ in LY. apply (NA 1). rewrite total2, V0, V1, O2. pose proof (sim_cost 1 Y SY LY) as E. fold J0 in E. unfold acceptable. rs.
        assert (EE : - (1) * (sw_v0 w + 1 * sw_v1 w) = - (sw_v0 w + sw_v1 w)) by lra. rewrite EE.
        split; [intros _; rewrite E; field; lra|]. split; [intros H; apply Rltb_false in H; lra|].
        split; [apply Rleb_true; lra|]. split; [apply Rleb_true; lra|]. apply Rltb_true. rewrite E. lra.
      - rewrite O2 in CB, LIM. rewrite lenZ in LP'. destruct (sim_exists 1) as (Y & SY & LY). pose proof (HLIM CB Y (sim_best Y SY LY)) as WL.
        pose proof (sim_unique 1 _ _ SP SY LP' LY) as UQ. set (i := length P) in *.
        assert (Ep : nth_error (P ++ [p; p']) i = Some p) by (rewrite nth_error_app2 by (unfold i; lia); unfold i; rewrite Nat.sub_diag; reflexivity).
        assert (Ep' : nth_error (P ++ [p; p']) (S i) = Some p') by (rewrite nth_error_app2 by (unfold i; lia); unfold i; replace (S (length P) - length P)%nat with 1%nat by lia; reflexivity).
        assert (LL : length (P ++ [p; p']) = S (S i)) by (rewrite app_length; cbn; unfold i; lia). rewrite LL in LP'.
        destruct (nth_error_ex Y i) as [y Ey]; [lia|]. destruct (nth_error_ex Y (S i)) as [y' Ey']; [lia|].
        destruct (WL i y y' Ey Ey') as [W1 W2]. destruct (UQ i p y Ep Ey) as [_ EU]. destruct (UQ (S i) p' y' Ep' Ey') as [EX _]. specialize (EU p' Ep').
        assert (NX : norm n (z_x p') = norm n (z_x y')) by (unfold norm, sqnorm; f_equal; apply dot_ext; auto).
        assert (NU : norm m (z_u p) = norm m (z_u y)) by (unfold norm, sqnorm; f_equal; apply dot_ext; auto).
        rewrite NX, NU in LIM. destruct LIM as [L1|L1]; congruence. }
    assert (IT : (0 < Z.to_nat (o_ls_iters (il_opts s)))%nat) by lia.
    destruct FS as [(_ & _ & TD)|(k & Z' & z & Hk & TD & EZ & SI & LZ' & AC & _)]; [exfalso; apply NT; exact (TD 0%nat IT)|].
    destruct k as [|k]; [|exfalso; apply NT; apply (TD 0%nat); lia]. cbn [step_size] in SI. change (@one RS) with 1 in SI.
    assert (LY : length Z' = S N) by (rewrite LZ'; apply lenZ). exists Z'. split; [exact EZ|]. split; [apply sim_best; auto|]. right. split; [exact SI|]. rewrite (sim_cost 1 Z' SI LY). fold J0. lra.
  - (* already optimal *)
    assert (BZ : best n m D s Z Z) by (split; [exact CZ|]; intros Y' C'; pose proof (bound Y' C'); fold J0 in H |- *; lra).
    destruct FS as [(EZ & _)|(k & Z' & z & Hk & TD & EZ & SI & LZ' & AC & _)]; [exists Z; auto|]. exfalso.
    assert (LY : length Z' = S N) by (rewrite LZ'; apply lenZ). destruct AC as (_ & _ & _ & _ & AC). apply Rltb_true in AC. rewrite total2 in AC. pose proof (proj2 BZ Z' (sim_candidate _ Z' SI LY)). fold J0 in H. lra.
Qed.
(** ** at an optimum, with any regularisation: no feedforward gain is left, and every simulation is the trajectory itself *)
Lemma opt_still : 0 <= rho -> best n m D s Z Z -> Forall (fun k => forall i, (i < m)%nat -> kp_d k i = 0) kps2.
Proof.
  clear RZ V0 V1. intros R0' [_ BZ]. destruct (sim_exists 1) as (Y & SI & LY). pose proof (sim_compatible 1 Y SI ltac:(lia)) as CY. destruct (cost_diff Y CY LY) as (z0 & y0 & E0 & F0 & E).
  pose proof (sim_policy n m 1 kps2 Z Y z0 y0 (fun j => z_x y0 j - z_x z0 j) E0 F0 (fun _ _ => eq_refl) ltac:(rewrite len2; apply lenZ) ltac:(rewrite len2; exact LY) (law2 1 Y (sim_law _ _ _ _ _ _ _ SI)) (fun i k2 z y z' y' => dyn_diff Y i k2 z y z' y' CY)) as P. rewrite len2 in P.
  rewrite (model_ext n m (map stage_of kps2) _ _ _ (fun j => z_x y0 j - z_x z0 j) _ _ (fun _ _ => eq_refl) P) in E. rewrite stages2 in E.
  pose proof (sweep_front n m rho (firstn N kps1) (e_xx (kp_ce k0)) (e_x (kp_ce k0)) 0 0 symF symN OK (fun j => z_x y0 j - z_x z0 j)) as A. fold w in A. fold kps2 in A. rewrite A in E.
  rewrite quadratic0 in E by (intros; apply (start_same Y z0 y0); auto).
  destruct (sweep_total n m rho (firstn N kps1) (e_xx (kp_ce k0)) (e_x (kp_ce k0)) 0 0 OK) as [T0 T1]. fold w in T0, T1. fold kps2 in T0, T1.
  assert (TS : forall l : list K, fold_right (fun (k : K) a => kp_dv0 k + kp_dv1 k + a) 0 l = fold_right (fun (k : K) a => kp_dv0 k + a) 0 l + fold_right (fun (k : K) a => kp_dv1 k + a) 0 l)
    by (induction l as [|k l IH]; cbn [fold_right]; [lra|]; rs; rewrite IH; lra).
  rewrite TS in E. pose proof (BZ Y (sim_candidate 1 Y SI LY)) as B.
  destruct (sweep_descent n m rho (firstn N kps1) (e_xx (kp_ce k0)) (e_x (kp_ce k0)) 0 0 symF symN R0' 1 ltac:(lra)) as [D1 D2]. fold w in D1, D2. apply (D2 OK). rs. rewrite T0, T1 in D1 |- *. lra.
Qed.
Lemma opt_sim a Y : Forall (fun k => forall i, (i < m)%nat -> kp_d k i = 0) kps2 -> simulates n m s2 (times Zb) Z a Y -> (length Y <= S N)%nat -> forall i z y, nth_error Z i = Some z -> nth_error Y i = Some y ->
  (forall j, (j < n)%nat -> z_x y j = z_x z j) /\ (forall y', nth_error Y (S i) = Some y' -> forall j, (j < m)%nat -> z_u y j = z_u z j).
Proof.
  intros D0 SY LY. pose proof (sim_compatible a Y SY LY) as CY.
  assert (U : forall i z y, nth_error Z i = Some z -> nth_error Y i = Some y -> (forall j, (j < n)%nat -> z_x y j = z_x z j) -> forall y', nth_error Y (S i) = Some y' -> forall j, (j < m)%nat -> z_u y j = z_u z j).
  { intros i z y Hz Hy EX y' Hy' j Hj. assert (Hi : (S i < length Y)%nat) by (apply nth_error_Some; congruence).
    destruct (nth_error_ex kps2 i) as [kp Ek]; [rewrite len2; lia|].
    rewrite (law2 a Y (sim_law _ _ _ _ _ _ _ SY) i kp z y y' Ek Hz Hy Hy' j Hj). rewrite Forall_forall in D0. rewrite (D0 kp (nth_error_In _ _ Ek) j Hj).
    rewrite (dot_ext n _ _ (kp_K kp j) (fun _ => 0)); [|auto|intros l Hl; rs; rewrite EX by auto; lra].
    unfold dot. rewrite rsum_zero' by (intros; rs; lra). rs. lra. }
  induction i as [|i IH]; intros z y Hz Hy.
  - assert (EX : forall j, (j < n)%nat -> z_x y j = z_x z j) by (intros j Hj; pose proof (start_same Y z y CY Hz Hy j Hj); lra). split; [exact EX|]. intros y' Hy'. eapply U; eauto.
  - assert (Hi : (S i < length Y)%nat) by (apply nth_error_Some; congruence).
    destruct (nth_error_ex Z i) as [z0 Hz0]; [rewrite lenZ; lia|]. destruct (nth_error_ex Y i) as [y0 Hy0]; [lia|]. destruct (IH z0 y0 Hz0 Hy0) as [EX EU]. specialize (EU y Hy).
    destruct (nth_error_ex kps2 i) as [k2 Ek2]; [rewrite len2; lia|].
    assert (EX' : forall j, (j < n)%nat -> z_x y j = z_x z j).
    { intros j Hj. pose proof (dyn_diff Y i k2 z0 y0 z y CY Ek2 Hz0 Hy0 Hz Hy j Hj) as A. unfold next in A.
      rewrite (app_ext n _ _ (sg_A (stage_of k2)) (fun _ => 0) j), (app_ext m _ _ (sg_B (stage_of k2)) (fun _ => 0) j) in A; auto; try (intros l Hl; rewrite ?EX, ?EU by auto; lra).
      rewrite !app_zero in A. lra. }
    split; [exact EX'|]. intros y' Hy'. eapply U; eauto.
Qed.
End Step.
End S.
