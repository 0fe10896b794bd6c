(** Nonlinear problems: a solver object after expansions and backward pass, and families of trajectories around its trajectory. *)
From Coq Require Import Reals Lra Lia List Bool ZArith Psatz Arith.
From Coquelicot Require Import Coquelicot.
Import List ListNotations.
From Verif Require Import Base Lin LogModel StatsModel TrajModel IlqrModel IlqrSpec IlqrFrame IlqrProofs IlqrProofs2 IlqrProofs4 IlqrProofs5 IlqrProofs7 LsSpec RLin RDer LqSpec LltProofs DynProofs LqProofs LqProofs2 LqProofs3 LqProbSpec LqProofs4 LqProofs5 NlSpec NlProofs NlProofs2.
Local Open Scope R_scope.

Section Calc.
Context (n m : nat).
Lemma slopes_ext g gx gu gx' gu' x u : (forall i, (i < n)%nat -> gx i = gx' i) -> (forall i, (i < m)%nat -> gu i = gu' i) -> slopes n m g gx gu x u -> slopes n m g gx' gu' x u.
Proof.
  intros A B H X U dx du PX PU. rewrite <- (inner_ext n gx dx gx' dx), <- (inner_ext m gu du gu' du) by auto. apply H; assumption.
Qed.
Lemma passes_ext c p x x' dx dx' : (forall i, (i < p)%nat -> x i = x' i) -> (forall i, (i < p)%nat -> dx i = dx' i) -> passes c p x dx -> passes c p x' dx'.
Proof. intros A B [H1 H2]. split; intros i Hi; [rewrite H1, A; auto|rewrite <- B by auto; apply H2; auto]. Qed.
End Calc.

Section S.
Context {CS : Type} (n m : nat) (ops : CostOps RS CS) (Inv : CS -> Prop) (V : CS -> vec RS -> vec RS -> R) (HC : smooth_costs n m ops Inv V).
Notation K := (KPF RS CS).
Notation stage_of := (@stage_of CS n).
Notation ILQR := (ILQR RS CS).
(** what the expansion of a knot point stores *)
Definition expanded (k : K) (z : KP RS) (k1 : K) : Prop := V (kp_cost k1) = V (kp_cost k) /\ kp_dyn k1 = kp_dyn k /\ Inv (kp_cost k1) /\
  slopes n m (V (kp_cost k)) (e_x (kp_ce k1)) (e_u (kp_ce k1)) (z_x z) (z_u z) /\ sym n (e_xx (kp_ce k1)) /\ sym m (e_uu (kp_ce k1)) /\
  (forall i j, (i < n)%nat -> (j < n + m)%nat -> kp_jac k1 i j = dy_jac (kp_dyn k) (z_x z) (z_u z) (z_t z) (z_h z) mzero i j).
Lemma expand_smooth (k : K) z J k' : Inv (kp_cost k) -> expand_kp ops n m z k = (J, k') -> expanded k z k'.
Proof.
  intros HI E. unfold expand_kp, kpf_cost, kpf_dyn_expansion, kpf_cost_expansion in E. pose proof (sc_faithful _ _ _ _ _ HC) as FC.
  pose proof (sc_grad _ _ _ _ _ HC (kp_cost k) (z_x z) (z_u z) HI) as GR. destruct (fc_grad _ _ _ FC (kp_cost k) (z_x z) (z_u z) (vzero, vzero) HI) as [I1 D1].
  destruct (co_grad ops (kp_cost k) (z_x z) (z_u z) (vzero, vzero)) as [g c1]. cbn [fst snd] in *.
  destruct (sc_hess _ _ _ _ _ HC c1 (z_x z) (z_u z) I1) as [HX HU]. destruct (fc_hess _ _ _ FC c1 (z_x z) (z_u z) (mzero, mzero, mzero) I1) as [I2 D2].
  destruct (co_hess ops c1 (z_x z) (z_u z) (mzero, mzero, mzero)) as [[[hxx hxu] huu] c2]. cbn [fst snd kp_cost kp_ce kp_dyn] in *.
  destruct (fc_eval _ _ _ FC c2 (z_x z) (z_u z) I2) as [I3 D3].
  destruct (co_eval ops c2 (z_x z) (z_u z)) as [J' c3]. cbn [fst snd] in *. inversion E; subst J k'; clear E.
  unfold expanded. cbn [kpf_set_cost kp_cost kp_dyn kp_jac kp_ce e_xx e_xu e_uu e_x e_u].
  split; [congruence|]. split; [reflexivity|]. split; [exact I3|]. split; [|split; [|split]].
  - eapply slopes_ext; [| |exact GR]; intros i Hi; cbn beta; rewrite vstore_lt by exact Hi; reflexivity.
  - intros i j Hi Hj. rewrite !mstore_lt by auto. apply HX; auto.
  - intros i j Hi Hj. rewrite !mstore_lt by auto. apply HU; auto.
  - intros; rewrite mstore_lt by auto; reflexivity.
Qed.

Section Step.
Context (s : ILQR) (Z Zb : Traj RS).
Context (SP : smooth_problem n m Inv V s) (LZ : length Z = S (il_N s)) (FZ : dyn_feasible n (il_x0 s) (map kp_dyn (il_kps s)) Z) (LZb : length Zb = S (il_N s)) (GZb : same_steps (il_N s) Z Zb).
Let N := il_N s.
Let s1 := il_update_expansions ops n m Z s.
Let kps1 := snd (expand_all ops n m (il_kps s) Z).
Lemma s1_eq : s1 = il_set_costs s (fst (expand_all ops n m (il_kps s) Z)) kps1.
Proof. unfold s1, kps1, il_update_expansions. destruct (expand_all ops n m (il_kps s) Z). reflexivity. Qed.
Lemma s1_kps : il_kps s1 = kps1. Proof. rewrite s1_eq. reflexivity. Qed.
Lemma s1_N : il_N s1 = N. Proof. rewrite s1_eq. reflexivity. Qed.
Lemma len1 : length kps1 = S N.
Proof. unfold kps1. destruct (expand_all_nth n m ops Inv (il_kps s) Z) as [L _]; [rewrite LZ, (sp_len _ _ _ _ _ SP); reflexivity|apply SP|]. rewrite L. apply SP. Qed.
Lemma nth1 i k1 : nth_error kps1 i = Some k1 -> exists k z, nth_error (il_kps s) i = Some k /\ nth_error Z i = Some z /\ expanded k z k1.
Proof.
  intros H. assert (Hi : (i < S N)%nat) by (rewrite <- len1; apply nth_error_Some; congruence).
  destruct (nth_error_ex (il_kps s) i) as [k Ek]; [rewrite (sp_len _ _ _ _ _ SP); exact Hi|]. destruct (nth_error_ex Z i) as [z Ez]; [rewrite LZ; exact Hi|].
  exists k, z. split; [exact Ek|]. split; [exact Ez|]. destruct (expand_all_nth n m ops Inv (il_kps s) Z) as [_ X]; [rewrite LZ, (sp_len _ _ _ _ _ SP); reflexivity|apply SP|].
  destruct (X i k z Ek Ez) as (J & k' & E & E'). fold kps1 in E'. rewrite H in E'. inversion E'; subst k'.
  assert (HI : Inv (kp_cost k)). { pose proof (sp_inv _ _ _ _ _ SP) as F. rewrite Forall_forall in F. apply F. eapply nth_error_In; eauto. }
  exact (expand_smooth k z J k1 HI E).
Qed.
Lemma in1 i k1 : nth_error (firstn N kps1) i = Some k1 -> (i < N)%nat /\ nth_error kps1 i = Some k1.
Proof.
  intros Hi. assert (L : (i < length (firstn N kps1))%nat) by (apply nth_error_Some; congruence). rewrite firstn_length in L. split; [lia|].
  rewrite <- (firstn_skipn N kps1). rewrite nth_error_app1; [exact Hi|]. apply nth_error_Some. congruence.
Qed.
Lemma sym1 : sym_data n m s1.
Proof.
  split.
  - rewrite s1_kps, s1_N. apply Forall_forall. intros k1 Hin. apply In_nth_error in Hin. destruct Hin as [i Hi]. destruct (in1 i k1 Hi) as [_ Hi'].
    destruct (nth1 i k1 Hi') as (k & z & Ek & Ez & X). destruct X as (_ & _ & _ & _ & X1 & X2 & _). split; assumption.
  - intros kN EN. rewrite s1_kps, s1_N in EN. destruct (nth1 N kN EN) as (k & z & Ek & Ez & X). destruct X as (_ & _ & _ & _ & X1 & _). exact X1.
Qed.
Lemma len_s1 : length (il_kps s1) = S (il_N s1). Proof. rewrite s1_kps, s1_N. exact len1. Qed.

Context (fuel : nat) (s2 : ILQR) (EB : il_backward_pass n m fuel s1 = Ok s2) (ST : il_status s2 <> kBackwardPassRegularizationFailed).
Lemma fr : frame (fun c c' => c' = c) s1 s2 /\ il_costs s2 = il_costs s1 /\ il_Z s2 = il_Z s1 /\ il_Zb s2 = il_Zb s1.
Proof. destruct (frame_backward n m (fun c c' : CS => c' = c) (fun _ => eq_refl) (fun a b c H1 H2 => eq_trans H2 H1) fuel s1 s2 len_s1 EB) as (A & [B1 B2] & _ & C & _). auto. Qed.
Lemma N2 : il_N s2 = N. Proof. destruct fr as [[A _ _ _] _]. rewrite A. exact s1_N. Qed.
Lemma x02 : il_x0 s2 = il_x0 s. Proof. destruct fr as [[_ A _ _] _]. rewrite A, s1_eq. reflexivity. Qed.
Lemma opts2 : il_opts s2 = il_opts s. Proof. destruct fr as [[_ _ A _] _]. rewrite A, s1_eq. reflexivity. Qed.
Lemma costs2 : il_costs s2 = fst (expand_all ops n m (il_kps s) Z). Proof. destruct fr as (_ & A & _). rewrite A, s1_eq. reflexivity. Qed.
Lemma Z2 : il_Z s2 = il_Z s. Proof. destruct fr as (_ & _ & A & _). rewrite A, s1_eq. reflexivity. Qed.
Lemma Zb2 : il_Zb s2 = il_Zb s. Proof. destruct fr as (_ & _ & _ & A). rewrite A, s1_eq. reflexivity. Qed.
Lemma same2 : map (fun k => (kp_cost k, kp_dyn k)) (il_kps s2) = map (fun k => (kp_cost k, kp_dyn k)) kps1.
Proof. destruct fr as [[_ _ _ A] _]. rewrite s1_kps in A. induction A as [|a b l l' [H1 H2] A IH]; [reflexivity|]. cbn [map]. rewrite IH, H1, H2. reflexivity. Qed.
(** the state is that of a successful sweep over the expanded knot points *)
Lemma shape : exists rho kps v0 v1 k0, let w := bp_sweep n m rho kps (e_xx (kp_ce k0)) (e_x (kp_ce k0)) v0 v1 in
  nth_error kps1 N = Some k0 /\ map stage_of kps = map stage_of (firstn N kps1) /\ sw_ok w = true /\ il_kps s2 = sw_kps w ++ [kpf_terminal k0].
Proof.
  unfold il_backward_pass in EB. rewrite s1_kps, s1_N in EB. destruct (nth_error kps1 N) as [k0|] eqn:E0; [|discriminate]. cbv zeta in EB.
  set (sa := il_set_dV _ _ _) in EB. destruct (bp_loop n m fuel (kpf_terminal k0) 0 sa) as [s3| | | | |] eqn:EL; cbn [bind] in EB; try discriminate. inversion EB as [E2].
  assert (FL : length (firstn N kps1) = N) by (apply firstn_length_le; rewrite len1; lia).
  assert (ST' : il_status s3 <> kBackwardPassRegularizationFailed) by (intros E; apply ST; rewrite <- E2; exact E).
  destruct (loop_sweep n m fuel (kpf_terminal k0) 0 sa s3 EL) as (rho & kps & v0 & v1 & A & B & C & D); [|exact ST'|].
  - change (il_kps sa) with (firstn N kps1 ++ [kpf_terminal k0]). change (il_N sa) with (il_N s1). rewrite app_length, FL, s1_N. cbn. lia.
  - exists rho, kps, v0, v1, k0. split; [reflexivity|]. change (il_kps sa) with (firstn N kps1 ++ [kpf_terminal k0]) in A. change (il_N sa) with (il_N s1) in A. rewrite s1_N, firstn_app, FL, Nat.sub_diag, firstn_all2, app_nil_r in A by lia.
    split; [exact A|]. split; [exact B|exact C].
Qed.
(** without restart *)
Lemma once : fuel = 1%nat -> exists k0, let w := bp_sweep n m (il_rho s) (firstn N kps1) (e_xx (kp_ce k0)) (e_x (kp_ce k0)) 0 0 in
  nth_error kps1 N = Some k0 /\ sw_ok w = true /\ il_kps s2 = sw_kps w ++ [kpf_terminal k0] /\ il_dV0 s2 = sw_v0 w /\ il_dV1 s2 = sw_v1 w.
Proof.
  intros F1. rewrite F1 in EB. unfold il_backward_pass in EB. rewrite s1_kps, s1_N in EB. destruct (nth_error kps1 N) as [k0|] eqn:E0; [|discriminate]. cbv zeta in EB. exists k0.
  set (sa := il_set_dV _ _ _) in EB. assert (FL : length (firstn N kps1) = N) by (apply firstn_length_le; rewrite len1; lia).
  assert (FN : firstn (il_N sa) (il_kps sa) = firstn N kps1).
  { change (il_kps sa) with (firstn N kps1 ++ [kpf_terminal k0]). change (il_N sa) with (il_N s1). rewrite s1_N, firstn_app, FL, Nat.sub_diag, firstn_all2 by lia. apply app_nil_r. }
  cbn [bp_loop] in EB. rewrite FN in EB. change (il_rho sa) with (il_rho s1) in EB. assert (RR : il_rho s1 = il_rho s) by (rewrite s1_eq; reflexivity). rewrite RR in EB.
  change (il_dV0 sa) with (0 : RS) in EB. change (il_dV1 sa) with (0 : RS) in EB. change (kp_S (kpf_terminal k0)) with (e_xx (kp_ce k0)) in EB. change (kp_s (kpf_terminal k0)) with (e_x (kp_ce k0)) in EB.
  set (w := bp_sweep n m (il_rho s) _ _ _ _ _) in *. cbv zeta. change (bp_sweep n m (il_rho s) (firstn N kps1) (e_xx (kp_ce k0)) (e_x (kp_ce k0)) 0 0) with w. split; [reflexivity|].
  destruct (sw_ok w) eqn:OK.
  - split; [reflexivity|]. destruct (il_N sa); [discriminate|]. cbn [bind] in EB. inversion EB as [E2]. cbn. auto.
  - exfalso. match type of EB with context [(?a <=? ?b)%Z] => destruct (a <=? b)%Z end; [|discriminate]. cbn [bind] in EB. inversion EB as [E2]. apply ST. rewrite <- E2. reflexivity.
Qed.

(** ** families of trajectories *)
Context (kps2 : list K) (k0 : K) (K2 : il_kps s2 = kps2 ++ [kpf_terminal k0]) (E0 : nth_error kps1 N = Some k0) (SG : map stage_of kps2 = map stage_of (firstn N kps1)).
Lemma len2 : length kps2 = N.
Proof. apply (f_equal (@length _)) in SG. rewrite !map_length in SG. rewrite SG. apply firstn_length_le. rewrite len1. lia. Qed.
Lemma nth2 i k2 : nth_error kps2 i = Some k2 -> exists k z k1, (i < N)%nat /\ nth_error (il_kps s) i = Some k /\ nth_error Z i = Some z /\ expanded k z k1 /\
  kp_cost k2 = kp_cost k1 /\ kp_dyn k2 = kp_dyn k1 /\ stage_of k2 = stage_of k1.
Proof.
  intros H. assert (Hi : (i < N)%nat) by (rewrite <- len2; apply nth_error_Some; congruence).
  destruct (nth_error_ex (firstn N kps1) i) as [k1 E1]; [rewrite firstn_length_le; [exact Hi|rewrite len1; lia]|]. destruct (in1 i k1 E1) as [_ E1'].
  destruct (nth1 i k1 E1') as (k & z & Ek & Ez & X). exists k, z, k1. repeat (split; [assumption|]).
  assert (E2 : nth_error (il_kps s2) i = Some k2) by (rewrite K2, nth_error_app1; [exact H|rewrite len2; exact Hi]).
  pose proof (nth_map_eq _ _ _ i k2 k1 same2 E2 E1') as E. inversion E. pose proof (nth_map_eq _ _ _ i k2 k1 SG H E1). auto.
Qed.
Lemma tight2 i k z : nth_error kps2 i = Some k -> nth_error Z i = Some z -> tight n m V k z.
Proof.
  intros Hk Hz. destruct (nth2 i k Hk) as (ka & za & k1 & Hi & Ek & Ez & X & A & B & C). rewrite Hz in Ez. inversion Ez; subst za. destruct X as (X1 & X2 & _ & X3 & _ & _ & X4).
  split.
  - rewrite A, X1. pose proof (f_equal (@sg_x) C) as Cx. pose proof (f_equal (@sg_u) C) as Cu. cbn in Cx, Cu. rewrite Cx, Cu. exact X3.
  - intros b j Hj. rewrite B, X2, C. destruct (sp_dyn _ _ _ _ _ SP i ka Hi Ek) as [_ FD]. eapply slopes_ext; [| |exact (FD (z_x z) (z_u z) (z_t z) (z_h z) b j Hj)]; intros l Hl; cbn; rewrite X4 by lia; reflexivity.
Qed.
Lemma Vs : map (fun k => V (kp_cost k)) (il_kps s2) = map (fun k => V (kp_cost k)) (il_kps s).
Proof.
  transitivity (map (fun k => V (kp_cost k)) kps1).
  - pose proof same2 as E. apply (f_equal (map (fun p => V (fst p)))) in E. rewrite !map_map in E. exact E.
  - apply list_eq_nth; [rewrite !map_length, len1, (sp_len _ _ _ _ _ SP); reflexivity|]. intros i a b Ha Hb. rewrite nth_error_map in Ha, Hb. destruct (nth_error kps1 i) as [k1|] eqn:E1; [|discriminate]. destruct (nth_error (il_kps s) i) as [k|] eqn:E; [|discriminate].
    cbn in Ha, Hb. inversion Ha; inversion Hb; subst a b. destruct (nth1 i k1 E1) as (k' & z & Ek & _ & X). rewrite E in Ek. inversion Ek; subst k'. apply X.
Qed.
Lemma total2 Y : total_cost V s2 Y = total_cost V s Y. Proof. unfold total_cost. f_equal. exact Vs. Qed.
Lemma dyns2 : map kp_dyn (il_kps s2) = map kp_dyn (il_kps s).
Proof.
  transitivity (map kp_dyn kps1).
  - pose proof same2 as E. apply (f_equal (map snd)) in E. rewrite !map_map in E. exact E.
  - apply list_eq_nth; [rewrite !map_length, len1, (sp_len _ _ _ _ _ SP); reflexivity|]. intros i a b Ha Hb. rewrite nth_error_map in Ha, Hb. destruct (nth_error kps1 i) as [k1|] eqn:E1; [|discriminate]. destruct (nth_error (il_kps s) i) as [k|] eqn:E; [|discriminate].
    cbn in Ha, Hb. inversion Ha; inversion Hb; subst a b. destruct (nth1 i k1 E1) as (k' & z & Ek & _ & X). rewrite E in Ek. inversion Ek; subst k'. apply X.
Qed.
Lemma end2 : exists z, nth_error Z N = Some z /\ slopes n m (V (kp_cost k0)) (e_x (kp_ce k0)) (e_u (kp_ce k0)) (z_x z) (z_u z) /\ forall x u u', V (kp_cost k0) x u = V (kp_cost k0) x u'.
Proof.
  destruct (nth1 N k0 E0) as (k & z & Ek & Ez & X). exists z. destruct X as (X1 & _ & _ & X3 & _). split; [exact Ez|]. rewrite X1. split; [exact X3|]. exact (sp_end _ _ _ _ _ SP k Ek).
Qed.
(** derivative of the total cost along a family of trajectories that obey the dynamics, when each control reacts to first order by [ps] *)
Section Fam.
Context (fam : R -> Traj RS) (ps : list ((nat -> R) -> nat -> R)) (LP : length ps = N).
Context (G1 : forall a, length (fam a) = S N) (G2 : forall a, dyn_feasible n (il_x0 s) (map kp_dyn (il_kps s)) (fam a)) (G3 : forall a, same_steps N Z (fam a)).
Context (G4 : forall i p z, (i < N)%nat -> nth_error ps i = Some p -> nth_error Z i = Some z -> forall dx, passes (fst (curve_of fam i)) n (z_x z) dx -> passes (snd (curve_of fam i)) m (z_u z) (p dx)).
Lemma fam_nth a i : (i <= N)%nat -> nth_error (fam a) i = Some (nth i (fam a) z00).
Proof. intros H. apply nth_error_nth'. rewrite G1. apply Nat.lt_succ_r. exact H. Qed.
Lemma dyn_at (Y : Traj RS) i k y y' : (i < N)%nat -> dyn_feasible n (il_x0 s) (map kp_dyn (il_kps s)) Y -> nth_error kps2 i = Some k -> nth_error Y i = Some y -> nth_error Y (S i) = Some y' ->
  forall j, (j < n)%nat -> z_x y' j = dy_eval (kp_dyn k) (z_x y) (z_u y) (z_t y) (z_h y) vzero j.
Proof.
  intros Hi [_ F] Hk Hy Hy' j Hj. destruct (nth2 i k Hk) as (ka & z & k1 & _ & Ek & _ & X & A & B & _). destruct X as (_ & X2 & _).
  destruct (F i (kp_dyn ka) y y' (map_nth_error _ _ _ Ek) Hy Hy') as [b Hb]. rewrite Hb, B, X2 by exact Hj. destruct (sp_dyn _ _ _ _ _ SP i ka Hi Ek) as [W _]. apply W. exact Hj.
Qed.
Lemma H_dyn i k z z' X U X' U' : nth_error kps2 i = Some k -> nth_error Z i = Some z -> nth_error Z (S i) = Some z' -> nth_error (curves fam N) i = Some (X, U) -> nth_error (curves fam N) (S i) = Some (X', U') ->
  (forall j, (j < n)%nat -> z_x z' j = dy_eval (kp_dyn k) (z_x z) (z_u z) (z_t z) (z_h z) vzero j) /\ forall t j, (j < n)%nat -> X' t j = dy_eval (kp_dyn k) (X t) (U t) (z_t z) (z_h z) vzero j.
Proof.
  intros Hk Hz Hz' HC1 HC2. assert (Hi : (i < N)%nat) by (rewrite <- len2; apply nth_error_Some; congruence). rewrite curves_nth in HC1, HC2 by lia. inversion HC1; inversion HC2; subst X U X' U'. split.
  - apply (dyn_at Z i k z z' Hi FZ Hk Hz Hz').
  - intros t j Hj. pose proof (fam_nth t i ltac:(lia)) as A. pose proof (fam_nth t (S i) ltac:(lia)) as B. rewrite (dyn_at (fam t) i k _ _ Hi (G2 t) Hk A B j Hj). destruct (G3 t i z _ Hi Hz A) as [-> ->]. reflexivity.
Qed.
Lemma H_law i p z X U : nth_error ps i = Some p -> nth_error Z i = Some z -> nth_error (curves fam N) i = Some (X, U) -> forall dx, passes X n (z_x z) dx -> passes U m (z_u z) (p dx).
Proof.
  intros Hp Hz HC1. assert (Hi : (i < N)%nat) by (rewrite <- LP; apply nth_error_Some; congruence). rewrite curves_nth in HC1 by lia. inversion HC1; subst X U. exact (G4 i p z Hi Hp Hz).
Qed.
Lemma H_end z X U : nth_error Z (length kps2) = Some z -> nth_error (curves fam N) (length kps2) = Some (X, U) -> forall dx, passes X n (z_x z) dx -> is_derive (fun t => V (kp_cost (kpf_terminal k0)) (X t) (U t)) 0 (inner n (e_x (kp_ce (kpf_terminal k0))) dx).
Proof.
  rewrite len2. intros Hz _ dx [P1 P2]. destruct end2 as (z1 & Ez & FR & IG). rewrite Hz in Ez. inversion Ez; subst z1. change (kp_cost (kpf_terminal k0)) with (kp_cost k0). change (kp_ce (kpf_terminal k0)) with (kp_ce k0).
  apply (d_ext (fun t => V (kp_cost k0) (X t) ((fun _ => z_u z) t))); [intros t; apply IG|].
  eapply d_eq; [apply (slopes_chain n m _ _ _ _ _ FR X (fun _ => z_u z) dx (fun _ => 0) P1 (fun _ _ => eq_refl) P2); intros i Hi; apply d_const|]. rewrite inner_zero_r. lra.
Qed.
Lemma H_start z : nth_error Z 0 = Some z -> passes (fst (curve_of fam 0)) n (z_x z) (fun _ => 0).
Proof.
  intros Hz. assert (E : forall t j, (j < n)%nat -> fst (curve_of fam 0) t j = z_x z j).
  { intros t j Hj. cbn. rewrite (proj1 (G2 t) _ j (fam_nth t 0 ltac:(lia)) Hj). symmetry. apply (proj1 FZ); auto. }
  split; intros j Hj; [apply E; exact Hj|]. apply (d_ext (fun _ => z_x z j)); [intros t; symmetry; apply E; exact Hj|apply d_const].
Qed.
Theorem fam_derive : is_derive (fun a => total_cost V s (fam a)) 0 (lin_along n m (map stage_of kps2) ps (e_x (kp_ce k0)) (fun _ => 0)).
Proof.
  apply (d_ext (ccost (map (fun k => V (kp_cost k)) (kps2 ++ [kpf_terminal k0])) (curves fam N))).
  - intros a. rewrite <- total2. unfold total_cost. rewrite K2. rewrite (ccost_traj fam a _ (fam a) 0); [|rewrite G1, map_length, app_length, len2; cbn; lia|reflexivity]. unfold curves. rewrite map_length, app_length, len2. cbn [length]. rewrite Nat.add_1_r. reflexivity.
  - destruct (nth_error_ex Z 0) as [z Ez]; [rewrite LZ; lia|].
    apply (along n m V (kpf_terminal k0) kps2 Z (curves fam N) ps z (fst (curve_of fam 0)) (snd (curve_of fam 0)));
      [exact Ez|rewrite curves_nth by lia; reflexivity|rewrite len2; exact LZ|rewrite curves_len, len2; reflexivity|rewrite len2; exact LP|exact tight2|exact H_end|exact H_law|exact H_dyn|apply H_start; exact Ez].
Qed.
Theorem fam_pts i z : (i <= N)%nat -> nth_error Z i = Some z -> (exists dx, passes (fst (curve_of fam i)) n (z_x z) dx) /\ ((i < N)%nat -> exists du, passes (snd (curve_of fam i)) m (z_u z) du).
Proof.
  intros Hi Hz. destruct (nth_error_ex Z 0) as [z0 Ez]; [rewrite LZ; lia|]. rewrite <- len2.
  assert (HC0 : nth_error (curves fam N) i = Some (fst (curve_of fam i), snd (curve_of fam i))) by (rewrite curves_nth by lia; reflexivity).
  refine (along_pts n m V kps2 Z (curves fam N) ps z0 (fst (curve_of fam 0)) (snd (curve_of fam 0)) (fun _ => 0) Ez _ _ _ _ tight2 H_law H_dyn (H_start z0 Ez) i z _ _ Hz HC0);
    [rewrite curves_nth by lia; reflexivity|rewrite len2; exact LZ|rewrite curves_len, len2; reflexivity|rewrite len2; exact LP].
Qed.
End Fam.

(** ** closed-loop simulations *)
Lemma times_steps Y : times Y = firstn (length Y) (times Zb) -> (length Y <= S N)%nat -> same_steps N Z Y.
Proof.
  intros E LY k z y Hk Hz Hy. destruct (nth_error_ex Zb k) as [zb Eb]; [rewrite LZb; fold N; lia|].
  assert (T : nth_error (times Y) k = nth_error (times Zb) k).
  { rewrite E. rewrite <- (firstn_skipn (length Y) (times Zb)) at 2. rewrite nth_error_app1; [reflexivity|]. rewrite firstn_length. unfold times. rewrite map_length, LZb. fold N. assert (k < length Y)%nat by (apply nth_error_Some; congruence). lia. }
  unfold times in T. rewrite !nth_error_map, Hy, Eb in T. cbn in T. inversion T. destruct (GZb k z zb Hk Hz Eb). split; congruence.
Qed.
Lemma sim_feas a Y : simulates n m s2 (times Zb) Z a Y -> dyn_feasible n (il_x0 s) (map kp_dyn (il_kps s)) Y.
Proof. intros [_ F _]. rewrite x02, dyns2 in F. exact F. Qed.
Lemma law_at a Y i k z y y' : simulates n m s2 (times Zb) Z a Y -> nth_error kps2 i = Some k -> nth_error Z i = Some z -> nth_error Y i = Some y -> nth_error Y (S i) = Some y' ->
  forall j, (j < m)%nat -> z_u y j = z_u z j + rsum n (fun l => kp_K k j l * (z_x y l - z_x z l)) + kp_d k j * a.
Proof.
  intros [_ _ L] Hk Hz Hy Hy' j Hj. assert (E2 : nth_error (il_kps s2) i = Some k) by (rewrite K2, nth_error_app1; [exact Hk|apply nth_error_Some; congruence]).
  rewrite (L i k z y y' E2 Hz Hy Hy' j Hj). rs. reflexivity.
Qed.
Section Sim.
Context (fam : R -> Traj RS) (G1 : forall a, length (fam a) = S N) (GS : forall a, simulates n m s2 (times Zb) Z a (fam a)).
Lemma sim_G4 i p z : (i < N)%nat -> nth_error (map (polK n) kps2) i = Some p -> nth_error Z i = Some z -> forall dx, passes (fst (curve_of fam i)) n (z_x z) dx -> passes (snd (curve_of fam i)) m (z_u z) (p dx).
Proof.
  intros Hi Hp Hz dx [P1 P2]. rewrite nth_error_map in Hp. destruct (nth_error kps2 i) as [k|] eqn:Ek; [|discriminate]. cbn in Hp. inversion Hp; subst p.
  assert (E : forall t j, (j < m)%nat -> snd (curve_of fam i) t j = z_u z j + rsum n (fun l => kp_K k j l * (fst (curve_of fam i) t l - z_x z l)) + kp_d k j * t).
  { intros t j Hj. exact (law_at t (fam t) i k z _ _ (GS t) Ek Hz (fam_nth fam G1 t i ltac:(lia)) (fam_nth fam G1 t (S i) ltac:(lia)) j Hj). }
  split; intros j Hj.
  - rewrite E by exact Hj. rewrite (rsum_ext n _ (fun _ => 0)) by (intros l Hl; rewrite P1 by exact Hl; lra). rewrite rsum_zero. lra.
  - apply (d_ext (fun t => z_u z j + rsum n (fun l => kp_K k j l * (fst (curve_of fam i) t l - z_x z l)) + kp_d k j * t)); [intros t; symmetry; apply E; exact Hj|].
    eapply d_eq; [apply d_plus; [apply d_plus; [apply d_const|apply (d_rsum n (fun l t => kp_K k j l * (fst (curve_of fam i) t l - z_x z l)) (fun l => kp_K k j l * (dx l - 0))); intros l Hl; apply d_scal, d_minus; [apply P2; exact Hl|apply d_const]]|apply d_scal, d_id]|].
    unfold polK. rewrite app_r. rewrite (rsum_ext n (fun l => kp_K k j l * (dx l - 0)) (fun l => kp_K k j l * dx l)) by (intros; lra). lra.
Qed.
Lemma sim_G3 a : same_steps N Z (fam a).
Proof. apply times_steps; [apply (sim_times _ _ _ _ _ _ _ (GS a))|rewrite G1; lia]. Qed.
Theorem sim_derive : is_derive (fun a => total_cost V s (fam a)) 0 (lin_along n m (map stage_of kps2) (map (polK n) kps2) (e_x (kp_ce k0)) (fun _ => 0)).
Proof. apply fam_derive; [rewrite map_length; apply len2|exact G1|intros a; apply (sim_feas a _ (GS a))|exact sim_G3|exact sim_G4]. Qed.
Theorem sim_pts i z : (i <= N)%nat -> nth_error Z i = Some z -> (exists dx, passes (fst (curve_of fam i)) n (z_x z) dx) /\ ((i < N)%nat -> exists du, passes (snd (curve_of fam i)) m (z_u z) du).
Proof. apply (fam_pts fam (map (polK n) kps2)); [rewrite map_length; apply len2|exact G1|intros a; apply (sim_feas a _ (GS a))|exact sim_G3|exact sim_G4]. Qed.
End Sim.
(** ** open-loop variations *)
Section Var.
Context (fam : R -> Traj RS) (du : nat -> nat -> R) (GV : forall a, varied n m s Z du a (fam a)).
Definition vps : list ((nat -> R) -> nat -> R) := map (fun u _ => u) (map du (seq 0 N)).
Theorem var_derive : is_derive (fun a => total_cost V s (fam a)) 0 (lin_along n m (map stage_of kps2) vps (e_x (kp_ce k0)) (fun _ => 0)).
Proof.
  assert (G1 : forall a, length (fam a) = S N) by (intros a; rewrite (proj1 (GV a)); exact LZ).
  apply fam_derive.
  - unfold vps. rewrite !map_length, seq_length. reflexivity.
  - exact G1.
  - intros a. apply (GV a).
  - intros a k z y Hk Hz Hy. destruct (GV a) as (_ & _ & H). destruct (H k z y Hk Hz Hy) as (A & B & _). auto.
  - intros i p z Hi Hp Hz dx _. unfold vps in Hp. rewrite !nth_error_map, (nth_error_nth' (seq 0 N) 0%nat), seq_nth in Hp by (rewrite ?seq_length; lia). cbn in Hp. inversion Hp; subst p.
    assert (E : forall t j, (j < m)%nat -> snd (curve_of fam i) t j = z_u z j + t * du i j).
    { intros t j Hj. destruct (GV t) as (_ & _ & H). destruct (H i z _ Hi Hz (fam_nth fam G1 t i ltac:(lia))) as (_ & _ & Q). exact (Q j Hj). }
    split; intros j Hj; [rewrite E by exact Hj; lra|]. apply (d_ext (fun t => z_u z j + t * du i j)); [intros t; symmetry; apply E; exact Hj|].
    eapply d_eq; [apply d_plus; [apply d_const|apply d_scal_r, d_id]|lra].
Qed.
Theorem var_pts : forall i z, (i <= N)%nat -> nth_error Z i = Some z -> (exists dx, passes (fst (curve_of fam i)) n (z_x z) dx) /\ ((i < N)%nat -> exists du, passes (snd (curve_of fam i)) m (z_u z) du).
Proof.
  assert (G1 : forall a, length (fam a) = S N) by (intros a; rewrite (proj1 (GV a)); exact LZ).
  refine (fam_pts fam vps _ G1 _ _ _).
  - unfold vps. rewrite !map_length, seq_length. reflexivity.
  - intros a. apply (GV a).
  - intros a k z y Hk Hz Hy. destruct (GV a) as (_ & _ & H). destruct (H k z y Hk Hz Hy) as (A & B & _). auto.
  - intros i p z Hi Hp Hz dx _. unfold vps in Hp. rewrite !nth_error_map, (nth_error_nth' (seq 0 N) 0%nat), seq_nth in Hp by (rewrite ?seq_length; lia). cbn in Hp. inversion Hp; subst p.
    assert (E : forall t j, (j < m)%nat -> snd (curve_of fam i) t j = z_u z j + t * du i j).
    { intros t j Hj. destruct (GV t) as (_ & _ & H). destruct (H i z _ Hi Hz (fam_nth fam G1 t i ltac:(lia))) as (_ & _ & Q). exact (Q j Hj). }
    split; intros j Hj; [rewrite E by exact Hj; lra|]. apply (d_ext (fun t => z_u z j + t * du i j)); [intros t; symmetry; apply E; exact Hj|].
    eapply d_eq; [apply d_plus; [apply d_const|apply d_scal_r, d_id]|lra].
Qed.
End Var.
(** ** simulations exist *)
Definition o_free : Opts RS := mkOpts 0 0 0 0 0 0 0 0 0 0 false 0 0 0 0 0 0 0 0 0 false 0 0 0 0.
Definition free_roll (a : R) (kps : list K) : Traj RS := snd (roll_closed n m o_free a (vstore n (il_x0 s)) kps Z Zb).
Lemma free_none a : forall (kps : list K) x Zc Zbc, fst (roll_closed n m o_free a x kps Zc Zbc) = None.
Proof.
  induction kps as [|k kps IH]; intros x [|z Zc] [|zb [|zb' Zbc]]; try reflexivity. cbn [roll_closed]. change (o_check_bounds o_free) with false. cbn [andb].
  set (xn := kpf_dynamics n k x _ _ _ _). specialize (IH xn Zc (zb' :: Zbc)). destruct (roll_closed n m o_free a xn kps Zc (zb' :: Zbc)). cbn in IH. subst. reflexivity.
Qed.
Lemma free_ok a (kps : list K) : length kps = S N -> length (free_roll a kps) = S N /\ times (free_roll a kps) = times Zb /\ dyn_feasible n (il_x0 s) (map kp_dyn kps) (free_roll a kps) /\ obeys_law n m a kps Z (free_roll a kps).
Proof.
  intros LK. unfold free_roll. pose proof (free_none a kps (vstore n (il_x0 s)) Z Zb) as H. pose proof (roll_closed_len n m o_free a kps (vstore n (il_x0 s)) Z Zb) as [L T].
  destruct (roll_closed n m o_free a (vstore n (il_x0 s)) kps Z Zb) as [e Y] eqn:E. cbn [fst snd] in *. subst e.
  assert (LL : (length Zb <= S (length kps))%nat) by (rewrite LZb, LK; fold N; lia). assert (LL' : length Z = length Zb) by (rewrite LZb, LZ; reflexivity).
  destruct (roll_closed_spec n m o_free a kps (vstore n (il_x0 s)) Z Zb Y LL LL' E) as (H1 & H2 & _).
  split; [rewrite L; exact LZb|]. split; [exact T|]. split; [apply follows_feasible; assumption|]. exact (roll_closed_law n m o_free a kps (vstore n (il_x0 s)) Z Zb Y E LL LL').
Qed.
Lemma firstn_times (Y : Traj RS) : length Y = S N -> times Y = times Zb -> times Y = firstn (length Y) (times Zb).
Proof. intros L T. rewrite T, L. assert (LT : length (times Zb) = S N) by (unfold times; rewrite map_length; exact LZb). rewrite <- LT. symmetry. apply firstn_all. Qed.
Definition closed (a : R) : Traj RS := free_roll a (il_kps s2).
Lemma len_s2 : length (il_kps s2) = S N. Proof. rewrite K2, app_length, len2. cbn. lia. Qed.
Lemma closed_sim a : simulates n m s2 (times Zb) Z a (closed a) /\ length (closed a) = S N.
Proof.
  destruct (free_ok a (il_kps s2) len_s2) as (L & T & F & O). split; [|exact L]. split; [apply firstn_times; assumption|rewrite x02; exact F|exact O].
Qed.
(** open-loop variations exist *)
Definition with_gain (du : nat -> nat -> R) (p : K * nat) : K := let (k, i) := p in
  mkKPF (kp_dyn k) (kp_cost k) (kp_ce k) (kp_jac k) (kp_q k) (kp_qr k) (mzero (F:=RS)) (du i) (kp_S k) (kp_s k) (kp_dv0 k) (kp_dv1 k).
Definition opened (du : nat -> nat -> R) (a : R) : Traj RS := free_roll a (map (with_gain du) (combine (il_kps s) (seq 0 (S N)))).
Lemma combine_dyns (l : list K) : forall q, map kp_dyn (map (with_gain q) (combine l (seq 0 (length l)))) = map kp_dyn l.
Proof.
  generalize 0%nat. induction l as [|k l IH]; intros o q; [reflexivity|]. cbn [length seq combine map]. rewrite IH. reflexivity.
Qed.
Lemma combine_nth (l : list K) : forall o i k, nth_error l i = Some k -> nth_error (combine l (seq o (length l))) i = Some (k, (o + i)%nat).
Proof.
  induction l as [|a l IH]; intros o [|i] k H; try discriminate; cbn [length seq combine nth_error] in *; [inversion H; rewrite Nat.add_0_r; reflexivity|]. rewrite (IH (S o) i k H). f_equal. f_equal. lia.
Qed.
Lemma opened_var du a : varied n m s Z du a (opened du a).
Proof.
  pose proof (sp_len _ _ _ _ _ SP) as LS. fold N in LS. unfold opened. rewrite <- LS. set (kps := map (with_gain du) (combine (il_kps s) (seq 0 (length (il_kps s))))).
  assert (LK : length kps = S N) by (unfold kps; rewrite map_length, combine_length, seq_length, LS; lia).
  destruct (free_ok a kps LK) as (L & T & F & O). split; [rewrite L, LZ; reflexivity|]. split; [unfold kps in F at 1; rewrite combine_dyns in F; exact F|].
  intros k z y Hk Hz Hy. pose proof (times_steps (free_roll a kps) (firstn_times _ L T) ltac:(rewrite L; lia)) as SS. destruct (SS k z y Hk Hz Hy) as [A B]. split; [exact A|]. split; [exact B|]. intros i Hi.
  destruct (nth_error_ex (il_kps s) k) as [ka Ek]; [lia|]. destruct (nth_error_ex (free_roll a kps) (S k)) as [y' Hy']; [rewrite L; fold N in Hk; lia|].
  assert (Ek' : nth_error kps k = Some (with_gain du (ka, k))) by (unfold kps; rewrite nth_error_map, (combine_nth (il_kps s) 0 k ka Ek); reflexivity).
  rewrite (O k _ z y y' Ek' Hz Hy Hy' i Hi). cbn [with_gain kp_K kp_d]. rs.
  assert (D0 : rdot n (fun _ => 0) (fun j => z_x y j - z_x z j) = 0) by (etransitivity; [symmetry; exact (inner_r n (fun _ => 0) (fun j => z_x y j - z_x z j))|apply inner_zero_l]).
  match goal with |- context [rdot n ?u ?v] => set (dd := rdot n u v) end. change (dd = 0) in D0. rewrite D0. lra.
Qed.

(** ** two simulations agree *)
Lemma dep_dyn i k x u x' u' t h b j : (i < N)%nat -> nth_error (il_kps s) i = Some k -> (j < n)%nat -> (forall l, (l < n)%nat -> x l = x' l) -> (forall l, (l < m)%nat -> u l = u' l) -> dy_eval (kp_dyn k) x u t h b j = dy_eval (kp_dyn k) x' u' t h b j.
Proof. intros Hi Hk Hj HX HU. destruct (sp_dyn _ _ _ _ _ SP i k Hi Hk) as [_ FD]. exact (slopes_same n m _ _ _ x' u' (FD x' u' t h b j Hj) x u HX HU). Qed.
Lemma sim_unique a P Y : simulates n m s2 (times Zb) Z a P -> simulates n m s2 (times Zb) Z a Y -> (length P <= S N)%nat -> length Y = S N -> forall i p y, nth_error P i = Some p -> nth_error Y i = Some y ->
  (forall j, (j < n)%nat -> z_x p j = z_x y j) /\ (forall p', nth_error P (S i) = Some p' -> forall j, (j < m)%nat -> z_u p j = z_u y j).
Proof.
  intros SPP SY LP' LY. pose proof (sim_feas a P SPP) as FP. pose proof (sim_feas a Y SY) as FY.
  pose proof (times_steps P (sim_times _ _ _ _ _ _ _ SPP) LP') as TP. pose proof (times_steps Y (sim_times _ _ _ _ _ _ _ SY) ltac:(lia)) as TY.
  assert (U : forall i p y, nth_error P i = Some p -> nth_error Y i = Some y -> (forall j, (j < n)%nat -> z_x p j = z_x y j) -> forall p', nth_error P (S i) = Some p' -> forall j, (j < m)%nat -> z_u p j = z_u y j).
  { intros i p y Hp Hy EX p' Hp' j Hj. assert (Hi : (S i < length P)%nat) by (apply nth_error_Some; congruence).
    destruct (nth_error_ex kps2 i) as [kp Ek]; [rewrite len2; lia|]. destruct (nth_error_ex Z i) as [z Ez]; [rewrite LZ; fold N; lia|]. destruct (nth_error_ex Y (S i)) as [y' Hy']; [lia|].
    rewrite (law_at a P i kp z p p' SPP Ek Ez Hp Hp' j Hj), (law_at a Y i kp z y y' SY Ek Ez Hy Hy' j Hj). f_equal. f_equal. apply rsum_ext. intros l Hl. rewrite EX by exact Hl. reflexivity. }
  induction i as [|i IH]; intros p y Hp Hy.
  - assert (EX : forall j, (j < n)%nat -> z_x p j = z_x y j) by (intros j Hj; rewrite (proj1 FP p j Hp Hj), (proj1 FY y j Hy Hj); reflexivity). split; [exact EX|]. intros p' Hp'. eapply U; eauto.
  - assert (Hi : (S i < length P)%nat) by (apply nth_error_Some; congruence).
    destruct (nth_error_ex P i) as [p0 Hp0]; [lia|]. destruct (nth_error_ex Y i) as [y0 Hy0]; [lia|]. destruct (IH p0 y0 Hp0 Hy0) as [EX EU]. specialize (EU p Hp).
    destruct (nth_error_ex kps2 i) as [k2 Ek2]; [rewrite len2; lia|]. destruct (nth_error_ex Z i) as [z Ez]; [rewrite LZ; fold N; lia|]. destruct (nth_error_ex (il_kps s) i) as [k Ek]; [rewrite (sp_len _ _ _ _ _ SP); fold N; lia|].
    assert (HiN : (i < N)%nat) by lia. destruct (TP i z p0 HiN Ez Hp0) as [P1 P2]. destruct (TY i z y0 HiN Ez Hy0) as [Y1 Y2].
    assert (EX' : forall j, (j < n)%nat -> z_x p j = z_x y j).
    { intros j Hj. destruct (proj2 FP i (kp_dyn k) p0 p (map_nth_error _ _ _ Ek) Hp0 Hp) as [b1 B1]. destruct (proj2 FY i (kp_dyn k) y0 y (map_nth_error _ _ _ Ek) Hy0 Hy) as [b2 B2].
      rewrite B1, B2, P1, P2, Y1, Y2 by exact Hj. destruct (sp_dyn _ _ _ _ _ SP i k HiN Ek) as [W _]. rewrite (W _ _ _ _ b1 b2 j Hj). apply (dep_dyn i k); auto. }
    split; [exact EX'|]. intros p' Hp'. eapply U; eauto.
Qed.
Lemma traj_cost_ext : forall (vs : list (vec RS -> vec RS -> R)) (Y Y' : Traj RS), length Y = length Y' -> (forall i v y y', nth_error vs i = Some v -> nth_error Y i = Some y -> nth_error Y' i = Some y' -> v (z_x y) (z_u y) = v (z_x y') (z_u y')) -> traj_cost (F:=RS) vs Y = traj_cost (F:=RS) vs Y'.
Proof.
  induction vs as [|v vs IH]; intros [|y Y] [|y' Y'] L H; try discriminate; try reflexivity. cbn [traj_cost]. rs. rewrite (H 0%nat v y y' eq_refl eq_refl eq_refl). f_equal. apply IH; [cbn in L; lia|]. intros i. exact (H (S i)).
Qed.
Lemma same_cost (Y Y' : Traj RS) : length Y = S N -> length Y' = S N -> (forall i y y', nth_error Y i = Some y -> nth_error Y' i = Some y' -> (forall j, (j < n)%nat -> z_x y j = z_x y' j) /\ ((i < N)%nat -> forall j, (j < m)%nat -> z_u y j = z_u y' j)) -> total_cost V s Y = total_cost V s Y'.
Proof.
  intros L L' H. unfold total_cost. apply traj_cost_ext; [congruence|]. intros i v y y' Hv Hy Hy'. rewrite nth_error_map in Hv. destruct (nth_error (il_kps s) i) as [k|] eqn:Ek; [|discriminate]. cbn in Hv. inversion Hv; subst v. clear Hv.
  assert (HI : Inv (kp_cost k)). { pose proof (sp_inv _ _ _ _ _ SP) as F. rewrite Forall_forall in F. apply F. eapply nth_error_In; eauto. }
  destruct (H i y y' Hy Hy') as [EX EU]. assert (Hi : (i < S N)%nat) by (rewrite <- L; apply nth_error_Some; congruence).
  destruct (Nat.lt_ge_cases i N) as [Hn|Hn].
  - exact (slopes_same n m _ _ _ _ _ (sc_grad _ _ _ _ _ HC (kp_cost k) (z_x y') (z_u y') HI) _ _ EX (EU Hn)).
  - assert (i = N) by lia. subst i. rewrite (sp_end _ _ _ _ _ SP k Ek (z_x y) (z_u y) (z_u y')). exact (slopes_same n m _ _ _ _ _ (sc_grad _ _ _ _ _ HC (kp_cost k) (z_x y') (z_u y') HI) _ _ EX (fun _ _ => eq_refl)).
Qed.
Lemma sim_same a Y : simulates n m s2 (times Zb) Z a Y -> length Y = S N -> total_cost V s Y = total_cost V s (closed a).
Proof.
  intros SY LY. destruct (closed_sim a) as [SC LC]. apply same_cost; auto. intros i y y' Hy Hy'. destruct (sim_unique a Y (closed a) SY SC ltac:(lia) LC i y y' Hy Hy') as [A B]. split; [exact A|]. intros Hi. destruct (nth_error_ex Y (S i)) as [p' Hp']; [lia|]. exact (B p' Hp').
Qed.
Lemma closed0 : total_cost V s (closed 0) = total_cost V s Z.
Proof.
  assert (G1 : forall a, length (closed a) = S N) by (intros a; apply closed_sim). apply same_cost; [apply G1|exact LZ|]. intros i y z Hy Hz. assert (Hi : (i < S N)%nat) by (rewrite <- (G1 0); apply nth_error_Some; congruence).
  destruct (sim_pts closed G1 (fun a => proj1 (closed_sim a)) i z ltac:(lia) Hz) as [[dx [P _]] Q]. rewrite (fam_nth closed G1 0 i) in Hy by lia. inversion Hy; subst y. split; [exact P|]. intros Hn. destruct (Q Hn) as [du [P' _]]. exact P'.
Qed.
(** ** small steps *)
Section Accept.
Context (IN : inside_limits n m (il_opts s) Z).
Lemma norm_near p (c : R -> nat -> R) x dx M : passes c p x dx -> norm (F:=RS) p x < M -> exists del, 0 < del /\ forall t, Rabs t <= del -> norm (F:=RS) p (c t) <= M.
Proof.
  intros [P1 P2] HM. assert (D : is_derive (fun t => rsum p (fun i => c t i * c t i)) 0 (rsum p (fun i => dx i * c 0 i + c 0 i * dx i))).
  { apply (d_rsum p (fun i t => c t i * c t i) (fun i => dx i * c 0 i + c 0 i * dx i)). intros i Hi. apply d_mult; apply P2; exact Hi. }
  destruct (lip _ _ D) as (d1 & D1 & L1). set (C := Rabs (rsum p (fun i => dx i * c 0 i + c 0 i * dx i)) + 1) in *. assert (C0 : 0 < C) by (unfold C; pose proof (Rabs_pos (rsum p (fun i => dx i * c 0 i + c 0 i * dx i))); lra).
  assert (NE : norm (F:=RS) p x = sqrt (rsum p (fun i => x i * x i))) by reflexivity. assert (EQ0 : rsum p (fun i => c 0 i * c 0 i) = rsum p (fun i => x i * x i)) by (apply rsum_ext; intros i Hi; rewrite P1 by exact Hi; reflexivity).
  pose proof (inner_self p x) as SP0. rewrite inner_r in SP0. set (q := rsum p (fun i => x i * x i)) in *. pose proof (sqrt_pos q) as SQ. rewrite NE in HM.
  assert (QM : q < M * M). { rewrite <- (sqrt_sqrt q SP0). apply Rmult_le_0_lt_compat; assumption. }
  exists (Rmin d1 ((M * M - q) / C)). assert (X0 : 0 < (M * M - q) / C) by (apply Rdiv_lt_0_compat; lra). split; [apply Rmin_glb_lt; assumption|]. intros t Ht.
  pose proof (Rmin_l d1 ((M * M - q) / C)). pose proof (Rmin_r d1 ((M * M - q) / C)). specialize (L1 t ltac:(lra)). rewrite EQ0 in L1.
  assert (CT : C * Rabs t <= M * M - q). { apply Rle_trans with (C * ((M * M - q) / C)); [apply Rmult_le_compat_l; lra|right; field; lra]. }
  assert (B : rsum p (fun i => c t i * c t i) <= M * M). { pose proof (Rle_abs (rsum p (fun i => c t i * c t i) - q)). lra. }
  change (norm (F:=RS) p (c t)) with (sqrt (rsum p (fun i => c t i * c t i))). rewrite <- (sqrt_square M) by lra. apply sqrt_le_1_alt. exact B.
Qed.
Lemma near_limits : o_check_bounds (il_opts s) = true -> exists del, 0 < del /\ forall a, Rabs a <= del -> within_limits n m (il_opts s) (closed a).
Proof.
  intros CB. assert (G1 : forall a, length (closed a) = S N) by (intros a; apply closed_sim).
  destruct (fin_del N (fun i t => norm (F:=RS) n (fst (curve_of closed (S i)) t) <= o_state_max (il_opts s) /\ norm (F:=RS) m (snd (curve_of closed i) t) <= o_control_max (il_opts s))) as (del & D0 & D1).
  - intros i Hi. destruct (nth_error_ex Z i) as [z Ez]; [rewrite LZ; fold N; lia|]. destruct (nth_error_ex Z (S i)) as [z' Ez']; [rewrite LZ; fold N; lia|]. destruct (IN CB i z z' Ez Ez') as [B1 B2].
    destruct (sim_pts closed G1 (fun a => proj1 (closed_sim a)) i z ltac:(lia) Ez) as [_ Q]. destruct (Q Hi) as [du PU]. destruct (sim_pts closed G1 (fun a => proj1 (closed_sim a)) (S i) z' ltac:(lia) Ez') as [[dx PX] _].
    destruct (norm_near n _ _ _ _ PX B1) as (da & A0 & A1). destruct (norm_near m _ _ _ _ PU B2) as (db & C0 & C1). exists (Rmin da db). split; [apply Rmin_glb_lt; assumption|]. intros t Ht. pose proof (Rmin_l da db). pose proof (Rmin_r da db). split; [apply A1; lra|apply C1; lra].
  - exists del. split; [exact D0|]. intros a Ha k y y' Hy Hy'. assert (Hk : (S k < S N)%nat) by (rewrite <- (G1 a); apply nth_error_Some; congruence). destruct (D1 a Ha k ltac:(lia)) as [B1 B2].
    rewrite (fam_nth closed G1 a k) in Hy by lia. rewrite (fam_nth closed G1 a (S k)) in Hy' by lia. inversion Hy; inversion Hy'; subst y y'. split; apply Rltb_false; assumption.
Qed.
Theorem small_steps : o_ls_lb (il_opts s) < 1 < o_ls_ub (il_opts s) -> il_dV0 s2 < 0 -> is_derive (fun a => total_cost V s (closed a)) 0 (il_dV0 s2) ->
  exists a0, 0 < a0 /\ forall a, 0 < a < a0 -> ~ turned_down n m V s2 (times Zb) Z (total_cost V s Z) a.
Proof.
  intros [HLB HUB] NEG DER. set (lb := o_ls_lb (il_opts s)) in *. set (ub := o_ls_ub (il_opts s)) in *. set (sl := - il_dV0 s2) in *. assert (SL : 0 < sl) by (unfold sl; lra).
  set (eta := Rmin (1 / 2) (Rmin ((1 - lb) / 2) ((ub - 1) / (1 + ub)))).
  assert (E1 : 0 < eta). { unfold eta. apply Rmin_glb_lt; [lra|]. apply Rmin_glb_lt; [lra|]. apply Rdiv_lt_0_compat; lra. }
  assert (E2 : eta <= 1 / 2) by apply Rmin_l. assert (E3 : eta <= (1 - lb) / 2) by (unfold eta; eapply Rle_trans; [apply Rmin_r|apply Rmin_l]).
  assert (E4 : eta * (1 + ub) <= ub - 1). { apply Rle_trans with ((ub - 1) / (1 + ub) * (1 + ub)); [apply Rmult_le_compat_r; [lra|]; unfold eta; eapply Rle_trans; [apply Rmin_r|apply Rmin_r]|right; field; lra]. }
  destruct (proj1 (small_o _ _) DER (eta * sl) ltac:(apply Rmult_lt_0_compat; lra)) as (d1 & D1 & S1).
  set (v := Rabs (il_dV1 s2) + 1). assert (V1 : 0 < v) by (unfold v; pose proof (Rabs_pos (il_dV1 s2)); lra). set (d2 := eta * sl / v). assert (D2 : 0 < d2) by (unfold d2; apply Rdiv_lt_0_compat; [apply Rmult_lt_0_compat; lra|exact V1]).
  assert (B3 : exists d3, 0 < d3 /\ forall a, Rabs a <= d3 -> o_check_bounds (il_opts s) = true -> within_limits n m (il_opts s) (closed a)).
  { destruct (o_check_bounds (il_opts s)) eqn:CB; [|exists 1; split; [lra|discriminate]]. destruct (near_limits CB) as (d & Hd & H). exists d. auto. }
  destruct B3 as (d3 & D3 & W3). exists (Rmin d1 (Rmin d2 d3)). split; [repeat apply Rmin_glb_lt; assumption|]. intros a [A0 A1].
  assert (A2 : a <= d1 /\ a <= d2 /\ a <= d3). { pose proof (Rmin_l d1 (Rmin d2 d3)). pose proof (Rmin_r d1 (Rmin d2 d3)). pose proof (Rmin_l d2 d3). pose proof (Rmin_r d2 d3). lra. } destruct A2 as (A2 & A3 & A4).
  assert (AA : Rabs a = a) by (apply Rabs_pos_eq; lra). intros [(Y & SY & LY & NA)|(CB & P & p & p' & SPP & LP' & LIM)].
  - rewrite LZ in LY. set (J := total_cost V s Y) in *. set (J0 := total_cost V s Z) in *.
    specialize (S1 a ltac:(lra)). rewrite closed0, <- (sim_same a Y SY LY), AA in S1. fold J J0 in S1. unfold Rabs in S1.
    assert (SJ : a * sl * (1 - eta) <= J0 - J <= a * sl * (1 + eta)). { replace (il_dV0 s2) with (- sl) in S1 by (unfold sl; lra). destruct (Rcase_abs (J - J0 - - sl * a)); lra. }
    assert (VA : Rabs (a * il_dV1 s2) <= eta * sl). { rewrite Rabs_mult, AA. apply Rle_trans with (d2 * v); [apply Rmult_le_compat; [lra|apply Rabs_pos|lra|unfold v; lra]|]. unfold d2. right. field. lra. }
    set (e := - a * (il_dV0 s2 + a * il_dV1 s2)). assert (EE : a * sl * (1 - eta) <= e <= a * sl * (1 + eta)).
    { unfold e. replace (il_dV0 s2) with (- sl) by (unfold sl; lra). unfold Rabs in VA. assert (X : - (eta * sl) <= a * il_dV1 s2 <= eta * sl) by (destruct (Rcase_abs (a * il_dV1 s2)); lra). set (q := a * il_dV1 s2) in *. nra. }
    assert (AS : 0 < a * sl) by (apply Rmult_lt_0_compat; lra). assert (PE : 0 < e) by nra. assert (PJ : 0 < J0 - J) by nra.
    apply (NA ((J0 - J) / e)). unfold acceptable. rewrite total2. fold J. rewrite opts2. fold lb ub. rs. fold e. split; [reflexivity|]. split; [intros H; apply Rltb_false in H; lra|].
    assert (RL : lb <= (J0 - J) / e). { apply Rmult_le_reg_r with e; [exact PE|]. replace ((J0 - J) / e * e) with (J0 - J) by (field; lra). destruct (Rle_lt_dec lb 0) as [LN|LP0]; [nra|].
      apply Rle_trans with (lb * (a * sl * (1 + eta))); [apply Rmult_le_compat_l; lra|]. nra. }
    assert (RU : (J0 - J) / e <= ub). { apply Rmult_le_reg_r with e; [exact PE|]. replace ((J0 - J) / e * e) with (J0 - J) by (field; lra). apply Rle_trans with (ub * (a * sl * (1 - eta))); [nra|apply Rmult_le_compat_l; lra]. }
    split; [apply Rleb_true; exact RL|]. split; [apply Rleb_true; exact RU|]. apply Rltb_true. lra.
  - rewrite opts2 in CB, LIM. rewrite LZ in LP'. fold N in LP'. destruct (closed_sim a) as [SC LC]. pose proof (W3 a ltac:(lra) CB) as WL. pose proof (sim_unique a _ _ SPP SC LP' LC) as UQ. set (i := length P) in *.
    assert (Ep : nth_error (P ++ [p; p']) i = Some p) by (rewrite nth_error_app2 by (unfold i; lia); unfold i; rewrite Nat.sub_diag; reflexivity).
    assert (Ep' : nth_error (P ++ [p; p']) (S i) = Some p') by (rewrite nth_error_app2 by (unfold i; lia); unfold i; replace (S (length P) - length P)%nat with 1%nat by lia; reflexivity).
    assert (LL : length (P ++ [p; p']) = S (S i)) by (rewrite app_length; cbn; unfold i; lia). rewrite LL in LP'.
    destruct (nth_error_ex (closed a) i) as [y Ey]; [lia|]. destruct (nth_error_ex (closed a) (S i)) as [y' Ey']; [lia|].
    destruct (WL i y y' Ey Ey') as [W1 W2]. destruct (UQ i p y Ep Ey) as [_ EU]. destruct (UQ (S i) p' y' Ep' Ey') as [EX _]. specialize (EU p' Ep').
    assert (NX : norm n (z_x p') = norm n (z_x y')) by (unfold norm, sqnorm; f_equal; apply dot_ext; auto).
    assert (NU : norm m (z_u p) = norm m (z_u y)) by (unfold norm, sqnorm; f_equal; apply dot_ext; auto).
    rewrite NX, NU in LIM. destruct LIM as [L1|L1]; congruence.
Qed.
End Accept.
End Step.
End S.
