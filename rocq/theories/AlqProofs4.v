(** Equality-constrained linear-quadratic problems: the outer loop. *)
From Coq Require Import Reals Lra Lia List Bool ZArith Psatz Arith Relations.
From Verif Require Import Base Lin RLin ConModel ConSpec ConProofs ConProofs2 ConProofs3 ConProofs4 LogModel StatsModel TrajModel IlqrModel IlqrSpec IlqrFrame IlqrProofs IlqrProofs2 IlqrProofs3 IlqrProofs4 IlqrProofs5 IlqrProofs6 IlqrProofs7 CostInst AlModel AlProofs AlProofs2 AlProofs3 AlProofs4 LqSpec LltProofs LqProofs LqProbSpec LqProofs4 LqProofs5 LqProofs6 LqProofs7 LqProofs8 AlqSpec AlqProofs AlqProofs2 AlqProofs3.
Import List ListNotations LqSpec.
Local Open Scope R_scope.

(** * corresponding constraints of two lists of cost objects *)
Definition corr (P : nat -> CV RS -> CV RS -> Prop) (cs cs' : list (ALCost RS)) : Prop := length cs = length cs' /\
  forall k c c', nth_error cs k = Some c -> nth_error cs' k = Some c' -> al_cost c' = al_cost c /\ Forall2 (fun v w => cv_con w = cv_con v /\ P k v w) (al_eq c) (al_eq c').
Lemma F2_ex {A B} (R : A -> B -> Prop) l l' : Forall2 R l l' -> forall j b, nth_error l' j = Some b -> exists a, nth_error l j = Some a /\ R a b.
Proof. induction 1 as [|x y l l' H F IH]; intros [|j] b Hb; try discriminate; cbn in *; [inversion Hb; subst; eauto|eauto]. Qed.
Lemma F2_ex' {A B} (R : A -> B -> Prop) l l' : Forall2 R l l' -> forall j a, nth_error l j = Some a -> exists b, nth_error l' j = Some b /\ R a b.
Proof. induction 1 as [|x y l l' H F IH]; intros [|j] b Hb; try discriminate; cbn in *; [inversion Hb; subst; eauto|eauto]. Qed.
Lemma corr_cons P cs cs' : corr P cs cs' -> same_cons cs cs'.
Proof.
  intros [L H]. revert cs' L H. assert (G : forall cs cs', length cs = length cs' -> forall o, (forall k c c', nth_error cs k = Some c -> nth_error cs' k = Some c' -> al_cost c' = al_cost c /\ Forall2 (fun v w => cv_con w = cv_con v /\ P (o + k)%nat v w) (al_eq c) (al_eq c')) -> same_cons cs cs').
  { clear cs. induction cs as [|c cs IH]; intros [|c' cs'] L o H; try discriminate; constructor.
    - destruct (H 0%nat c c' eq_refl eq_refl) as [A B]. split; [exact A|]. clear - B. induction B as [|v w l l' [E _] B IH]; [reflexivity|]. cbn [map]. rewrite E, IH. reflexivity.
    - injection L as L. apply (IH cs' L (S o)). intros k a a' Ha Ha'. destruct (H (S k) a a' Ha Ha') as [A B]. rewrite Nat.add_succ_r in B. auto. }
  intros cs' L H. exact (G cs cs' L 0%nat H).
Qed.
Lemma corr_comp P cs cs' k j i w : corr P cs cs' -> comp cs' k j i w -> exists v, comp cs k j i v /\ cv_con w = cv_con v /\ P k v w.
Proof.
  intros [L H] (c' & A & B & C). destruct (nth_error_ex cs k) as [c Hc]; [rewrite L; apply nth_error_Some; congruence|]. destruct (H k c c' Hc A) as [_ F].
  destruct (F2_ex _ _ _ F j w B) as (v & Hv & E & Q). exists v. split; [exists c; rewrite <- (con_p w v E); auto|auto].
Qed.
Lemma corr_comp' P cs cs' k j i v : corr P cs cs' -> comp cs k j i v -> exists w, comp cs' k j i w /\ cv_con w = cv_con v /\ P k v w.
Proof.
  intros [L H] (c & A & B & C). destruct (nth_error_ex cs' k) as [c' Hc]; [rewrite <- L; apply nth_error_Some; congruence|]. destruct (H k c c' A Hc) as [_ F].
  destruct (F2_ex' _ _ _ F j v B) as (w & Hw & E & Q). exists w. split; [exists c'; rewrite (con_p w v E); auto|auto].
Qed.
Lemma corr_trans (P Q R : nat -> CV RS -> CV RS -> Prop) cs cs' cs'' : (forall k u v w, cv_con v = cv_con u -> cv_con w = cv_con v -> P k u v -> Q k v w -> R k u w) -> corr P cs cs' -> corr Q cs' cs'' -> corr R cs cs''.
Proof.
  intros T [L H] [L' H']. split; [congruence|]. intros k a c Ha Hc. destruct (nth_error_ex cs' k) as [b Hb]; [rewrite <- L; apply nth_error_Some; congruence|].
  destruct (H k a b Ha Hb) as [A F]. destruct (H' k b c Hb Hc) as [A' F']. split; [congruence|]. revert F'. generalize (al_eq c). clear - T F. induction F as [|u v l l' [E1 E2] F IH]; intros l'' F'; inversion F' as [|v' w k1 k2 [E3 E4] F2]; subst; constructor; eauto.
  split; [congruence|]. eauto.
Qed.
Lemma corr_impl (P Q : nat -> CV RS -> CV RS -> Prop) cs cs' : (forall k v w, cv_con w = cv_con v -> P k v w -> Q k v w) -> corr P cs cs' -> corr Q cs cs'.
Proof. intros T [L H]. split; [exact L|]. intros k c c' Hc Hc'. destruct (H k c c' Hc Hc') as [A F]. split; [exact A|]. clear - F T. induction F as [|v w l l' [E1 E2] F IH]; constructor; eauto. Qed.
Lemma corr_in (P Q : nat -> CV RS -> CV RS -> Prop) cs cs' : (forall k c v w, nth_error cs k = Some c -> In v (al_eq c) -> cv_con w = cv_con v -> P k v w -> Q k v w) -> corr P cs cs' -> corr Q cs cs'.
Proof.
  intros T [L H]. split; [exact L|]. intros k c c' Hc Hc'. destruct (H k c c' Hc Hc') as [A F]. split; [exact A|]. specialize (T k c). revert T F. generalize (al_eq c) (al_eq c').
  intros l l' T F. induction F as [|v w l l' [E1 E2] F IH]; constructor; [split; [exact E1|]; apply T; auto; left; reflexivity|]. apply IH. intros u w' Hc1 Hu. apply T; [exact Hc1|]. right. exact Hu.
Qed.
Lemma corr_map (f : CV RS -> CV RS) cs : (forall v, cv_con (f v) = cv_con v) -> corr (fun _ v w => w = f v) cs (map (al_map f) cs).
Proof.
  intros Hf. split; [rewrite map_length; reflexivity|]. intros k c c' Hc Hc'. rewrite nth_error_map, Hc in Hc'. inversion Hc'; subst. split; [reflexivity|]. unfold al_map, al_set. cbn [al_eq].
  induction (al_eq c) as [|v l IH]; constructor; auto.
Qed.
Lemma corr_refl (P : nat -> CV RS -> CV RS -> Prop) cs : (forall k v, P k v v) -> corr P cs cs.
Proof. intros H. split; [reflexivity|]. intros k c c' Hc Hc'. rewrite Hc in Hc'. inversion Hc'; subst. split; [reflexivity|]. induction (al_eq c'); constructor; auto. Qed.
Lemma corr_fresh cs cs' : Forall2 (fun a b : ALCost RS => al_fresh b = al_fresh a) cs cs' -> corr (fun _ v w => CostInst.cv_fresh w = CostInst.cv_fresh v) cs cs'.
Proof.
  intros F. split; [exact (F2_len _ _ _ F)|]. intros k c c' Hc Hc'. pose proof (F2_nth _ _ _ F k c c' Hc Hc') as E. cbv beta in E. unfold al_fresh, al_map, al_set in E. injection E as _ _ E1 E2 _. split; [exact E1|].
  revert E2. generalize (al_eq c) (al_eq c'). intros l. induction l as [|v l IH]; intros [|w l'] E2; try discriminate; constructor.
  - injection E2 as A1 A2 A3 A4 A5 A6 A7 A8. split; [exact A4|]. unfold CostInst.cv_fresh, set_pjac, set_jac, set_c. cbn. congruence.
  - apply IH. injection E2. auto.
Qed.
Lemma fresh_fields (v w : CV RS) : CostInst.cv_fresh w = CostInst.cv_fresh v -> cv_lam w = cv_lam v /\ cv_pen w = cv_pen v /\ cv_scal w = cv_scal v.
Proof. intros E. unfold CostInst.cv_fresh, set_pjac, set_jac, set_c in E. injection E. auto. Qed.

(** * the first point of the outer loop *)
Definition init_rel (reset : bool) (rho : R) (_ : nat) (v w : CV RS) : Prop :=
  cv_scal w = cv_scal v /\ forall i, (i < cv_p v)%nat -> cv_lam w i = (if reset then 0 else cv_lam v i) /\ cv_pen w i = rho.
Lemma init_corr debug (s b : ILQR RS (ALCost RS)) : as_init debug s = Ok b -> 0 < o_init_pen (il_opts s) ->
  corr (init_rel (o_reset_duals (il_opts s)) (o_init_pen (il_opts s))) (il_costobjs s) (il_costobjs b).
Proof.
  unfold as_init. set (s1 := if o_reset_duals (il_opts s) then il_map_costobjs al_reset_duals s else s). cbv zeta.
  assert (H1 : corr (fun _ v w => cv_scal w = cv_scal v /\ forall i, (i < cv_p v)%nat -> cv_lam w i = (if o_reset_duals (il_opts s) then 0 else cv_lam v i)) (il_costobjs s) (il_costobjs s1)).
  { unfold s1. destruct (o_reset_duals (il_opts s)).
    - rewrite map_costobjs. eapply corr_impl; [|apply (corr_map cv_reset_duals); reflexivity]. cbv beta. intros k v w _ ->. split; [reflexivity|]. intros i Hi. cbn. rewrite vstore_lt by exact Hi. reflexivity.
    - apply corr_refl. auto. }
  clearbody s1. intros H Hp. set (rho := o_init_pen (il_opts s)) in *.
  assert (Hr : @ltb RS zero rho = true). { cbn. unfold Rltb. destruct (Rlt_dec 0 rho); [reflexivity|contradiction]. }
  assert (Hle : @leb RS zero rho = true). { cbn. unfold Rleb. destruct (Rle_dec 0 rho); [reflexivity|lra]. }
  rewrite Hr in H. rewrite als_set_penalty_ok in H by auto. cbn [bind] in H. set (cs := map (al_map (const_pen rho)) (il_costobjs s1)) in *.
  destruct (st_reset debug (il_opts s) (il_stats (il_set_costobjs cs s1))) as [st| | | | |]; try discriminate. cbn [bind] in H.
  destruct (il_recost debug _) as [s3| | | | |] eqn:E4; try discriminate. cbn [bind] in H.
  apply (f_equal (fun r => match r with Ok x => x | _ => b end)) in H. subst b. change (corr (init_rel (o_reset_duals (il_opts s)) rho) (il_costobjs s) (il_costobjs s3)).
  assert (H2 : corr (fun _ v w => w = const_pen rho v) (il_costobjs s1) cs) by (apply corr_map; reflexivity).
  assert (H3 : corr (fun _ v w => CostInst.cv_fresh w = CostInst.cv_fresh v) cs (il_costobjs s3)).
  { apply corr_fresh. destruct (recost_spec _ _ _ E4) as (_ & _ & _ & _ & _ & Z & _ & _ & _ & Hk).
    assert (EC : cs = il_costobjs (il_set_costobjs cs s1)). { rewrite set_costs_costobjs; [reflexivity|]. unfold cs, il_costobjs. now rewrite !map_length. }
    rewrite EC. unfold il_costobjs at 2. rewrite Hk. apply hist_kps. apply sim_calc_costs; [reflexivity|]. intros. apply al_eval_fresh. }
  eapply corr_trans; [|exact H1|eapply corr_trans; [|exact H2|exact H3]].
  2:{ cbv beta. intros k u v w _ _ -> E. destruct (fresh_fields _ _ E) as (A & B & C). exact (conj C (conj A B)). }
  cbv beta. intros k u v w EC _ (A & B) (A' & B' & C'). unfold init_rel. cbn in A', B', C'. split; [congruence|]. intros i Hi. rewrite B', C'. split; [apply B; exact Hi|]. rewrite vstore_lt; [reflexivity|]. rewrite (con_p v u EC). exact Hi.
Qed.

Section Outer.
Context (n m : nat) (debug : bool) (fuel : nat) (s0 : ILQR RS (ALCost RS)).
Notation IL := (ILQR RS (ALCost RS)).
Notation N := (il_N s0).
Notation cs0 := (il_costobjs s0).
(** problem data, options *)
Context (PB : eq_lq debug n m s0) (N1 : (1 <= N)%nat) (RI : o_reg_initial (il_opts s0) = 0) (RO : reg_ok (il_opts s0)) (RM : 0 <= o_reg_min (il_opts s0))
  (LB : o_ls_lb (il_opts s0) <= 1 <= o_ls_ub (il_opts s0)) (LI : (1 <= o_ls_iters (il_opts s0))%Z) (MI : (1 <= o_max_inner (il_opts s0))%Z)
  (IP : 0 < o_init_pen (il_opts s0)) (phi : R) (PP : 0 < phi) (SC : forall c v, In c cs0 -> In v (al_eq c) -> phi <= cv_scal v).
Context (ST : map fst (st_ser (il_stats s0)) = series_titles).
Context (LIM : o_check_bounds (il_opts s0) = true -> forall b j s Z Y, as_init debug s0 = Ok b -> as_reach n m debug fuel b j s -> il_Z s = Some Z -> candidate n s Z Y ->
  (forall Y', candidate n s Z Y' -> al_objective (il_costobjs s) Y <= al_objective (il_costobjs s) Y') -> within_limits n m (il_opts s) Y).
Context (Z0 : Traj RS) (HZ0 : il_Z s0 = Some Z0) (LZ0 : length Z0 = S N).

Lemma start_wf (s : IL) : same_problem s0 s -> cost_hist s0 s -> (forall c v, In c (il_costobjs s) -> In v (al_eq c) -> 0 < cv_pen v 0%nat) -> wf n m s.
Proof.
  intros [SO SN SX SD] CH HP.
  assert (LK : length (il_kps s) = S (il_N s)). { rewrite <- (map_length kp_dyn), SD, map_length, SN. apply (el_len _ _ _ _ PB). }
  assert (K : forall k kp, nth_error (il_kps s) k = Some kp -> exists kp0, nth_error (il_kps s0) k = Some kp0 /\ kp_dyn kp = kp_dyn kp0 /\ al_rel cv_steps (kp_cost kp0) (kp_cost kp)).
  { intros k kp Hk. destruct (nth_error_ex (il_kps s0) k) as [kp0 Hk0]. { rewrite (el_len _ _ _ _ PB), <- SN, <- LK. apply nth_error_Some. congruence. }
    exists kp0. split; [exact Hk0|]. pose proof (map_nth_error kp_dyn _ _ Hk) as D1. pose proof (map_nth_error kp_dyn _ _ Hk0) as D2. rewrite SD, D2 in D1. split; [congruence|].
    apply (F2_nth _ _ _ CH k); unfold il_costobjs; apply map_nth_error; assumption. }
  assert (EQ : forall cost eqs (c : ALCost RS), al_rel cv_steps (al_make n m cost eqs []) c -> al_cost c = cost /\ map (@cv_con RS) (al_eq c) = eqs).
  { intros cost eqs c (_ & _ & R3 & R4 & _). split; [exact R3|]. cbn [al_make al_eq] in R4. destruct (steps_cons _ _ R4) as [E _]. rewrite E, map_map. apply map_id. }
  assert (KI : forall k kp, nth_error (il_kps s) k = Some kp -> exists cost eqs d, al_rel cv_steps (al_make n m cost eqs []) (kp_cost kp) /\ is_quad n m cost d /\ Forall (affine_con n m) eqs /\
     ((k < il_N s)%nat -> affine n m (kp_dyn kp) /\ convex_quad n m d) /\ (k = il_N s -> terminal_quad n m d /\ Forall (state_con n m) eqs)).
  { intros k kp Hk. destruct (K k kp Hk) as (kp0 & Hk0 & ED & RL). assert (k < S (il_N s))%nat by (rewrite <- LK; apply nth_error_Some; congruence).
    destruct (Nat.eq_dec k (il_N s)) as [->|Hne].
    - rewrite SN in Hk0. destruct (el_end _ _ _ _ PB kp0 Hk0) as (cost & eqs & os & d & R1 & R2 & R3 & R4). exists cost, eqs, d.
      split; [eapply al_rel_trans; [eapply al_reach_rel; exact R1|exact RL]|]. split; [exact R3|]. split; [|split; [lia|auto]]. eapply Forall_impl; [|exact R2]. intros c (A & G & g & L). split; [exact A|]. exists G, (fun _ _ => 0), g. exact L.
    - rewrite SN in *. destruct (el_seg _ _ _ _ PB k kp0 ltac:(lia) Hk0) as (AF & cost & eqs & os & d & R1 & R2 & R3 & R4). exists cost, eqs, d.
      split; [eapply al_rel_trans; [eapply al_reach_rel; exact R1|exact RL]|]. split; [exact R3|]. split; [exact R2|]. split; [rewrite ED; auto|lia]. }
  split; [exact LK| | |].
  - unfold il_costobjs. apply Forall_map. apply Forall_forall. intros kp Hin. destruct (In_nth_error _ _ Hin) as [k Hk]. destruct (KI k kp Hk) as (cost & eqs & d & R1 & R2 & R3 & _).
    exists cost, eqs. split; [exact R1|]. split; [exact R3|]. split; [exists d; exact R2|]. intros v Hv. apply (HP (kp_cost kp)); [apply in_map; exact Hin|exact Hv].
  - intros k kp Hk Ek. destruct (KI k kp Ek) as (cost & eqs & d & R1 & R2 & R3 & R4 & _). destruct (R4 Hk) as [A B]. split; [exact A|]. destruct (EQ cost eqs _ R1) as [-> _]. apply (cq_convex n m cost d R2 B).
  - intros kp Ek. destruct (KI _ kp Ek) as (cost & eqs & d & R1 & R2 & R3 & _ & R4). destruct (R4 eq_refl) as [A B]. destruct (EQ cost eqs _ R1) as [-> ->]. split; [apply (cq_terminal n m cost d R2 A)|exact B].
Qed.

Lemma pen_pos j rho f : 0 < rho -> 0 < f -> 0 < pen_after (F:=RS) j rho f.
Proof. intros A B. induction j as [|j IH]; [exact A|]. cbn [pen_after]. rs. apply Rmult_lt_0_compat; assumption. Qed.
(** state of the outer loop after j iterations *)
Definition energy (mu : nat -> nat -> nat -> R) (cs : list (ALCost RS)) : R := tsum (fun k j i v => (cv_lam v i - mu k j i) ^ 2 / cv_pen v 0%nat) cs.
Definition E0 (mu : nat -> nat -> nat -> R) : R := mdist2 (start_duals s0) mu cs0 / o_init_pen (il_opts s0).
Record outer_inv (j : nat) (s : IL) : Prop := {
  oi_prob : same_problem s0 s; oi_hist : cost_hist s0 s; oi_pens : pens_at j (o_init_pen (il_opts s0)) (il_costobjs s);
  oi_scal : corr (fun _ v w => cv_scal w = cv_scal v) cs0 (il_costobjs s); oi_stats : stats_ok (il_stats s);
  oi_Z : exists Z, il_Z s = Some Z /\ length Z = S N /\ same_steps N Z0 Z;
  oi_energy : forall Zs mu, saddle n s0 Z0 Zs mu -> phi ^ j * energy mu (il_costobjs s) <= E0 mu }.
Lemma scal_at (s : IL) c v : corr (fun _ v w => cv_scal w = cv_scal v) cs0 (il_costobjs s) -> In c (il_costobjs s) -> In v (al_eq c) -> phi <= cv_scal v.
Proof.
  intros [L H] Hc Hv. destruct (In_nth_error _ _ Hc) as [k Hk]. destruct (nth_error_ex cs0 k) as [c0 Hk0]; [rewrite L; apply nth_error_Some; congruence|].
  destruct (H k c0 c Hk0 Hk) as [_ F]. destruct (In_nth_error _ _ Hv) as [i Hi]. destruct (F2_ex _ _ _ F i v Hi) as (v0 & Hv0 & _ & ->). apply (SC c0); [eapply nth_error_In; exact Hk0|eapply nth_error_In; exact Hv0].
Qed.
Lemma cons_dim (s : IL) c v : same_cons cs0 (il_costobjs s) -> In c (il_costobjs s) -> In v (al_eq c) -> (1 <= cv_p v)%nat.
Proof.
  intros SC' Hc Hv. destruct (In_nth_error _ _ Hc) as [k Hk]. destruct (nth_error_ex cs0 k) as [c0 Hk0]; [rewrite (F2_len _ _ _ SC'); apply nth_error_Some; congruence|].
  destruct (F2_nth _ _ _ SC' k c0 c Hk0 Hk) as [_ E]. apply (in_map (@cv_con RS)) in Hv. rewrite E in Hv. destruct (nth_costobj s0 k c0 Hk0) as (kp & Ek & <-).
  assert (k < S N)%nat by (rewrite <- (el_len _ _ _ _ PB); apply nth_error_Some; congruence).
  assert (EQ : forall cost eqs os (c : ALCost RS), al_reach debug (al_make n m cost eqs []) os c -> map (@cv_con RS) (al_eq c) = eqs).
  { intros cost eqs os c1 R. apply al_reach_rel in R. destruct R as (_ & _ & _ & R4 & _). cbn [al_make al_eq] in R4. destruct (steps_cons _ _ R4) as [E' _]. rewrite E', map_map. apply map_id. }
  unfold cv_p. destruct (Nat.eq_dec k N) as [->|].
  - destruct (el_end _ _ _ _ PB kp Ek) as (cost & eqs & os & d & R1 & R2 & _). rewrite (EQ _ _ _ _ R1) in Hv. rewrite Forall_forall in R2. apply (R2 _ Hv).
  - destruct (el_seg _ _ _ _ PB k kp ltac:(lia) Ek) as (_ & cost & eqs & os & d & R1 & R2 & _). rewrite (EQ _ _ _ _ R1) in Hv. rewrite Forall_forall in R2. apply (R2 _ Hv).
Qed.
Lemma inv_pen j s c v i : outer_inv j s -> In c (il_costobjs s) -> In v (al_eq c) -> (i < cv_p v)%nat -> cv_pen v i = pen_after (F:=RS) j (o_init_pen (il_opts s0)) (cv_scal v).
Proof. intros I Hc Hv Hi. apply (oi_pens j s I c v i Hc); [unfold al_cvs; apply in_or_app; auto|exact Hi]. Qed.
Lemma inv_wf j s : outer_inv j s -> wf n m s.
Proof.
  intros I. apply start_wf; [apply (oi_prob j s I)|apply (oi_hist j s I)|]. intros c v Hc Hv. pose proof (scal_at s c v (oi_scal j s I) Hc Hv). pose proof (cons_dim s c v (corr_cons _ _ _ (oi_scal j s I)) Hc Hv).
  rewrite (inv_pen j s c v 0 I Hc Hv) by lia. apply pen_pos; lra.
Qed.
Lemma inv_cand j s Z Y : outer_inv j s -> il_Z s = Some Z -> candidate n s Z Y <-> candidate n s0 Z0 Y.
Proof.
  intros I HZ. destruct (oi_Z j s I) as (Z' & E & LZ & SS). rewrite HZ in E. inversion E; subst Z'. destruct (oi_prob j s I) as [_ SN SX SD]. unfold candidate. rewrite SN, SX, SD.
  split; intros (A & B & C); (split; [exact A|]; split; [|exact C]).
  - eapply steps_trans; [exact LZ|exact SS|exact B].
  - eapply steps_trans; [exact LZ0|apply steps_sym; exact SS|exact B].
Qed.
Lemma objective (s : IL) Y : wf n m s -> lq_cost n m (Dal n m) s Y = al_objective (il_costobjs s) Y.
Proof. intros W. rewrite (lq_cost_al n m s W). reflexivity. Qed.
(** ** one inner solve *)
Lemma inner_solve j b s s1 : outer_inv j s -> as_init debug s0 = Ok b -> as_reach n m debug fuel b j s -> il_solve al_ops n m als_max_violation debug fuel s = Ok s1 ->
  exists Z Z', il_Z s = Some Z /\ il_Z s1 = Some Z' /\ best n m (Dal n m) s Z Z' /\
  corr (fun k v w => CostInst.cv_fresh w = CostInst.cv_fresh v /\ forall i, (i < cv_p v)%nat -> cv_c w i = cval Z' k v i) (il_costobjs s) (il_costobjs s1).
Proof.
  intros I Hb Hr Hs. pose proof (inv_wf j s I) as W. destruct (oi_prob j s I) as [SO SN SX SD].
  destruct (solve_stored n m al_ops als_max_violation (Ial n m) (Dal n m) (al_quad_costs n m) debug fuel s s1 (wf_lq n m s W)) as (Z & Z' & Y & ks & HZ & HZ' & BZ & AG & EK);
    rewrite ?SO, ?SN; auto; try exact (oi_stats j s I); try lia.
  { intros CB Z Y HZ [CY BY]. rewrite <- SO. apply (LIM CB b j s Z Y Hb Hr HZ CY). intros Y' CY'. rewrite <- !(objective s) by exact W. apply BY. exact CY'. }
  exists Z, Z'. split; [exact HZ|]. split; [exact HZ'|]. split; [exact BZ|].
  destruct (corr_fresh _ _ (fresh_solve n m debug fuel s s1 Hs)) as [LC FC]. split; [exact LC|]. intros k c c1 Hc Hc1. destruct (FC k c c1 Hc Hc1) as [EC F2]. split; [exact EC|].
  (* values stored in c1 *)
  assert (LY : length Y = S (il_N s)). { destruct AG as [-> _]. apply (proj1 (proj1 BZ)). }
  assert (Hk : (k < S (il_N s))%nat). { rewrite <- (wf_len _ _ _ W). unfold il_costobjs in Hc. rewrite nth_error_map in Hc. apply nth_error_Some. destruct (nth_error (il_kps s) k); [discriminate|discriminate Hc]. }
  destruct (nth_error_ex Y k) as [y Hy]; [lia|]. destruct (nth_error_ex Z' k) as [z Hz]; [destruct AG as [<- _]; lia|]. destruct AG as [_ AG]. destruct (AG k z y Hz Hy) as [AX AU].
  unfold il_costobjs in Hc1. rewrite EK in Hc1. destruct (costs_at ks Y k c1 y Hc1 Hy) as (c0 & Hc0 & ->). destruct (al_eval_stores c0 (z_x y) (z_u y)) as [_ SV].
  rewrite al_eval_snd in *. unfold al_cvs, al_map, al_set in SV, F2 |- *. cbn [al_eq al_ineq] in SV, F2 |- *.
  assert (SV' : Forall (fun w => forall i, (i < cv_p w)%nat -> exists b', cv_c w i = con_eval (cv_con w) (z_x y) (z_u y) b' i) (map (fun v => cv_eval_c v (z_x y) (z_u y)) (al_eq c0))).
  { apply Forall_map. apply Forall_forall. intros v0 _ i Hi. exists (cv_c v0). cbn. rewrite vstore_lt by exact Hi. reflexivity. }
  clear SV. assert (LV : Forall (cv_lin n m) (al_eq c) /\ (k = il_N s -> Forall (state_con n m) (map (@cv_con RS) (al_eq c)))).
  { split.
    - pose proof (wf_inv _ _ _ W) as FI. rewrite Forall_forall in FI. apply (Ial_facts n m c). apply FI. eapply nth_error_In; exact Hc.
    - intros ->. destruct (nth_costobj s _ c Hc) as (kp & Ek & <-). apply (wf_end _ _ _ W kp Ek). }
  revert LV SV' F2. generalize (al_eq c) (map (fun v => cv_eval_c v (z_x y) (z_u y)) (al_eq c0)). intros l lw [LV LE] SV' F2.
  induction F2 as [|v w l lw [E1 E2] F2 IH]; [constructor|]. inversion LV as [|v' l' V1 V2]; subst. inversion SV' as [|w' l' S1 S2]; subst. constructor.
  - split; [exact E1|]. split; [exact E2|]. intros i Hi. rewrite <- (con_p w v E1) in Hi. destruct (S1 i Hi) as [b' ->]. rewrite E1. rewrite (con_p w v E1) in Hi. unfold cval. rewrite Hz.
    destruct (Nat.eq_dec k (il_N s)) as [Ek|Nk].
    + specialize (LE Ek). inversion LE as [|c' l' (_ & G & g & L) _]; subst. rewrite !(lin_eval n m _ G (fun _ _ => 0) g L) by exact Hi. rewrite !app_0. f_equal. f_equal. apply app_ext; [reflexivity|exact AX].
    + destruct (vl_con _ _ _ V1) as (_ & G & H & g & L). rewrite !(lin_eval n m _ G H g L) by exact Hi. f_equal. f_equal; apply app_ext; try reflexivity; [exact AX|apply AU; lia].
  - apply IH; [exact V2| |exact S2]. intros Ek. specialize (LE Ek). inversion LE; assumption.
Qed.
(** ** one outer iteration: multipliers and stored values afterwards *)
Definition stepped (Z' : Traj RS) (k : nat) (v w : CV RS) : Prop :=
  cv_type v = ZeroCone /\ cv_type w = ZeroCone /\ cv_scal w = cv_scal v /\ cv_pen w = cv_pen v /\ forall i, (i < cv_p v)%nat -> cv_lam w i = next_mult Z' k i v /\ cv_c w i = cval Z' k v i.
Lemma outer_stepped j b s d s' s1 s4 : outer_inv j s -> as_init debug s0 = Ok b -> as_reach n m debug fuel b j s -> outer_step n m debug fuel s d s' s1 s4 ->
  exists Z Z', il_Z s = Some Z /\ il_Z s4 = Some Z' /\ best n m (Dal n m) s Z Z' /\ corr (stepped Z') (il_costobjs s) (il_costobjs s4).
Proof.
  intros I Hb Hr S4. destruct (inner_solve j b s s1 I Hb Hr (ou_solve _ _ _ _ _ _ _ _ _ S4)) as (Z & Z' & HZ & HZ' & BZ & C1).
  exists Z, Z'. split; [exact HZ|]. split; [rewrite (ou_Z _ _ _ _ _ _ _ _ _ S4); exact HZ'|]. split; [exact BZ|].
  assert (C2 : corr (fun _ v w => w = cv_update_duals v) (il_costobjs s1) (il_costobjs s4)). { rewrite (ou_costs _ _ _ _ _ _ _ _ _ S4). apply corr_map. reflexivity. }
  pose proof (corr_trans _ _ (fun k v w => exists u, w = cv_update_duals u /\ cv_con u = cv_con v /\ CostInst.cv_fresh u = CostInst.cv_fresh v /\ forall i, (i < cv_p v)%nat -> cv_c u i = cval Z' k v i) _ _ _
    (fun k v u w E1 E2 A B => ex_intro _ u (conj B (conj E1 A))) C1 C2) as C3.
  eapply corr_in; [|exact C3]. cbv beta. intros k c v w Hc Hv E (u & -> & E1 & E2 & E3).
  assert (L : cv_lin n m v). { pose proof (wf_inv _ _ _ (inv_wf j s I)) as FI. rewrite Forall_forall in FI. destruct (Ial_facts n m c) as (_ & _ & _ & _ & FL); [apply FI; eapply nth_error_In; exact Hc|]. rewrite Forall_forall in FL. apply FL. exact Hv. }
  destruct (fresh_fields _ _ E2) as (F1 & F2 & F3). assert (F4 : cv_type u = cv_type v). { unfold CostInst.cv_fresh, set_pjac, set_jac, set_c in E2. injection E2. auto. }
  pose proof (vl_type _ _ _ L) as TV. split; [exact TV|]. split; [cbn; congruence|]. split; [exact F3|]. split; [exact F2|]. intros i Hi. split; [|cbn; apply E3; exact Hi].
  unfold cv_update_duals. cbn [cv_lam set_lam]. rewrite F4, TV. cbn [dual_cone cone_proj]. rewrite !vstore_lt by (rewrite (con_p u v E1); exact Hi). rs. rewrite F1, F2, E3 by exact Hi. unfold next_mult.
  assert (Hp : cv_pen v i = cv_pen v 0%nat). { assert (In c (il_costobjs s)) by (eapply nth_error_In; exact Hc). rewrite (inv_pen j s c v i I), (inv_pen j s c v 0 I); auto; lia. }
  rewrite Hp. reflexivity.
Qed.
Lemma cs_of j s : outer_inv j s -> same_cons cs0 (il_costobjs s). Proof. intros I. apply (corr_cons _ _ _ (oi_scal j s I)). Qed.
Lemma inv_ZL j s Z : outer_inv j s -> il_Z s = Some Z -> length Z = S (il_N s).
Proof. intros I HZ. destruct (oi_Z j s I) as (Z' & E & L & _). destruct (oi_prob j s I) as [_ -> _ _]. congruence. Qed.
Lemma satisfies_cons cs cs' Y : same_cons cs cs' -> satisfies cs Y -> satisfies cs' Y.
Proof.
  intros SC' H k c v i Hc Hv Hi. destruct (In_nth_error _ _ Hv) as [j Hj]. destruct (comp_cons cs cs' k j i v SC') as (v0 & (c0 & A & B & C) & E); [exists c; auto|].
  rewrite (cval_cons Y k v0 v i E). apply (H k c0 v0 i A); [eapply nth_error_In; exact B|exact C].
Qed.
(** the pair (trajectory, new multipliers) minimises the Lagrangian *)
Lemma stationary j b s d s' s1 s4 Z' Y : outer_inv j s -> as_init debug s0 = Ok b -> as_reach n m debug fuel b j s -> outer_step n m debug fuel s d s' s1 s4 ->
  il_Z s4 = Some Z' -> candidate n s0 Z0 Y -> candidate n s0 Z0 Z' /\ lagrangian (duals (il_costobjs s4)) cs0 Z' <= lagrangian (duals (il_costobjs s4)) cs0 Y.
Proof.
  intros I Hb Hr S4 HZ' CY. destruct (outer_stepped j b s d s' s1 s4 I Hb Hr S4) as (Z & Z1 & HZ & E & BZ & CR). rewrite HZ' in E. inversion E; subst Z1.
  split; [apply (inv_cand j s Z Z' I HZ); apply BZ|]. apply (inv_cand j s Z Y I HZ) in CY.
  pose proof (first_order n m s (inv_wf j s I) Z Z' Y BZ (inv_ZL j s Z I HZ) CY) as F. rewrite !(lagr_cons _ _ _ _ (cs_of j s I)). unfold lagrangian, pairing.
  assert (G : forall X, tsum (fun k j0 i v => duals (il_costobjs s4) k j0 i * cval X k v i) (il_costobjs s) = tsum (fun k _ i v => next_mult Z' k i v * cval X k v i) (il_costobjs s)).
  { intros X. apply tsum_ext. intros k j0 i v Hc. destruct (corr_comp' _ _ _ k j0 i v CR Hc) as (w & Hw & _ & _ & _ & _ & _ & D). rewrite (duals_at _ _ _ _ _ Hw). destruct Hc as (c & _ & _ & Hi). rewrite (proj1 (D i Hi)). reflexivity. }
  rewrite !G. exact F.
Qed.
(** energy of the new multipliers at the old penalties *)
Lemma energy_step j b s d s' s1 s4 Z' Zs mu : outer_inv j s -> as_init debug s0 = Ok b -> as_reach n m debug fuel b j s -> outer_step n m debug fuel s d s' s1 s4 ->
  il_Z s4 = Some Z' -> saddle n s0 Z0 Zs mu -> energy mu (il_costobjs s4) + tsum (fun k _ i v => cv_pen v 0%nat * cval Z' k v i ^ 2) (il_costobjs s) <= energy mu (il_costobjs s).
Proof.
  intros I Hb Hr S4 HZ' (CS & SA & OP). destruct (outer_stepped j b s d s' s1 s4 I Hb Hr S4) as (Z & Z1 & HZ & E & BZ & CR). rewrite HZ' in E. inversion E; subst Z1.
  pose proof (fejer n m s (inv_wf j s I) Z Z' Zs mu BZ (inv_ZL j s Z I HZ) (proj2 (inv_cand j s Z Zs I HZ) CS) (satisfies_cons _ _ Zs (cs_of j s I) SA)) as F.
  assert (G : energy mu (il_costobjs s4) = tsum (fun k j0 i v => (next_mult Z' k i v - mu k j0 i) ^ 2 / cv_pen v 0%nat) (il_costobjs s)).
  { symmetry. apply tsum_cons; [exact (corr_cons _ _ _ CR)|]. intros k j0 i v w Hv Hw _. destruct (corr_comp' _ _ _ k j0 i v CR Hv) as (w' & Hw' & _ & _ & _ & _ & EP & D).
    assert (w' = w). { destruct Hw as (c & A & B & _), Hw' as (c' & A' & B' & _). rewrite A in A'. inversion A'; subst. congruence. } subst w'.
    rewrite EP. destruct Hv as (c & _ & _ & Hi). rewrite (proj1 (D i Hi)). reflexivity. }
  rewrite G. apply F. intros Y CY. apply (inv_cand j s Z Y I HZ) in CY. rewrite <- !(lagr_cons _ _ _ _ (cs_of j s I)). apply OP. exact CY.
Qed.
(** ** the invariant holds at the start and after every iteration *)
Lemma inv_init b : as_init debug s0 = Ok b -> outer_inv 0 b.
Proof.
  intros Hb. destruct (init_spec debug s0 b Hb) as (P & HZ & _ & _ & _ & _ & _ & HS). pose proof (init_corr debug s0 b Hb IP) as CR.
  assert (P1 : pens_at 0 (o_init_pen (il_opts s0)) (il_costobjs b)). { apply (init_pens debug s0 b Hb); cbn; [unfold Rltb; destruct (Rlt_dec 0 (o_init_pen (il_opts s0))); [reflexivity|contradiction]|unfold Rleb; destruct (Rle_dec 0 (o_init_pen (il_opts s0))); [reflexivity|lra]]. }
  split; [exact P|exact (init_hist debug s0 b Hb)|exact P1| |apply HS; exact ST| |].
  - eapply corr_impl; [|exact CR]. intros k v w _ [A _]. exact A.
  - exists Z0. split; [congruence|]. split; [exact LZ0|]. apply steps_refl.
  - intros Zs mu _. cbn [pow]. rewrite Rmult_1_l. apply Req_le. unfold E0, mdist2. unfold Rdiv at 1. rewrite Rmult_comm, <- tsum_scal. symmetry. apply tsum_cons; [exact (corr_cons _ _ _ CR)|].
    intros k j i v w Hv Hw _. destruct (corr_comp' _ _ _ k j i v CR Hv) as (w' & Hw' & EC & _ & D).
    assert (w' = w). { destruct Hw as (c & A & B & _), Hw' as (c' & A' & B' & _). rewrite A in A'. inversion A'; subst. congruence. } subst w'. 
    assert (Hi : (i < cv_p v)%nat) by (destruct Hv as (c & _ & _ & Hi); exact Hi). destruct (D i Hi) as [D1 _]. destruct (D 0%nat ltac:(lia)) as [_ D2]. rewrite D2, D1. unfold start_duals. destruct (o_reset_duals (il_opts s0)).
    + unfold Rdiv. apply Rmult_comm.
    + rewrite (duals_at _ _ _ _ _ Hv). unfold Rdiv. apply Rmult_comm.
Qed.
Lemma inv_pos j s k j0 i v : outer_inv j s -> comp (il_costobjs s) k j0 i v -> 0 < cv_pen v 0%nat /\ phi <= cv_scal v.
Proof.
  intros I Hc. split; [apply (vl_pen _ _ _ (comp_lin n m s (inv_wf j s I) k j0 i v Hc))|]. destruct Hc as (c & A & B & _). apply (scal_at s c v (oi_scal j s I)); eapply nth_error_In; eauto.
Qed.
Lemma comp_det cs k j i v w : comp cs k j i v -> comp cs k j i w -> v = w.
Proof. intros (c & A & B & _) (c' & A' & B' & _). rewrite A in A'. inversion A'; subst. congruence. Qed.
Lemma inv_step j b s s' : outer_inv j s -> as_init debug s0 = Ok b -> as_reach n m debug fuel b j s -> as_iteration n m debug fuel s = Ok (None, s') -> outer_inv (S j) s'.
Proof.
  intros I Hb Hr Hi. destruct (init_spec debug s0 b Hb) as (P & _ & _ & _ & HO & HT & _ & HS). assert (Hr' : as_reach n m debug fuel b (S j) s') by (econstructor; eassumption).
  destruct (reach_outer n m debug fuel b (S j) s' Hr' HO HT (HS ST)) as (P' & _ & SK & _).
  destruct (as_iter_spec n m debug fuel s None s' Hi) as (s1 & s4 & S4). destruct (outer_stepped j b s None s' s1 s4 I Hb Hr S4) as (Z & Z' & HZ & HZ' & BZ & CR).
  pose proof (ou_end _ _ _ _ _ _ _ _ _ S4) as EN. cbn in EN. destruct EN as (_ & _ & _ & EZ & _ & _ & _ & EC & _).
  assert (CP : corr (fun _ v w => w = cv_update_penalties v) (il_costobjs s4) (il_costobjs s')). { rewrite EC. apply corr_map. reflexivity. }
  split.
  - eapply sp_trans; eassumption.
  - eapply hist_trans; [exact (init_hist debug s0 b Hb)|exact (reach_hist n m debug fuel b (S j) s' Hr')].
  - destruct (outer_pens n m j (o_init_pen (il_opts s0)) debug fuel s None s' s1 s4 S4 (oi_pens j s I)) as (_ & _ & A). apply A. reflexivity.
  - assert (CS : corr (fun _ v w => cv_scal w = cv_scal v) (il_costobjs s) (il_costobjs s')). { eapply corr_trans; [|exact CR|exact CP]. cbv beta. intros k u v w _ _ (_ & _ & A & _) ->. exact A. }
    eapply corr_trans; [|exact (oi_scal j s I)|exact CS]. cbv beta. intros k u v w _ _ A B. congruence.
  - exact SK.
  - exists Z'. split; [congruence|]. destruct (oi_prob j s I) as [_ SN _ _]. destruct BZ as ((LZ' & SS & _) & _). rewrite SN in LZ', SS. split; [exact LZ'|].
    destruct (oi_Z j s I) as (Z1 & E1 & LZ & SZ). rewrite HZ in E1. inversion E1; subst Z1. eapply steps_trans; [exact LZ|exact SZ|exact SS].
  - intros Zs mu SD. pose proof (energy_step j b s None s' s1 s4 Z' Zs mu I Hb Hr S4 HZ' SD) as ES. pose proof (oi_energy j s I Zs mu SD) as EI.
    assert (NN : 0 <= tsum (fun k _ i v => cv_pen v 0%nat * cval Z' k v i ^ 2) (il_costobjs s)). { apply tsum_nonneg. intros k j0 i v Hc. destruct (inv_pos j s k j0 i v I Hc) as [A _]. nra. }
    assert (LE : phi * energy mu (il_costobjs s') <= energy mu (il_costobjs s4)).
    { unfold energy at 1. rewrite <- tsum_scal. unfold energy.
      rewrite (tsum_cons (fun k j1 i v => (cv_lam v i - mu k j1 i) ^ 2 / cv_pen v 0%nat) (fun k j1 i w => (cv_lam w i - mu k j1 i) ^ 2 / (cv_pen w 0%nat / cv_scal w)) (il_costobjs s4) (il_costobjs s') (corr_cons _ _ _ CP)).
      2:{ intros k j0 i v w Hv Hw _. destruct (corr_comp' _ _ _ k j0 i v CP Hv) as (w' & Hw' & EW & ->). rewrite <- (comp_det _ _ _ _ _ _ Hw' Hw). cbn. assert (Hi0 : (0 < cv_p v)%nat) by (destruct Hv as (c & _ & _ & Q); lia).
          rewrite vstore_lt by exact Hi0. destruct (corr_comp _ _ _ k j0 i v CR Hv) as (v0 & Hv0 & _ & _ & _ & A & B & _). destruct (inv_pos j s k j0 i v0 I Hv0) as [A1 A2]. rewrite A, B. field. lra. }
      apply tsum_le. intros k j0 i w Hw. destruct (corr_comp _ _ _ k j0 i w CP Hw) as (v & Hv & _ & ->). destruct (corr_comp _ _ _ k j0 i v CR Hv) as (v0 & Hv0 & _ & _ & _ & A & B & _). destruct (inv_pos j s k j0 i v0 I Hv0) as [A1 A2].
      cbn. assert (Hi0 : (0 < cv_p v)%nat) by (destruct Hv as (c & _ & _ & Q); lia). rewrite vstore_lt by exact Hi0. rewrite A, B. rs. change (cv_lam (set_pen v (vstore (cv_p v) (fun i0 => cv_pen v i0 * cv_scal v))) i) with (cv_lam v i).
      set (x := cv_lam v i - mu k j0 i). assert (Q : 0 <= x ^ 2 / (cv_pen v0 0%nat * cv_scal v0)). { apply Rmult_le_pos; [nra|]. left. apply Rinv_0_lt_compat. apply Rmult_lt_0_compat; lra. }
      replace (x * (x * 1) / (cv_pen v0 0%nat * cv_scal v0 / cv_scal v0)) with (cv_scal v0 * (x ^ 2 / (cv_pen v0 0%nat * cv_scal v0))) by (field; lra).
      change (x * (x * 1)) with (x ^ 2). apply Rmult_le_compat_r; [exact Q|exact A2]. }
    cbn [pow]. apply Rle_trans with (phi ^ j * energy mu (il_costobjs s4)).
    + replace (phi * phi ^ j * energy mu (il_costobjs s')) with (phi ^ j * (phi * energy mu (il_costobjs s'))) by ring. apply Rmult_le_compat_l; [apply pow_le; lra|exact LE].
    + eapply Rle_trans; [|exact EI]. apply Rmult_le_compat_l; [apply pow_le; lra|lra].
Qed.
Lemma reach_inv b j s : as_init debug s0 = Ok b -> as_reach n m debug fuel b j s -> outer_inv j s.
Proof. intros Hb Hr. induction Hr as [|j s s' Hr IH Hi]; [apply inv_init; exact Hb|]. eapply inv_step; eassumption. Qed.
(** ** the result of a solve *)
Lemma finish (a a' : ALS RS) : as_il a = s0 -> as_solve n m debug fuel a = Ok a' -> (1 <= o_max_outer (il_opts s0))%Z ->
  exists b j s s1, as_init debug s0 = Ok b /\ as_reach n m debug fuel b j s /\ outer_inv j s /\ outer_step n m debug fuel s (Some (as_status a')) (as_il a') s1 (as_il a') /\ st_outer (il_stats (as_il a')) = (Z.of_nat j + 1)%Z.
Proof.
  intros EA H MO. destruct (as_run n m debug fuel a a' H) as (b & j & s & s1 & Hb & Hr & _ & S4 & _ & _ & _ & _ & _ & O2 & _); rewrite ?EA; auto.
  rewrite EA in Hb. exists b, j, s, s1. split; [exact Hb|]. split; [exact Hr|]. split; [apply (reach_inv b j s Hb Hr)|]. auto.
Qed.
Lemma pen_ge j (f : R) : phi <= f -> o_init_pen (il_opts s0) * phi ^ j <= pen_after (F:=RS) j (o_init_pen (il_opts s0)) f.
Proof.
  intros Hf. induction j as [|j IH]; cbn [pen_after pow]; [lra|]. rs. replace (o_init_pen (il_opts s0) * (phi * phi ^ j)) with (o_init_pen (il_opts s0) * phi ^ j * phi) by ring.
  apply Rmult_le_compat; [apply Rmult_le_pos; [lra|apply pow_le; lra]|lra|exact IH|exact Hf].
Qed.
(** squared violation after outer iteration j+1 *)
Lemma violation_bound j b s d s' s1 s4 Z' Zs mu : outer_inv j s -> as_init debug s0 = Ok b -> as_reach n m debug fuel b j s -> outer_step n m debug fuel s d s' s1 s4 ->
  il_Z s4 = Some Z' -> saddle n s0 Z0 Zs mu -> (o_init_pen (il_opts s0) * phi ^ j) ^ 2 * viol2 cs0 Z' <= mdist2 (start_duals s0) mu cs0.
Proof.
  intros I Hb Hr S4 HZ' SD. pose proof (energy_step j b s d s' s1 s4 Z' Zs mu I Hb Hr S4 HZ' SD) as ES. pose proof (oi_energy j s I Zs mu SD) as EI. destruct (outer_stepped j b s d s' s1 s4 I Hb Hr S4) as (Z & Z1 & _ & _ & _ & CR).
  assert (P4 : 0 <= energy mu (il_costobjs s4)).
  { apply tsum_nonneg. intros k j0 i w Hw. destruct (corr_comp _ _ _ k j0 i w CR Hw) as (v & Hv & _ & _ & _ & _ & EP & _). rewrite EP. destruct (inv_pos j s k j0 i v I Hv) as [A _]. apply Rmult_le_pos; [apply pow2_ge_0|]. left. apply Rinv_0_lt_compat. exact A. }
  assert (LV : o_init_pen (il_opts s0) * phi ^ j * viol2 cs0 Z' <= tsum (fun k _ i v => cv_pen v 0%nat * cval Z' k v i ^ 2) (il_costobjs s)).
  { unfold viol2. rewrite (tsum_cons (fun k _ i v => cval Z' k v i ^ 2) (fun k _ i v => cval Z' k v i ^ 2) cs0 (il_costobjs s) (cs_of j s I)); [|intros k j0 i v w _ _ E; rewrite (cval_cons Z' k v w i E); reflexivity].
    rewrite <- tsum_scal. apply tsum_le. intros k j0 i v Hc. destruct (inv_pos j s k j0 i v I Hc) as [_ A2]. apply Rmult_le_compat_r; [nra|]. destruct Hc as (c & A & B & Hi).
    rewrite (inv_pen j s c v 0 I); [apply pen_ge; exact A2|eapply nth_error_In; exact A|eapply nth_error_In; exact B|lia]. }
  unfold E0 in EI. assert (PJ : 0 < phi ^ j) by (apply pow_lt; exact PP). assert (EE : phi ^ j * (o_init_pen (il_opts s0) * phi ^ j * viol2 cs0 Z') <= mdist2 (start_duals s0) mu cs0 / o_init_pen (il_opts s0)).
  { eapply Rle_trans; [|exact EI]. apply Rmult_le_compat_l; [lra|]. lra. }
  apply (Rmult_le_compat_l (o_init_pen (il_opts s0))) in EE; [|lra].
  replace (o_init_pen (il_opts s0) * (mdist2 (start_duals s0) mu cs0 / o_init_pen (il_opts s0))) with (mdist2 (start_duals s0) mu cs0) in EE by (field; lra). nra.
Qed.
(** the logged violation is the largest constraint value of the trajectory *)
Lemma logged_violation j b s d s' s1 s4 Z' : outer_inv j s -> as_init debug s0 = Ok b -> as_reach n m debug fuel b j s -> outer_step n m debug fuel s d s' s1 s4 ->
  il_Z s4 = Some Z' -> let V := als_max_violation (il_costobjs s4) in 0 <= V /\ (forall k j0 i v, comp cs0 k j0 i v -> Rabs (cval Z' k v i) <= V) /\ V ^ 2 <= viol2 cs0 Z'.
Proof.
  intros I Hb Hr S4 HZ'. destruct (outer_stepped j b s d s' s1 s4 I Hb Hr S4) as (Z & Z1 & HZ & E & BZ & CR). rewrite HZ' in E. inversion E; subst Z1. cbv zeta.
  destruct (als_max_violation_spec (il_costobjs s4)) as (A & B & C). set (V := als_max_violation (il_costobjs s4)) in *. split; [exact A|].
  assert (IE : forall c, In c (il_costobjs s4) -> al_ineq c = []).
  { intros c Hc. destruct (outer_hist n m debug fuel s d s' s1 s4 S4) as (H1 & H2 & _). pose proof (hist_trans s s1 s4 H1 H2) as H4. destruct (In_nth_error _ _ Hc) as [k Hk].
    destruct (nth_error_ex (il_costobjs s) k) as [c0 Hk0]. { rewrite (F2_len _ _ _ H4). apply nth_error_Some. congruence. }
    pose proof (F2_nth _ _ _ H4 k c0 c Hk0 Hk) as (_ & _ & _ & _ & R5). pose proof (wf_inv _ _ _ (inv_wf j s I)) as FI. rewrite Forall_forall in FI.
    destruct (Ial_facts n m c0) as (_ & _ & EI & _ & _); [apply FI; eapply nth_error_In; exact Hk0|]. rewrite EI in R5. inversion R5. reflexivity. }
  pose proof (cons_trans _ _ _ (cs_of j s I) (corr_cons _ _ _ CR)) as SC4. split.
  - intros k j0 i v Hc. destruct (comp_cons (il_costobjs s4) cs0 k j0 i v (cons_sym _ _ SC4) Hc) as (w & Hw & EW). rewrite (cval_cons Z' k w v i EW). destruct (corr_comp _ _ _ k j0 i w CR Hw) as (v1 & Hv1 & E1 & _ & TW & _ & _ & D).
    rewrite (cval_cons Z' k v1 w i E1). assert (Hi : (i < cv_p v1)%nat) by (destruct Hv1 as (c & _ & _ & Q); exact Q). rewrite <- (proj2 (D i Hi)). destruct Hw as (c & W1 & W2 & W3).
    apply (B ZeroCone). exists c. split; [eapply nth_error_In; exact W1|]. exists w. split; [unfold al_cvs; apply in_or_app; left; eapply nth_error_In; exact W2|]. eauto.
  - assert (NN : forall k j0 i v, comp cs0 k j0 i v -> 0 <= cval Z' k v i ^ 2) by (intros; nra).
    destruct C as [->|(K & c & (a & Ha & v & Hv & -> & i & Hi & ->) & ->)]; [rewrite pow_ne_zero by lia; apply (tsum_nonneg cs0); exact NN|].
    unfold al_cvs in Hv. rewrite (IE a Ha), app_nil_r in Hv. destruct (In_nth_error _ _ Ha) as [k Hk]. destruct (In_nth_error _ _ Hv) as [j0 Hj0]. assert (Hw : comp (il_costobjs s4) k j0 i v) by (exists a; auto).
    destruct (corr_comp _ _ _ k j0 i v CR Hw) as (v1 & Hv1 & E1 & _ & TW & _ & _ & D). assert (Hi1 : (i < cv_p v1)%nat) by (destruct Hv1 as (c & _ & _ & Q); exact Q). rewrite TW. cbn [viol]. rewrite (proj2 (D i Hi1)).
    destruct (comp_cons _ _ k j0 i v1 (cs_of j s I) Hv1) as (v0 & Hv0 & E0'). rewrite (cval_cons Z' k v0 v1 i E0'), <- Rsqr_pow2, <- Rsqr_abs, Rsqr_pow2. exact (tsum_one cs0 (fun k _ i v => cval Z' k v i ^ 2) k j0 i v0 NN Hv0).
Qed.
(** ** inequality constraints: none at any time *)
Lemma no_ineq j s d s' s1 s4 c : outer_inv j s -> outer_step n m debug fuel s d s' s1 s4 -> In c (il_costobjs s4) -> al_ineq c = [].
Proof.
  intros I S4 Hc. destruct (outer_hist n m debug fuel s d s' s1 s4 S4) as (H1 & H2 & _). pose proof (hist_trans s s1 s4 H1 H2) as H4. destruct (In_nth_error _ _ Hc) as [k Hk].
  destruct (nth_error_ex (il_costobjs s) k) as [c0 Hk0]. { rewrite (F2_len _ _ _ H4). apply nth_error_Some. congruence. }
  pose proof (F2_nth _ _ _ H4 k c0 c Hk0 Hk) as (_ & _ & _ & _ & R5). pose proof (wf_inv _ _ _ (inv_wf j s I)) as FI. rewrite Forall_forall in FI.
  destruct (Ial_facts n m c0) as (_ & _ & EI & _ & _); [apply FI; eapply nth_error_In; exact Hk0|]. rewrite EI in R5. inversion R5. reflexivity.
Qed.
Lemma after_pow j (rho f : R) : pen_after (F:=RS) j rho f = rho * f ^ j.
Proof. induction j as [|j IH]; cbn [pen_after pow]; [symmetry; apply Rmult_1_r|]. rs. rewrite IH, Rmult_assoc, (Rmult_comm (f ^ j) f). reflexivity. Qed.
Lemma step_scal j b s d s' s1 s4 : outer_inv j s -> as_init debug s0 = Ok b -> as_reach n m debug fuel b j s -> outer_step n m debug fuel s d s' s1 s4 ->
  corr (fun _ v w => cv_scal w = cv_scal v) cs0 (il_costobjs s4).
Proof.
  intros I Hb Hr S4. destruct (outer_stepped j b s d s' s1 s4 I Hb Hr S4) as (Z & Z' & _ & _ & _ & CR). eapply corr_trans; [|exact (oi_scal j s I)|exact CR]. cbv beta. intros k u v w _ _ A (_ & _ & B & _). congruence.
Qed.
(** the logged penalty after outer iteration j+1 *)
Lemma logged_penalty j b s d s' s1 s4 P : outer_inv j s -> as_init debug s0 = Ok b -> as_reach n m debug fuel b j s -> outer_step n m debug fuel s d s' s1 s4 ->
  0 <= P -> (forall c v, In c cs0 -> In v (al_eq c) -> o_init_pen (il_opts s0) * cv_scal v ^ j <= P) -> als_max_penalty (il_costobjs s4) <= P.
Proof.
  intros I Hb Hr S4 P0 HP. pose proof (step_scal j b s d s' s1 s4 I Hb Hr S4) as CR.
  assert (FE : forall a v, In a (il_costobjs s4) -> In v (al_cvs a) -> exists k j0 c0 v0, nth_error (il_costobjs s4) k = Some a /\ nth_error (al_eq a) j0 = Some v /\ In c0 cs0 /\ In v0 (al_eq c0) /\ cv_con v = cv_con v0 /\ cv_scal v = cv_scal v0).
  { intros a v Ha Hv. unfold al_cvs in Hv. rewrite (no_ineq j s d s' s1 s4 a I S4 Ha), app_nil_r in Hv. destruct (In_nth_error _ _ Ha) as [k Hk]. destruct (In_nth_error _ _ Hv) as [j0 Hj0].
    destruct CR as [LC FC]. destruct (nth_error_ex cs0 k) as [c0 Hc0]; [rewrite LC; apply nth_error_Some; congruence|]. destruct (FC k c0 a Hc0 Hk) as [_ F2]. destruct (F2_ex _ _ _ F2 j0 v Hj0) as (v0 & Hv0 & E1 & E2).
    exists k, j0, c0, v0. repeat split; auto; eapply nth_error_In; eassumption. }
  destruct (als_max_penalty_spec (il_costobjs s4)) as (_ & _ & [->|(a & v & i & Ha & Hv & Hi & ->)]); [|exact P0|].
  - intros a v Ha Hv. destruct (FE a v Ha Hv) as (k & j0 & c0 & v0 & _ & Hj & Hc0 & Hv0 & E1 & _). pose proof (cons_dim s0 c0 v0 (cons_refl _) Hc0 Hv0) as D. rewrite (con_p v v0 E1). lia.
  - destruct (FE a v Ha Hv) as (k & j0 & c0 & v0 & _ & _ & Hc0 & Hv0 & _ & E2). destruct (outer_pens n m j (o_init_pen (il_opts s0)) debug fuel s d s' s1 s4 S4 (oi_pens j s I)) as (_ & PA & _).
    rewrite (PA a v i Ha Hv Hi), after_pow, E2. apply (HP c0 v0); assumption.
Qed.
(** ** uniform scaling: the multipliers come closer to those of every saddle point *)
Lemma multiplier_bound j b s d s' s1 s4 Z' Zs mu : (forall c v, In c cs0 -> In v (al_eq c) -> cv_scal v = phi) ->
  outer_inv j s -> as_init debug s0 = Ok b -> as_reach n m debug fuel b j s -> outer_step n m debug fuel s d s' s1 s4 ->
  il_Z s4 = Some Z' -> saddle n s0 Z0 Zs mu ->
  mdist2 (duals (il_costobjs s4)) mu cs0 + (o_init_pen (il_opts s0) * phi ^ j) ^ 2 * viol2 cs0 Z' <= mdist2 (duals (il_costobjs s)) mu cs0 /\
  mdist2 (duals (il_costobjs s)) mu cs0 <= mdist2 (start_duals s0) mu cs0.
Proof.
  intros UN I Hb Hr S4 HZ' SD. set (rho := o_init_pen (il_opts s0) * phi ^ j). assert (PJ : 0 < phi ^ j) by (apply pow_lt; exact PP). assert (RP : 0 < rho) by (apply Rmult_lt_0_compat; lra).
  destruct (outer_stepped j b s d s' s1 s4 I Hb Hr S4) as (Z & Z1 & _ & _ & _ & CR).
  assert (PN : forall k j0 i v, comp (il_costobjs s) k j0 i v -> cv_pen v 0%nat = rho).
  { intros k j0 i v Hc. destruct (corr_comp _ _ _ k j0 i v (oi_scal j s I) Hc) as (v0 & (c0 & A0 & B0 & _) & _ & E). destruct Hc as (c & A & B & Hi).
    rewrite (inv_pen j s c v 0 I (nth_error_In _ _ A) (nth_error_In _ _ B)) by lia. rewrite after_pow, E, (UN c0 v0); [reflexivity| |]; eapply nth_error_In; eassumption. }
  assert (EN : forall cs, same_cons cs0 cs -> (forall k j0 i v, comp cs k j0 i v -> cv_pen v 0%nat = rho) -> energy mu cs = / rho * mdist2 (duals cs) mu cs0).
  { intros cs SCS PS. unfold energy, mdist2. rewrite <- tsum_scal. symmetry. apply tsum_cons; [exact SCS|]. intros k j0 i v w _ Hw _. rewrite (PS _ _ _ _ Hw), (duals_at _ _ _ _ _ Hw). field. lra. }
  pose proof (energy_step j b s d s' s1 s4 Z' Zs mu I Hb Hr S4 HZ' SD) as ES. pose proof (oi_energy j s I Zs mu SD) as EI.
  rewrite (EN (il_costobjs s) (cs_of j s I) PN) in ES, EI. rewrite (EN (il_costobjs s4)) in ES.
  2:{ exact (cons_trans _ _ _ (cs_of j s I) (corr_cons _ _ _ CR)). }
  2:{ intros k j0 i w Hw. destruct (corr_comp _ _ _ k j0 i w CR Hw) as (v & Hv & _ & _ & _ & _ & EP & _). rewrite EP. eapply PN. exact Hv. }
  assert (EV : tsum (fun k _ i v => cv_pen v 0%nat * cval Z' k v i ^ 2) (il_costobjs s) = rho * viol2 cs0 Z').
  { unfold viol2. rewrite <- tsum_scal. symmetry. apply tsum_cons; [exact (cs_of j s I)|]. intros k j0 i v w _ Hw E. rewrite (PN _ _ _ _ Hw), (cval_cons Z' k v w i E). reflexivity. }
  rewrite EV in ES. split.
  - apply (Rmult_le_compat_l rho) in ES; [|lra]. rewrite Rmult_plus_distr_l, <- !Rmult_assoc, Rinv_r, !Rmult_1_l in ES by lra. replace (rho ^ 2) with (rho * rho) by ring. exact ES.
  - unfold E0 in EI. apply (Rmult_le_compat_l (o_init_pen (il_opts s0))) in EI; [|lra].
    replace (o_init_pen (il_opts s0) * (mdist2 (start_duals s0) mu cs0 / o_init_pen (il_opts s0))) with (mdist2 (start_duals s0) mu cs0) in EI by (field; lra).
    replace (o_init_pen (il_opts s0) * (phi ^ j * (/ rho * mdist2 (duals (il_costobjs s)) mu cs0))) with (mdist2 (duals (il_costobjs s)) mu cs0) in EI; [exact EI|]. unfold rho. field. lra.
Qed.
(** ** status of the inner solves and of the whole solve *)
Context (M1 : (1 <= m)%nat) (CT : 0 < o_cost_tol (il_opts s0)) (GT : 0 < o_grad_tol (il_opts s0)) (MI2 : (2 <= o_max_inner (il_opts s0))%Z).
Lemma inner_solved j b s s1 : outer_inv j s -> as_init debug s0 = Ok b -> as_reach n m debug fuel b j s -> il_solve al_ops n m als_max_violation debug fuel s = Ok s1 ->
  (st_total (il_stats s) + 1 < o_max_total (il_opts s0))%Z -> il_status s1 = kSolved /\ (1 <= st_inner (il_stats s1) <= 2)%Z /\ st_total (il_stats s1) = (st_total (il_stats s) + st_inner (il_stats s1))%Z.
Proof.
  intros I Hb Hr Hs MT. pose proof (inv_wf j s I) as W. destruct (oi_prob j s I) as [SO SN SX SD].
  apply (solve_solved n m al_ops als_max_violation (Ial n m) (Dal n m) (al_quad_costs n m) debug fuel s s1 (wf_lq n m s W)); rewrite ?SO, ?SN; auto; try exact (oi_stats j s I).
  intros CB Z Y HZ [CY BY]. rewrite <- SO. apply (LIM CB b j s Z Y Hb Hr HZ CY). intros Y' CY'. rewrite <- !(objective s) by exact W. apply BY. exact CY'.
Qed.
Lemma reach_pred (b : IL) j s J : as_reach n m debug fuel b j s -> (J < j)%nat -> exists t t', as_reach n m debug fuel b J t /\ as_iteration n m debug fuel t = Ok (None, t').
Proof. induction 1 as [|j s s' Hr IH Hi]; intros L; [lia|]. destruct (Nat.eq_dec J j) as [->|]; [eauto|apply IH; lia]. Qed.
Lemma reach_count b j s : as_init debug s0 = Ok b -> as_reach n m debug fuel b j s -> (2 * Z.of_nat j <= o_max_total (il_opts s0))%Z -> (st_total (il_stats s) <= 2 * Z.of_nat j)%Z.
Proof.
  intros Hb Hr. destruct (init_spec debug s0 b Hb) as (_ & _ & _ & _ & _ & HT & _). induction Hr as [|j s s' Hr IH Hi]; intros L; [lia|]. specialize (IH ltac:(lia)).
  destruct (as_iter_spec n m debug fuel s None s' Hi) as (s1 & s4 & S4). pose proof (ou_solve _ _ _ _ _ _ _ _ _ S4) as E1. pose proof (ou_end _ _ _ _ _ _ _ _ _ S4) as EN. cbn in EN. destruct EN as (_ & _ & _ & _ & _ & _ & _ & _ & _ & _ & TE & _).
  destruct (inner_solved j b s s1 (reach_inv b j s Hb Hr) Hb Hr E1 ltac:(lia)) as (_ & A & B). rewrite TE, (ou_total _ _ _ _ _ _ _ _ _ S4). lia.
Qed.
Lemma small_violation J b s d s' s1 s4 Zs mu : as_init debug s0 = Ok b -> as_reach n m debug fuel b J s -> outer_step n m debug fuel s d s' s1 s4 ->
  saddle n s0 Z0 Zs mu -> 0 < o_con_tol (il_opts s0) -> mdist2 (start_duals s0) mu cs0 < (o_con_tol (il_opts s0) * (o_init_pen (il_opts s0) * phi ^ J)) ^ 2 ->
  als_max_violation (il_costobjs s4) < o_con_tol (il_opts s0).
Proof.
  intros Hb Hr S4 SD TC BD. pose proof (reach_inv b J s Hb Hr) as I. destruct (outer_stepped J b s d s' s1 s4 I Hb Hr S4) as (Z & Z' & _ & HZ' & _ & _).
  pose proof (violation_bound J b s d s' s1 s4 Z' Zs mu I Hb Hr S4 HZ' SD) as VB. destruct (logged_violation J b s d s' s1 s4 Z' I Hb Hr S4 HZ') as (V0 & _ & V2).
  set (V := als_max_violation (il_costobjs s4)) in *. assert (RP : 0 < o_init_pen (il_opts s0) * phi ^ J) by (apply Rmult_lt_0_compat; [exact IP|apply pow_lt; exact PP]). set (rho := o_init_pen (il_opts s0) * phi ^ J) in *.
  apply Rnot_le_lt. intros C. assert (H : (o_con_tol (il_opts s0) * rho) ^ 2 <= rho ^ 2 * viol2 cs0 Z').
  { rewrite Rpow_mult_distr, Rmult_comm. apply Rmult_le_compat_l; [apply pow2_ge_0|]. eapply Rle_trans; [|exact V2]. apply pow_incr. lra. }
  lra.
Qed.
Theorem solved_by J Zs mu (a a' : ALS RS) : as_il a = s0 -> as_solve n m debug fuel a = Ok a' -> saddle n s0 Z0 Zs mu -> 0 < o_con_tol (il_opts s0) ->
  mdist2 (start_duals s0) mu cs0 < (o_con_tol (il_opts s0) * (o_init_pen (il_opts s0) * phi ^ J)) ^ 2 ->
  (Z.of_nat J < o_max_outer (il_opts s0))%Z -> (2 * Z.of_nat J + 1 < o_max_total (il_opts s0))%Z ->
  0 <= o_max_pen (il_opts s0) -> (forall j c v, (j < J)%nat -> In c cs0 -> In v (al_eq c) -> o_init_pen (il_opts s0) * cv_scal v ^ j <= o_max_pen (il_opts s0)) ->
  as_status a' = kSolved /\ (1 <= st_outer (il_stats (as_il a')) <= Z.of_nat J + 1)%Z /\ (1 <= st_total (il_stats (as_il a')) <= 2 * st_outer (il_stats (as_il a')))%Z.
Proof.
  intros EA H SD TC BD MO MT P0 MP. destruct (finish a a' EA H ltac:(lia)) as (b & j & s & s1 & Hb & Hr & I & S4 & EO).
  assert (JJ : (j <= J)%nat).
  { destruct (le_lt_dec j J) as [|L]; [assumption|exfalso]. destruct (reach_pred b j s J Hr L) as (t & t' & Ht & Hi). destruct (as_iter_spec n m debug fuel t None t' Hi) as (t1 & t4 & T4).
    pose proof (small_violation J b t None t' t1 t4 Zs mu Hb Ht T4 SD TC BD) as VS. pose proof (ou_done _ _ _ _ _ _ _ _ _ T4) as DN. destruct (as_done_false t4 DN) as (D1 & _).
    pose proof (reach_inv b J t Hb Ht) as It. pose proof (solve_stats_ok al_ops n m als_max_violation debug fuel t t1 (ou_solve _ _ _ _ _ _ _ _ _ T4) (oi_stats J t It)) as SK. destruct (ou_stats _ _ _ _ _ _ _ _ _ T4 SK) as (_ & B1 & B2).
    pose proof (done_cases t4 None _ _ DN B1 B2) as DC. rewrite D1 in DC. cbn [status_eqb negb] in DC. destruct (outer_problem n m debug fuel t None t' t1 t4 T4) as (P1 & P4 & _). pose proof (sp_trans _ _ _ (oi_prob J t It) (sp_trans _ _ _ P1 P4)) as PP4. rewrite (sp_opts _ _ PP4) in DC.
    cbn in DC. unfold Rltb in DC. destruct (Rlt_dec (als_max_violation (il_costobjs t4)) (o_con_tol (il_opts s0))); [discriminate|contradiction]. }
  pose proof (reach_count b j s Hb Hr ltac:(lia)) as TS. destruct (init_spec debug s0 b Hb) as (Pb & _ & _ & _ & HO & HT & _ & HS). destruct (reach_outer n m debug fuel b j s Hr HO HT (HS ST)) as (_ & _ & _ & _ & _ & T0).
  destruct (inner_solved j b s s1 I Hb Hr (ou_solve _ _ _ _ _ _ _ _ _ S4) ltac:(lia)) as (IS & IC & IT).
  pose proof (ou_total _ _ _ _ _ _ _ _ _ S4) as TE. split; [|lia].
  pose proof (solve_stats_ok al_ops n m als_max_violation debug fuel s s1 (ou_solve _ _ _ _ _ _ _ _ _ S4) (oi_stats j s I)) as SK. destruct (ou_stats _ _ _ _ _ _ _ _ _ S4 SK) as (_ & B1 & B2).
  pose proof (done_cases _ _ _ _ (ou_done _ _ _ _ _ _ _ _ _ S4) B1 B2) as DC. rewrite (ou_status _ _ _ _ _ _ _ _ _ S4), IS in DC. cbn [status_eqb negb] in DC.
  destruct (outer_problem n m debug fuel s _ _ s1 _ S4) as (P1 & P4 & _). pose proof (sp_trans _ _ _ (oi_prob j s I) (sp_trans _ _ _ P1 P4)) as PP4. rewrite (sp_opts _ _ PP4) in DC.
  cbn in DC. unfold Rltb in DC. destruct (Rlt_dec (als_max_violation (il_costobjs (as_il a'))) (o_con_tol (il_opts s0))) as [|NV]; [congruence|exfalso].
  assert (JL : (j < J)%nat). { destruct (Nat.eq_dec j J) as [->|]; [|lia]. exfalso. apply NV. eapply small_violation; eassumption. }
  destruct (Rlt_dec (o_max_pen (il_opts s0)) (als_max_penalty (il_costobjs (as_il a')))) as [PB'|_].
  - assert (als_max_penalty (il_costobjs (as_il a')) <= o_max_pen (il_opts s0)); [|lra]. eapply (logged_penalty j b s); try eassumption. intros c v Hc Hv. apply (MP j c v JL Hc Hv).
  - destruct (Z.leb_spec (o_max_outer (il_opts s0)) (st_outer (il_stats (as_il a')))); [lia|]. destruct (Z.leb_spec (o_max_total (il_opts s0)) (st_total (il_stats (as_il a')))); [lia|discriminate].
Qed.
End Outer.
