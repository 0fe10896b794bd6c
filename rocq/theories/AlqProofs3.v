(** Equality-constrained linear-quadratic problems: sums over constraints, segments, first-order condition and contraction of the multipliers. *)
From Coq Require Import Reals Lra Lia List Bool ZArith Psatz Arith.
From Verif Require Import Base Lin RLin ConModel ConSpec ConProofs ConProofs2 ConProofs3 LogModel StatsModel TrajModel IlqrModel IlqrSpec CostInst AlModel LqSpec LltProofs LqProofs LqProbSpec LqProofs4 LqProofs5 AlqSpec AlqProofs AlqProofs2.
Import List ListNotations LqSpec.
Local Open Scope R_scope.

(** * indexed sums *)
Section Isum.
Context {A : Type}.
Lemma isum_shift (f : nat -> A -> R) l : forall k, isum (fun k => f (S k)) k l = isum f (S k) l.
Proof. induction l as [|a l IH]; intros k; [reflexivity|]. cbn [isum]. rewrite IH. reflexivity. Qed.
Lemma isum_ext (f g : nat -> A -> R) l : forall k, (forall i a, nth_error l i = Some a -> f (k + i)%nat a = g (k + i)%nat a) -> isum f k l = isum g k l.
Proof.
  induction l as [|a l IH]; intros k H; [reflexivity|]. cbn [isum]. rewrite (IH (S k)); [f_equal; specialize (H 0%nat a eq_refl); rewrite Nat.add_0_r in H; exact H|].
  intros i b Hb. specialize (H (S i) b Hb). rewrite Nat.add_succ_r in H. exact H.
Qed.
Lemma isum_le (f g : nat -> A -> R) l : forall k, (forall i a, nth_error l i = Some a -> f (k + i)%nat a <= g (k + i)%nat a) -> isum f k l <= isum g k l.
Proof.
  induction l as [|a l IH]; intros k H; [cbn; lra|]. cbn [isum]. pose proof (H 0%nat a eq_refl) as H0. rewrite Nat.add_0_r in H0.
  assert (isum f (S k) l <= isum g (S k) l); [|lra]. apply IH. intros i b Hb. specialize (H (S i) b Hb). rewrite Nat.add_succ_r in H. exact H.
Qed.
Lemma isum_plus (f g : nat -> A -> R) l : forall k, isum (fun k a => f k a + g k a) k l = isum f k l + isum g k l.
Proof. induction l as [|a l IH]; intros k; [cbn; lra|]. cbn [isum]. rewrite IH. lra. Qed.
Lemma isum_scal c (f : nat -> A -> R) l : forall k, isum (fun k a => c * f k a) k l = c * isum f k l.
Proof. induction l as [|a l IH]; intros k; [cbn; lra|]. cbn [isum]. rewrite IH. lra. Qed.
Lemma isum_lfsum (f : A -> R) l : forall k, isum (fun _ => f) k l = lfsum f l.
Proof. unfold lfsum. induction l as [|a l IH]; intros k; [reflexivity|]. cbn [isum fold_right]. rewrite IH. reflexivity. Qed.
Lemma isum_nonneg (f : nat -> A -> R) l : forall k, (forall i a, nth_error l i = Some a -> 0 <= f (k + i)%nat a) -> 0 <= isum f k l.
Proof.
  intros k H. replace 0 with (isum (fun _ _ => 0) k l); [apply isum_le; exact H|]. clear H. revert k. induction l as [|a l IH]; intros k; [reflexivity|]. cbn [isum]. rewrite IH. lra.
Qed.
Lemma isum_one (f : nat -> A -> R) l i a : forall k, (forall i a, nth_error l i = Some a -> 0 <= f (k + i)%nat a) -> nth_error l i = Some a -> f (k + i)%nat a <= isum f k l.
Proof.
  revert i. induction l as [|b l IH]; intros i k H E; [destruct i; discriminate|]. cbn [isum].
  assert (H0 : 0 <= f k b) by (specialize (H 0%nat b eq_refl); rewrite Nat.add_0_r in H; exact H).
  assert (H1 : forall i a, nth_error l i = Some a -> 0 <= f (S k + i)%nat a) by (intros j c Hc; specialize (H (S j) c Hc); rewrite Nat.add_succ_r in H; exact H).
  destruct i as [|i]; cbn in E.
  - inversion E; subst. rewrite Nat.add_0_r. pose proof (isum_nonneg f l (S k) H1). lra.
  - rewrite Nat.add_succ_r. pose proof (IH i (S k) H1 E) as P. cbn in P. lra.
Qed.
End Isum.
Lemma isum_ext2 {A B} (f : nat -> A -> R) (g : nat -> B -> R) (l : list A) (l' : list B) : length l = length l' -> forall k, (forall i a b, nth_error l i = Some a -> nth_error l' i = Some b -> f (k + i)%nat a = g (k + i)%nat b) -> isum f k l = isum g k l'.
Proof.
  revert l'. induction l as [|a l IH]; intros [|b l'] L k H; try discriminate; [reflexivity|]. cbn [isum]. injection L as L. rewrite (IH l' L (S k)); [f_equal; specialize (H 0%nat a b eq_refl eq_refl); rewrite Nat.add_0_r in H; exact H|].
  intros i x y Hx Hy. specialize (H (S i) x y Hx Hy). rewrite Nat.add_succ_r in H. exact H.
Qed.
Lemma fsum_le p f g : (forall i, (i < p)%nat -> f i <= g i) -> fsum p f <= fsum p g.
Proof. intros H. induction p as [|p IH]; [cbn; lra|]. rewrite !fsum_S. pose proof (H p ltac:(lia)). assert (fsum p f <= fsum p g); [|lra]. apply IH. intros. apply H. lia. Qed.
Lemma fsum_ext p f g : (forall i, (i < p)%nat -> f i = g i) -> fsum p f = fsum p g.
Proof. intros H. rewrite !fsum_rsum. apply rsum_ext. exact H. Qed.
Lemma fsum_plus p f g : fsum p (fun i => f i + g i) = fsum p f + fsum p g.
Proof. induction p as [|p IH]; [cbn; lra|]. rewrite !fsum_S, IH. lra. Qed.
Lemma fsum_scal c p f : fsum p (fun i => c * f i) = c * fsum p f.
Proof. induction p as [|p IH]; [cbn; lra|]. rewrite !fsum_S, IH. lra. Qed.
Lemma fsum_0 p : fsum p (fun _ => 0) = 0.
Proof. induction p as [|p IH]; [reflexivity|]. rewrite fsum_S, IH. lra. Qed.
Lemma fsum_one p f i : (forall i, (i < p)%nat -> 0 <= f i) -> (i < p)%nat -> f i <= fsum p f.
Proof.
  induction p as [|p IH]; intros H Hi; [lia|]. rewrite fsum_S. pose proof (H p ltac:(lia)). assert (P : 0 <= fsum p f) by (rewrite <- (fsum_0 p); apply fsum_le; intros; apply H; lia).
  destruct (Nat.eq_dec i p) as [->|]; [lra|]. specialize (IH ltac:(intros; apply H; lia) ltac:(lia)). lra.
Qed.
Section Tsum.
Context (cs : list (ALCost RS)).
(** (k, j, i) is component i of constraint j, [v], of knot point k *)
Definition comp (k j i : nat) (v : CV RS) : Prop := exists c, nth_error cs k = Some c /\ nth_error (al_eq c) j = Some v /\ (i < cv_p v)%nat.
Lemma tsum_ext f g : (forall k j i v, comp k j i v -> f k j i v = g k j i v) -> tsum f cs = tsum g cs.
Proof. intros H. apply isum_ext. intros k c Hk. apply isum_ext. intros j v Hj. apply fsum_ext. intros i Hi. apply H. exists c. auto. Qed.
Lemma tsum_le f g : (forall k j i v, comp k j i v -> f k j i v <= g k j i v) -> tsum f cs <= tsum g cs.
Proof. intros H. apply isum_le. intros k c Hk. apply isum_le. intros j v Hj. apply fsum_le. intros i Hi. apply H. exists c. auto. Qed.
Lemma tsum_plus f g : tsum (fun k j i v => f k j i v + g k j i v) cs = tsum f cs + tsum g cs.
Proof.
  unfold tsum. rewrite <- isum_plus. apply isum_ext. intros k c _. rewrite <- isum_plus. apply isum_ext. intros j v _. apply fsum_plus.
Qed.
Lemma tsum_scal a f : tsum (fun k j i v => a * f k j i v) cs = a * tsum f cs.
Proof. unfold tsum. rewrite <- isum_scal. apply isum_ext. intros k c _. rewrite <- isum_scal. apply isum_ext. intros j v _. apply fsum_scal. Qed.
Lemma tsum_nonneg f : (forall k j i v, comp k j i v -> 0 <= f k j i v) -> 0 <= tsum f cs.
Proof. intros H. apply isum_nonneg. intros k c Hk. apply isum_nonneg. intros j v Hj. rewrite <- (fsum_0 (cv_p v)). apply fsum_le. intros i Hi. apply H. exists c. auto. Qed.
Lemma tsum_one f k j i v : (forall k j i v, comp k j i v -> 0 <= f k j i v) -> comp k j i v -> f k j i v <= tsum f cs.
Proof.
  intros H (c & Hk & Hj & Hi). unfold tsum.
  assert (P : forall k c, nth_error cs k = Some c -> forall j v, nth_error (al_eq c) j = Some v -> 0 <= fsum (cv_p v) (fun i => f k j i v)).
  { intros k' c' Hk' j' v' Hj'. rewrite <- (fsum_0 (cv_p v')). apply fsum_le. intros i' Hi'. apply H. exists c'. auto. }
  eapply Rle_trans; [|apply (isum_one (fun k c => isum (fun j v => fsum (cv_p v) (fun i => f k j i v)) 0 (al_eq c)) cs k c 0%nat); [|exact Hk]].
  - eapply Rle_trans; [|apply (isum_one (fun j v => fsum (cv_p v) (fun i => f k j i v)) (al_eq c) j v 0%nat); [|exact Hj]].
    + apply (fsum_one (cv_p v) (fun i => f k j i v)); [|exact Hi]. intros i' Hi'. apply H. exists c. auto.
    + intros j' v' Hj'. exact (P k c Hk j' v' Hj').
  - intros k' c' Hk'. apply isum_nonneg. intros j' v' Hj'. exact (P k' c' Hk' j' v' Hj').
Qed.
Lemma duals_at k j i v : comp k j i v -> duals cs k j i = cv_lam v i.
Proof. intros (c & A & B & _). unfold duals. rewrite A, B. reflexivity. Qed.
End Tsum.
(** lists with the same constraints *)
Definition same_cons (cs cs' : list (ALCost RS)) : Prop := Forall2 (fun c c' => al_cost c' = al_cost c /\ map (@cv_con RS) (al_eq c') = map (@cv_con RS) (al_eq c)) cs cs'.
Lemma cons_refl cs : same_cons cs cs. Proof. induction cs; constructor; auto. Qed.
Lemma cons_trans a b c : same_cons a b -> same_cons b c -> same_cons a c.
Proof. intros H. revert c. induction H as [|x y l l' [A B] H IH]; intros c H'; inversion H' as [|x' y' k k' [A' B'] Hr]; subst; constructor; [split; congruence|]. apply IH. exact Hr. Qed.
Lemma F2_nth {A B} (R : A -> B -> Prop) l l' : Forall2 R l l' -> forall k a b, nth_error l k = Some a -> nth_error l' k = Some b -> R a b.
Proof. induction 1; intros [|k] u w Hu Hw; try discriminate; cbn in *; [inversion Hu; inversion Hw; subst; assumption|eauto]. Qed.
Lemma F2_len {A B} (R : A -> B -> Prop) l l' : Forall2 R l l' -> length l = length l'.
Proof. induction 1; cbn; auto. Qed.
Lemma con_p (v w : CV RS) : cv_con v = cv_con w -> cv_p v = cv_p w.
Proof. unfold cv_p. intros ->. reflexivity. Qed.
Lemma cons_sym a b : same_cons a b -> same_cons b a.
Proof. induction 1 as [|x y l l' [A B] H IH]; constructor; auto. Qed.
Lemma tsum_cons f g cs cs' : same_cons cs cs' -> (forall k j i v w, comp cs k j i v -> comp cs' k j i w -> cv_con w = cv_con v -> f k j i v = g k j i w) -> tsum f cs = tsum g cs'.
Proof.
  intros HS H. apply isum_ext2; [exact (F2_len _ _ _ HS)|]. intros k c c' Hk Hk'. destruct (F2_nth _ _ _ HS k c c' Hk Hk') as [_ E].
  apply isum_ext2; [rewrite <- (map_length (@cv_con RS)), <- E; apply map_length|]. intros j v w Hj Hj'. cbn [Nat.add].
  assert (EC : cv_con w = cv_con v). { apply (map_nth_error (@cv_con RS)) in Hj, Hj'. rewrite E, Hj in Hj'. congruence. }
  rewrite (con_p w v EC). apply fsum_ext. intros i Hi. apply H; [exists c; auto|exists c'; rewrite (con_p w v EC); auto|exact EC].
Qed.
Lemma cval_cons Y k (v w : CV RS) i : cv_con w = cv_con v -> cval Y k w i = cval Y k v i.
Proof. unfold cval. intros ->. reflexivity. Qed.
Lemma user_cons cs cs' Y : same_cons cs cs' -> user_cost cs Y = user_cost cs' Y.
Proof. intros HS. apply isum_ext2; [exact (F2_len _ _ _ HS)|]. intros k c c' Hk Hk'. destruct (F2_nth _ _ _ HS k c c' Hk Hk') as [E _]. rewrite E. reflexivity. Qed.
Lemma pairing_cons mu cs cs' Y : same_cons cs cs' -> pairing mu cs Y = pairing mu cs' Y.
Proof. intros HS. apply tsum_cons; [exact HS|]. intros. f_equal. symmetry. apply cval_cons. assumption. Qed.
Lemma lagr_cons mu cs cs' Y : same_cons cs cs' -> lagrangian mu cs Y = lagrangian mu cs' Y.
Proof. intros HS. unfold lagrangian. rewrite (user_cons cs cs' Y HS), (pairing_cons mu cs cs' Y HS). reflexivity. Qed.
Lemma comp_cons cs cs' k j i w : same_cons cs cs' -> comp cs' k j i w -> exists v, comp cs k j i v /\ cv_con w = cv_con v.
Proof.
  intros HS (c' & A & B & C). destruct (nth_error_ex cs k) as [c Hk]; [rewrite (F2_len _ _ _ HS); apply nth_error_Some; congruence|]. destruct (F2_nth _ _ _ HS k c c' Hk A) as [_ E].
  pose proof (map_nth_error (@cv_con RS) _ _ B) as B'. rewrite E in B'. destruct (nth_error_ex (al_eq c) j) as [v Hv].
  { rewrite <- (map_length (@cv_con RS)). apply nth_error_Some. congruence. }
  assert (EC : cv_con w = cv_con v) by (apply (map_nth_error (@cv_con RS)) in Hv; congruence). exists v. split; [|exact EC]. exists c. rewrite <- (con_p w v EC). auto.
Qed.

(** * the inner problem of a solver object *)
Section Inner.
Context (n m : nat).
Record wf (s : ILQR RS (ALCost RS)) : Prop := {
  wf_len : length (il_kps s) = S (il_N s);
  wf_inv : Forall (Ial n m) (il_costobjs s);
  wf_seg : forall k kp, (k < il_N s)%nat -> nth_error (il_kps s) k = Some kp -> affine n m (kp_dyn kp) /\ convex_quad n m (cquad n m (al_cost (kp_cost kp)));
  wf_end : forall kp, nth_error (il_kps s) (il_N s) = Some kp -> terminal_quad n m (cquad n m (al_cost (kp_cost kp))) /\ Forall (state_con n m) (map (@cv_con RS) (al_eq (kp_cost kp))) }.
Lemma wf_lq s : wf s -> lq_problem n m (Ial n m) (Dal n m) s.
Proof.
  intros [A B C E]. unfold il_costobjs in B. rewrite Forall_map in B. assert (SE : forall kp, In kp (il_kps s) -> semi n m (qsum (map (cv_quad n) (al_eq (kp_cost kp))))).
  { intros kp Hk. rewrite Forall_forall in B. destruct (Ial_facts n m _ (B kp Hk)) as (_ & _ & _ & _ & FL). apply semi_sum. apply Forall_map. eapply Forall_impl; [|exact FL]. intros v Hv. exact (cv_semi n m v Hv). }
  split; [exact A|exact B| |].
  - intros k kp Hk Ek. destruct (C k kp Hk Ek) as [C1 C2]. split; [exact C1|]. apply convex_add; [exact C2|]. apply SE. eapply nth_error_In; exact Ek.
  - intros kp Ek. destruct (E kp Ek) as [E1 E2]. pose proof (nth_error_In _ _ Ek) as Hin. apply terminal_add; [exact E1|apply SE; exact Hin|].
    apply no_u_sum. apply Forall_map. rewrite Forall_forall in B. destruct (Ial_facts n m _ (B kp Hin)) as (_ & _ & _ & _ & FL).
    apply Forall_forall. intros v Hv. rewrite Forall_forall in FL, E2. apply (cv_no_u n m v). apply E2. apply in_map. exact Hv.
Qed.
Lemma nth_costobj (s : ILQR RS (ALCost RS)) k c : nth_error (il_costobjs s) k = Some c -> exists kp, nth_error (il_kps s) k = Some kp /\ kp_cost kp = c.
Proof. unfold il_costobjs. intros H. rewrite nth_error_map in H. destruct (nth_error (il_kps s) k) as [kp|]; [|discriminate]. exists kp. cbn in H. split; congruence. Qed.
Lemma wf_psd s k c : wf s -> nth_error (il_costobjs s) k = Some c -> forall x u, 0 <= qpart n m (cquad n m (al_cost c)) x u.
Proof.
  intros W H. destruct (nth_costobj s k c H) as (kp & Hk & <-). assert (k < S (il_N s))%nat by (rewrite <- (wf_len s W); apply nth_error_Some; congruence).
  destruct (Nat.eq_dec k (il_N s)) as [->|].
  - destruct (wf_end s W kp Hk) as [T _]. apply terminal_semi. exact T.
  - destruct (wf_seg s W k kp ltac:(lia) Hk) as [_ C]. apply (convex_semi n m _ C).
Qed.
Section At.
Context (s : ILQR RS (ALCost RS)) (W : wf s).
Notation cs := (il_costobjs s).
Lemma comp_lin k j i v : comp cs k j i v -> cv_lin n m v.
Proof.
  intros (c & A & B & _). pose proof (wf_inv s W) as FI. rewrite Forall_forall in FI. destruct (Ial_facts n m c (FI c (nth_error_In _ _ A))) as (_ & _ & _ & _ & FL).
  rewrite Forall_forall in FL. apply FL. eapply nth_error_In; exact B.
Qed.
Lemma fold_combine {A B} (f : A -> B -> R) (l : list A) : forall Y, fold_right Rplus 0 (map (fun p => f (fst p) (snd p)) (combine l Y)) = isum (fun k a => match nth_error Y k with Some z => f a z | None => 0 end) 0 l.
Proof.
  induction l as [|a l IH]; intros Y; [destruct Y; reflexivity|]. cbn [isum]. rewrite <- isum_shift. destruct Y as [|y Y]; cbn [combine map fold_right nth_error fst snd].
  - transitivity (0 + fold_right Rplus 0 (map (fun p : A * B => f (fst p) (snd p)) (combine l []))); [destruct l; cbn; lra|]. rewrite IH. f_equal. apply isum_ext. intros i b _. cbn [Nat.add]. destruct i; reflexivity.
  - rewrite IH. reflexivity.
Qed.
Definition pen_term (Y : Traj RS) (k j i : nat) (v : CV RS) : R := - cv_lam v i * cval Y k v i + cv_pen v 0%nat / 2 * cval Y k v i ^ 2.
Lemma lq_cost_al Y : lq_cost n m (Dal n m) s Y = user_cost cs Y + tsum (pen_term Y) cs.
Proof.
  unfold lq_cost. rewrite (fold_combine (fun kp z => quad_val n m (Dal n m (kp_cost kp)) (z_x z) (z_u z)) (il_kps s) Y).
  unfold user_cost, tsum. rewrite <- isum_plus. unfold il_costobjs.
  transitivity (isum (fun k c => match nth_error Y k with Some z => quad_val n m (Dal n m c) (z_x z) (z_u z) | None => 0 end) 0 (map kp_cost (il_kps s))).
  { apply isum_ext2; [rewrite map_length; reflexivity|]. intros k a b Ha Hb. rewrite nth_error_map, Ha in Hb. inversion Hb. reflexivity. }
  apply isum_ext. intros k c Hk. cbn [Nat.add]. pose proof (wf_inv s W) as FI. rewrite Forall_forall in FI. destruct (Ial_facts n m c (FI c (nth_error_In _ _ Hk))) as (_ & _ & _ & (d & HD) & FL).
  unfold pen_term, cval. destruct (nth_error Y k) as [z|].
  - unfold Dal. rewrite val_add, (cq_val n m _ d HD), val_sum, lfsum_map, <- (isum_lfsum _ _ 0%nat). f_equal. apply isum_ext. intros j v Hv. rewrite Forall_forall in FL. pose proof (FL v (nth_error_In _ _ Hv)) as LV.
    unfold cv_quad. rewrite val_sum, lfsum_seq, fsum_rsum. apply rsum_ext. intros l Hl. unfold row_quad. rewrite val_row, (cv_lin_at n m v LV _ _ l Hl). reflexivity.
  - rewrite (isum_ext _ (fun _ _ => 0 * 0)); [rewrite isum_scal; lra|]. intros j v _. rewrite (fsum_ext _ _ (fun _ => 0)); [rewrite fsum_0; lra|]. intros; lra.
Qed.

(** ** segments *)
Definition mix (t : R) (Z Y : Traj RS) : Traj RS :=
  map (fun p => mkKP (F:=RS) (fun i => z_x (fst p) i + t * (z_x (snd p) i - z_x (fst p) i)) (fun i => z_u (fst p) i + t * (z_u (snd p) i - z_u (fst p) i)) (z_t (fst p)) (z_h (fst p))) (combine Z Y).
Lemma nth_combine {A B} (l : list A) : forall (l' : list B) k p, nth_error (combine l l') k = Some p <-> nth_error l k = Some (fst p) /\ nth_error l' k = Some (snd p).
Proof.
  induction l as [|a l IH]; intros [|b l'] [|k] p; cbn [combine nth_error]; try (split; [discriminate|intros [A' B']; discriminate]).
  - split; [intros E; inversion E; auto|]. destruct p. cbn. intros [E1 E2]. congruence.
  - apply IH.
Qed.
Lemma mix_nth t Z Y k z : nth_error (mix t Z Y) k = Some z <-> exists a b, nth_error Z k = Some a /\ nth_error Y k = Some b /\
  z = mkKP (F:=RS) (fun i => z_x a i + t * (z_x b i - z_x a i)) (fun i => z_u a i + t * (z_u b i - z_u a i)) (z_t a) (z_h a).
Proof.
  unfold mix. rewrite nth_error_map. split.
  - destruct (nth_error (combine Z Y) k) as [p|] eqn:E; [|discriminate]. apply nth_combine in E. destruct E as [E1 E2]. cbn. intros H. inversion H. exists (fst p), (snd p). auto.
  - intros (a & b & Ha & Hb & ->). assert (E : nth_error (combine Z Y) k = Some (a, b)) by (apply nth_combine; auto). rewrite E. reflexivity.
Qed.
Lemma app_mix c A t (x y : nat -> R) i : app c A (fun i => x i + t * (y i - x i)) i = app c A x i + t * (app c A y i - app c A x i).
Proof. rewrite (app_add c A x (fun i => t * (y i - x i))), (app_scal c A t (fun i => y i - x i)). rewrite !app_r. rewrite (rsum_ext c (fun j => A i j * (y j - x j)) (fun j => A i j * y j - A i j * x j)) by (intros; lra). rewrite rsum_minus. lra. Qed.
Lemma mix_candidate t Z0 Z Y : candidate n s Z0 Z -> candidate n s Z0 Y -> length Z0 = S (il_N s) -> candidate n s Z0 (mix t Z Y).
Proof.
  intros (LZ & GZ & IZ & FZ) (LY & GY & IY & FY) L0. split; [unfold mix; rewrite map_length, combine_length, LZ, LY; lia|]. split.
  - intros k z y Hk Hz Hy. apply mix_nth in Hy. destruct Hy as (a & b & Ha & Hb & ->). cbn. exact (GZ k z a Hk Hz Ha).
  - split.
    + intros z i Hz Hi. apply mix_nth in Hz. destruct Hz as (a & b & Ha & Hb & ->). cbn. rewrite (IZ a i Ha Hi), (IY b i Hb Hi). lra.
    + intros k f z z' Hf Hz Hz'. apply mix_nth in Hz, Hz'. destruct Hz as (a & b & Ha & Hb & ->). destruct Hz' as (a' & b' & Ha' & Hb' & ->). cbn [z_x z_u z_t z_h].
      assert (Hk : (k < il_N s)%nat). { assert (S k < length Z)%nat by (apply nth_error_Some; congruence). lia. }
      destruct (nth_error_ex Z0 k) as [z0 Hz0]; [lia|]. destruct (GZ k z0 a Hk Hz0 Ha) as [T1 H1]. destruct (GY k z0 b Hk Hz0 Hb) as [T2 H2].
      destruct (FZ k f a a' Hf Ha Ha') as [b1 E1]. destruct (FY k f b b' Hf Hb Hb') as [b2 E2]. exists b1. intros i Hi. rewrite (E1 i Hi), (E2 i Hi).
      rewrite nth_error_map in Hf. destruct (nth_error (il_kps s) k) as [kp|] eqn:Ek; [|discriminate]. inversion Hf; subst f. destruct (wf_seg s W k kp Hk Ek) as [(A & B & c & AF) _].
      rewrite T1, H1, T2, H2. destruct (AF (z_x a) (z_u a) (z_t z0) (z_h z0)) as (A1 & _). destruct (AF (z_x b) (z_u b) (z_t z0) (z_h z0)) as (A2 & _).
      destruct (AF (fun i => z_x a i + t * (z_x b i - z_x a i)) (fun i => z_u a i + t * (z_u b i - z_u a i)) (z_t z0) (z_h z0)) as (A3 & _).
      rewrite A1, A2, A3 by exact Hi. rewrite !app_mix. lra.
Qed.
Lemma cval_mix t Z Y k j i v : length Z = length Y -> comp cs k j i v -> cval (mix t Z Y) k v i = cval Z k v i + t * (cval Y k v i - cval Z k v i).
Proof.
  intros L Hc. pose proof (comp_lin k j i v Hc) as LV. destruct Hc as (c & _ & _ & Hi). unfold cval. destruct (nth_error Z k) as [a|] eqn:Ea.
  - destruct (nth_error_ex Y k) as [b Eb]; [rewrite <- L; apply nth_error_Some; congruence|]. rewrite Eb. pose proof (proj2 (mix_nth t Z Y k _) (ex_intro _ a (ex_intro _ b (conj Ea (conj Eb eq_refl))))) as E. rewrite E. cbn [z_x z_u].
    destruct (vl_con _ _ _ LV) as (_ & G & H & g & LC). rewrite !(lin_eval n m _ G H g LC) by exact Hi. rewrite !app_mix. lra.
  - destruct (nth_error (mix t Z Y) k) as [z|] eqn:Em; [apply mix_nth in Em; destruct Em as (a & b & Ha & _); congruence|].
    assert (nth_error Y k = None) as -> by (apply nth_error_None; rewrite <- L; apply nth_error_None; exact Ea). lra.
Qed.
Lemma user_mix t Z Y : length Z = length Y -> 0 <= t <= 1 -> user_cost cs (mix t Z Y) <= user_cost cs Z + t * (user_cost cs Y - user_cost cs Z).
Proof.
  intros L Ht. unfold user_cost.
  replace (isum _ 0 cs + t * _) with (isum (fun k c => (1 - t) * match nth_error Z k with Some z => uc_eval (al_cost c) (z_x z) (z_u z) | None => 0 end + t * match nth_error Y k with Some z => uc_eval (al_cost c) (z_x z) (z_u z) | None => 0 end) 0 cs)
    by (rewrite isum_plus, !isum_scal; lra).
  apply isum_le. intros k c Hk. cbn [Nat.add]. destruct (nth_error Z k) as [a|] eqn:Ea.
  - destruct (nth_error_ex Y k) as [b Eb]; [rewrite <- L; apply nth_error_Some; congruence|]. rewrite Eb. pose proof (proj2 (mix_nth t Z Y k _) (ex_intro _ a (ex_intro _ b (conj Ea (conj Eb eq_refl))))) as E. rewrite E. cbn [z_x z_u].
    pose proof (wf_inv s W) as FI. rewrite Forall_forall in FI. destruct (Ial_facts n m c (FI c (nth_error_In _ _ Hk))) as (_ & _ & _ & (d & HD) & _).
    rewrite <- !(cq_val n m _ d HD). pose proof (val_segment n m (cquad n m (al_cost c)) (z_x a) (z_u a) (z_x b) (z_u b) t (wf_psd s k c W Hk) Ht). lra.
  - destruct (nth_error (mix t Z Y) k) as [z|] eqn:Em; [apply mix_nth in Em; destruct Em as (a & b & Ha & _); congruence|].
    assert (nth_error Y k = None) as -> by (apply nth_error_None; rewrite <- L; apply nth_error_None; exact Ea). lra.
Qed.

(** ** first-order condition at a minimiser of the augmented Lagrangian *)
Lemma small_steps a b : (forall t, 0 < t <= 1 -> 0 <= t * a + t * t * b) -> 0 <= a.
Proof.
  intros H. destruct (Rle_dec 0 a) as [|N]; [assumption|]. exfalso. apply Rnot_le_lt in N.
  assert (Hb : 0 < b) by (specialize (H 1 ltac:(lra)); lra). 
  assert (Ht : 0 < - a / (2 * b)) by (apply Rdiv_lt_0_compat; lra).
  destruct (Rle_dec (- a / (2 * b)) 1) as [T|T].
  - specialize (H (- a / (2 * b)) (conj Ht T)). set (t := - a / (2 * b)) in *. assert (t * b = - a / 2) by (unfold t; field; lra). nra.
  - specialize (H 1 ltac:(lra)). assert (1 < - a / (2 * b)) by lra. assert (2 * b < - a) by (apply (Rmult_lt_compat_r (2 * b)) in H0; [|lra]; unfold Rdiv in H0; rewrite Rmult_assoc, Rinv_l in H0 by lra; lra). lra.
Qed.
(** multipliers after the update *)
Definition next_mult (Z : Traj RS) (k i : nat) (v : CV RS) : R := cv_lam v i - cv_pen v 0%nat * cval Z k v i.
Theorem first_order Z0 Z Y : best n m (Dal n m) s Z0 Z -> length Z0 = S (il_N s) -> candidate n s Z0 Y ->
  user_cost cs Z - tsum (fun k _ i v => next_mult Z k i v * cval Z k v i) cs <= user_cost cs Y - tsum (fun k _ i v => next_mult Z k i v * cval Y k v i) cs.
Proof.
  intros [CZ BZ] L0 CY. assert (L : length Z = length Y) by (destruct CZ as [-> _], CY as [-> _]; reflexivity).
  set (b := tsum (fun k _ i v => cv_pen v 0%nat / 2 * (cval Y k v i - cval Z k v i) ^ 2) cs).
  assert (P : 0 <= user_cost cs Y - user_cost cs Z - (tsum (fun k _ i v => next_mult Z k i v * cval Y k v i) cs - tsum (fun k _ i v => next_mult Z k i v * cval Z k v i) cs)); [|lra].
  apply (small_steps _ b). intros t Ht. specialize (BZ (mix t Z Y) (mix_candidate t Z0 Z Y CZ CY L0)). rewrite !lq_cost_al in BZ. pose proof (user_mix t Z Y L ltac:(lra)) as U.
  assert (E : tsum (pen_term (mix t Z Y)) cs = tsum (pen_term Z) cs + (- t) * (tsum (fun k _ i v => next_mult Z k i v * cval Y k v i) cs + (-1) * tsum (fun k _ i v => next_mult Z k i v * cval Z k v i) cs) + t * t * b).
  { unfold b. rewrite <- (tsum_scal cs (-1)), <- tsum_plus, <- (tsum_scal cs (- t)), <- (tsum_scal cs (t * t)), <- !tsum_plus. apply tsum_ext. intros k j i v Hc. unfold pen_term, next_mult. rewrite (cval_mix t Z Y k j i v L Hc). field. }
  rewrite E in BZ. nra.
Qed.

(** ** distance to the multipliers of a saddle point *)
Theorem fejer Z0 Z Zs mu : best n m (Dal n m) s Z0 Z -> length Z0 = S (il_N s) -> candidate n s Z0 Zs -> satisfies cs Zs ->
  (forall Y, candidate n s Z0 Y -> lagrangian mu cs Zs <= lagrangian mu cs Y) ->
  tsum (fun k j i v => (next_mult Z k i v - mu k j i) ^ 2 / cv_pen v 0%nat) cs + tsum (fun k _ i v => cv_pen v 0%nat * cval Z k v i ^ 2) cs
  <= tsum (fun k j i v => (cv_lam v i - mu k j i) ^ 2 / cv_pen v 0%nat) cs.
Proof.
  intros BZ L0 CS SA OP. pose proof (first_order Z0 Z Zs BZ L0 CS) as F. pose proof (OP Z (proj1 BZ)) as S1. unfold lagrangian, pairing in S1.
  assert (V0 : forall k j i v, comp cs k j i v -> cval Zs k v i = 0). { intros k j i v (c & A & B & C). apply (SA k c v i A); [eapply nth_error_In; exact B|exact C]. }
  assert (Z1 : forall f : nat -> nat -> nat -> CV RS -> R, tsum (fun k j i v => f k j i v * cval Zs k v i) cs = 0).
  { intros f. rewrite (tsum_ext cs _ (fun k j i v => 0 * 0)); [rewrite tsum_scal; lra|]. intros k j i v Hc. rewrite (V0 k j i v Hc). lra. }
  rewrite (Z1 (fun k j i v => next_mult Z k i v)) in F. rewrite (Z1 (fun k j i _ => mu k j i)) in S1.
  assert (E : tsum (fun k j i v => (cv_lam v i - mu k j i) ^ 2 / cv_pen v 0%nat) cs = tsum (fun k j i v => (next_mult Z k i v - mu k j i) ^ 2 / cv_pen v 0%nat) cs + tsum (fun k _ i v => cv_pen v 0%nat * cval Z k v i ^ 2) cs
    + 2 * (tsum (fun k j i v => next_mult Z k i v * cval Z k v i) cs + (-1) * tsum (fun k j i v => mu k j i * cval Z k v i) cs)).
  { rewrite <- (tsum_scal cs (-1)), <- !tsum_plus, <- (tsum_scal cs 2), <- !tsum_plus. apply tsum_ext. intros k j i v Hc. unfold next_mult. pose proof (vl_pen _ _ _ (comp_lin k j i v Hc)). field. lra. }
  rewrite E. lra.
Qed.
End At.
End Inner.
