(** Equality-constrained linear-quadratic problems: the augmented Lagrangian of a knot point is again a convex quadratic. *)
From Coq Require Import Reals Lra Lia List Bool ZArith Psatz Arith Relations.
From Coquelicot Require Import Coquelicot.
From Verif Require Import Base Lin RLin RDer ConModel ConSpec ConProofs ConProofs2 ConProofs3 ConProofs4 ConProofs5 LogModel StatsModel TrajModel IlqrModel IlqrSpec CostInst AlModel LqSpec LltProofs LqProofs LqProbSpec LqProofs4 AlqSpec.
Import List ListNotations LqSpec.
Local Open Scope R_scope.

(** * sums of quadratics *)
Definition qadd (d e : Quad) : Quad := mkQuad (fun i j => qd_Q d i j + qd_Q e i j) (fun i j => qd_H d i j + qd_H e i j) (fun i j => qd_R d i j + qd_R e i j)
  (fun i => qd_q d i + qd_q e i) (fun i => qd_r d i + qd_r e i) (qd_c d + qd_c e).
Definition qzero : Quad := mkQuad (fun _ _ => 0) (fun _ _ => 0) (fun _ _ => 0) (fun _ => 0) (fun _ => 0) 0.
(** rho/2 (a.x + b.u + g)^2 - lam (a.x + b.u + g) *)
Definition qrow (rho lam : R) (a b : nat -> R) (g : R) : Quad :=
  mkQuad (fun i j => rho * a i * a j) (fun i j => rho * a i * b j) (fun i j => rho * b i * b j) (fun i => (rho * g - lam) * a i) (fun i => (rho * g - lam) * b i) (rho / 2 * g ^ 2 - lam * g).
Definition qsum (l : list Quad) : Quad := fold_right qadd qzero l.
Section Quads.
Context (n m : nat).
Definition q_gx (d : Quad) x u i : R := app n (qd_Q d) x i + app m (qd_H d) u i + qd_q d i.
Definition q_gu (d : Quad) x u i : R := app n (fun i j => qd_H d j i) x i + app m (qd_R d) u i + qd_r d i.
Definition qpart (d : Quad) x u : R := 1 / 2 * form n n (qd_Q d) x x + form n m (qd_H d) x u + 1 / 2 * form m m (qd_R d) u u.
Lemma app_plus' c A B x i : app c (fun i j => A i j + B i j) x i = app c A x i + app c B x i.
Proof. rewrite !app_r, <- rsum_plus. apply rsum_ext. intros; lra. Qed.
Lemma form_rank1 r c k a b x y : form r c (fun i j => k * a i * b j) x y = k * inner r a x * inner c b y.
Proof.
  rewrite form_rsum, !inner_r. rewrite (rsum_ext r _ (fun i => k * rsum c (fun j => b j * y j) * (a i * x i))).
  - rewrite rsum_scal. lra.
  - intros i _. rewrite (rsum_ext c _ (fun j => k * a i * (b j * y j))) by (intros; lra). rewrite rsum_scal. lra.
Qed.
Lemma app_rank1 c k a b x i : app c (fun i j => k * a i * b j) x i = k * a i * inner c b x.
Proof. rewrite app_r, inner_r, <- rsum_scal. apply rsum_ext. intros; lra. Qed.
Lemma val_add d e x u : quad_val n m (qadd d e) x u = quad_val n m d x u + quad_val n m e x u.
Proof. unfold quad_val. cbn [qadd qd_Q qd_H qd_R qd_q qd_r qd_c]. rewrite !form_plus, !inner_add_l. lra. Qed.
Lemma qpart_add d e x u : qpart (qadd d e) x u = qpart d x u + qpart e x u.
Proof. unfold qpart. cbn [qadd qd_Q qd_H qd_R]. rewrite !form_plus. lra. Qed.
Lemma gx_add d e x u i : q_gx (qadd d e) x u i = q_gx d x u i + q_gx e x u i.
Proof. unfold q_gx. cbn [qadd qd_Q qd_H qd_q]. rewrite !app_plus'. lra. Qed.
Lemma gu_add d e x u i : q_gu (qadd d e) x u i = q_gu d x u i + q_gu e x u i.
Proof. unfold q_gu. cbn [qadd qd_R qd_H qd_r]. rewrite !app_plus'. lra. Qed.
Lemma form_0 r c x y : form r c (fun _ _ => 0) x y = 0.
Proof. rewrite form_rsum. rewrite (rsum_ext r _ (fun _ => 0 * 0)); [rewrite rsum_scal; lra|]. intros i _. rewrite (rsum_ext c _ (fun _ => 0 * 0)); [rewrite rsum_scal|intros]; lra. Qed.
Lemma app_0 c x i : app c (fun _ _ => 0) x i = 0.
Proof. rewrite app_r. rewrite (rsum_ext c _ (fun _ => 0 * 0)); [rewrite rsum_scal|intros]; lra. Qed.
Lemma val_zero x u : quad_val n m qzero x u = 0.
Proof. unfold quad_val, qzero. cbn [qd_Q qd_H qd_R qd_q qd_r qd_c]. rewrite !form_0, !inner_zero_l. lra. Qed.
Definition lin (a b : nat -> R) (g : R) x u : R := inner n a x + inner m b u + g.
Lemma val_row rho lam a b g x u : quad_val n m (qrow rho lam a b g) x u = - lam * lin a b g x u + rho / 2 * lin a b g x u ^ 2.
Proof.
  unfold quad_val, qrow, lin. cbn [qd_Q qd_H qd_R qd_q qd_r qd_c]. rewrite !form_rank1, !inner_scal_l.
  nra.
Qed.
Lemma gx_row rho lam a b g x u i : q_gx (qrow rho lam a b g) x u i = - (lam - rho * lin a b g x u) * a i.
Proof. unfold q_gx, qrow, lin. cbn [qd_Q qd_H qd_q]. rewrite !app_rank1. nra. Qed.
Lemma gu_row rho lam a b g x u i : q_gu (qrow rho lam a b g) x u i = - (lam - rho * lin a b g x u) * b i.
Proof.
  unfold q_gu, qrow, lin. cbn [qd_R qd_H qd_r]. rewrite app_rank1.
  rewrite (app_ext n _ x (fun i j => rho * b i * a j) x) by (intros; lra || reflexivity). rewrite app_rank1. nra.
Qed.
Lemma qpart_row rho lam a b g x u : qpart (qrow rho lam a b g) x u = rho / 2 * (inner n a x + inner m b u) ^ 2.
Proof. unfold qpart, qrow. cbn [qd_Q qd_H qd_R]. rewrite !form_rank1. field_simplify. nra. Qed.
(** quadratics that are convex, possibly not strictly *)
Definition semi (d : Quad) : Prop := sym n (qd_Q d) /\ sym m (qd_R d) /\ forall x u, 0 <= qpart d x u.
Lemma semi_row rho lam a b g : 0 <= rho -> semi (qrow rho lam a b g).
Proof. intros H. split; [intros i j _ _; cbn; lra|]. split; [intros i j _ _; cbn; lra|]. intros x u. rewrite qpart_row. pose proof (pow2_ge_0 (inner n a x + inner m b u)). nra. Qed.
Lemma semi_zero : semi qzero.
Proof. split; [intros i j _ _; reflexivity|]. split; [intros i j _ _; reflexivity|]. intros x u. unfold qpart, qzero. cbn. rewrite !form_0. lra. Qed.
Lemma semi_add d e : semi d -> semi e -> semi (qadd d e).
Proof.
  intros (A & B & C) (A' & B' & C'). split; [intros i j Hi Hj; cbn; rewrite (A i j), (A' i j) by auto; reflexivity|]. split; [intros i j Hi Hj; cbn; rewrite (B i j), (B' i j) by auto; reflexivity|].
  intros x u. rewrite qpart_add. specialize (C x u). specialize (C' x u). lra.
Qed.
Lemma semi_sum l : Forall semi l -> semi (qsum l).
Proof. induction 1; [apply semi_zero|apply semi_add; assumption]. Qed.
Lemma convex_semi d : convex_quad n m d -> semi d.
Proof. intros (A & B & _ & C). split; [exact A|]. split; [exact B|exact C]. Qed.
Lemma semi_R d : semi d -> forall u, 0 <= form m m (qd_R d) u u.
Proof. intros (_ & _ & C) u. specialize (C (fun _ => 0) u). unfold qpart in C. rewrite !form_zero_l in C. lra. Qed.
Lemma semi_Q d : semi d -> possemi n (qd_Q d).
Proof. intros (_ & _ & C) x. specialize (C x (fun _ => 0)). unfold qpart in C. rewrite !form_zero_r in C. lra. Qed.
Lemma convex_add d e : convex_quad n m d -> semi e -> convex_quad n m (qadd d e).
Proof.
  intros HC HS. destruct (semi_add d e (convex_semi d HC) HS) as (A & B & C). split; [exact A|]. split; [exact B|]. split; [|exact C].
  intros w Hw. cbn [qadd qd_R]. rewrite form_plus. pose proof (semi_R e HS w). destruct HC as (_ & _ & P & _). specialize (P w Hw). lra.
Qed.
Definition no_u (d : Quad) : Prop := forall i j, (j < m)%nat -> qd_H d i j = 0 /\ qd_R d i j = 0 /\ qd_r d j = 0.
Lemma no_u_add d e : no_u d -> no_u e -> no_u (qadd d e).
Proof. intros A B i j Hj. destruct (A i j Hj) as (A1 & A2 & A3). destruct (B i j Hj) as (B1 & B2 & B3). cbn. lra. Qed.
Lemma no_u_row rho lam a b g : (forall j, (j < m)%nat -> b j = 0) -> no_u (qrow rho lam a b g).
Proof. intros H i j Hj. cbn. rewrite (H j Hj). lra. Qed.
Lemma no_u_sum l : Forall no_u l -> no_u (qsum l).
Proof. induction 1; [intros i j _; cbn; auto|apply no_u_add; assumption]. Qed.
Lemma terminal_semi d : terminal_quad n m d -> forall x u, 0 <= qpart d x u.
Proof.
  intros (A & B & C) x u. unfold qpart. specialize (B x). rewrite (form_ext n m (qd_H d) x u (fun _ _ => 0) x u), (form_ext m m (qd_R d) u u (fun _ _ => 0) u u), !form_0; try (intros; reflexivity || apply C; assumption). lra.
Qed.
Lemma terminal_add d e : terminal_quad n m d -> semi e -> no_u e -> terminal_quad n m (qadd d e).
Proof.
  intros (A & B & C) HS HU. split; [intros i j Hi Hj; cbn; destruct HS as (S1 & _); rewrite (A i j), (S1 i j) by auto; reflexivity|]. split; [|apply no_u_add; assumption].
  intros x. cbn [qadd qd_Q]. rewrite form_plus. specialize (B x). pose proof (semi_Q e HS x). lra.
Qed.
(** value along a segment *)
Lemma val_segment d x u y w t : (forall x u, 0 <= qpart d x u) -> 0 <= t <= 1 ->
  quad_val n m d (fun i => x i + t * (y i - x i)) (fun i => u i + t * (w i - u i)) <= quad_val n m d x u + t * (quad_val n m d y w - quad_val n m d x u).
Proof.
  intros P Ht. set (dx := fun i => y i - x i). set (du := fun i => w i - u i).
  assert (E : forall s, quad_val n m d (fun i => x i + s * dx i) (fun i => u i + s * du i) = quad_val n m d x u + s * (1 / 2 * form n n (qd_Q d) x dx + 1 / 2 * form n n (qd_Q d) dx x + form n m (qd_H d) x du + form n m (qd_H d) dx u
    + 1 / 2 * form m m (qd_R d) u du + 1 / 2 * form m m (qd_R d) du u + inner n (qd_q d) dx + inner m (qd_r d) du) + s * s * qpart d dx du).
  { intros s. unfold quad_val, qpart. rewrite !form_add_l, !form_add_r, !form_scal_l, !form_scal_r, !inner_add_r, !inner_scal_r. lra. }
  assert (E1 : quad_val n m d y w = quad_val n m d (fun i => x i + 1 * dx i) (fun i => u i + 1 * du i)).
  { unfold quad_val. assert (X : forall i, y i = x i + 1 * dx i) by (intros; unfold dx; lra). assert (U : forall i, w i = u i + 1 * du i) by (intros; unfold du; lra).
    rewrite (form_ext n n (qd_Q d) y y (qd_Q d) _ _ (fun _ _ _ _ => eq_refl) (fun i _ => X i) (fun i _ => X i)).
    rewrite (form_ext n m (qd_H d) y w (qd_H d) _ _ (fun _ _ _ _ => eq_refl) (fun i _ => X i) (fun i _ => U i)).
    rewrite (form_ext m m (qd_R d) w w (qd_R d) _ _ (fun _ _ _ _ => eq_refl) (fun i _ => U i) (fun i _ => U i)).
    rewrite (inner_ext n (qd_q d) y (qd_q d) _ (fun _ _ => eq_refl) (fun i _ => X i)), (inner_ext m (qd_r d) w (qd_r d) _ (fun _ _ => eq_refl) (fun i _ => U i)). reflexivity. }
  rewrite E1, !E. specialize (P dx du). revert P. generalize (qpart d dx du). intros p P. assert (t * t * p <= t * p) by (assert (0 <= t * (1 - t)) by nra; nra).
  match goal with |- _ + t * ?L + _ <= _ => generalize L end. intros L. lra.
Qed.
Lemma val_sum l x u : quad_val n m (qsum l) x u = lfsum (fun d => quad_val n m d x u) l.
Proof. induction l as [|d l IH]; [apply val_zero|]. cbn [qsum fold_right]. rewrite val_add. unfold lfsum in *. cbn [fold_right]. fold (qsum l). rewrite IH. reflexivity. Qed.
Lemma gx_sum l x u i : q_gx (qsum l) x u i = lfsum (fun d => q_gx d x u i) l.
Proof. induction l as [|d l IH]; [unfold q_gx, qsum, qzero, lfsum; cbn; rewrite !app_0; lra|]. cbn [qsum fold_right]. rewrite gx_add. unfold lfsum in *. cbn [fold_right]. fold (qsum l). rewrite IH. reflexivity. Qed.
Lemma gu_sum l x u i : q_gu (qsum l) x u i = lfsum (fun d => q_gu d x u i) l.
Proof. induction l as [|d l IH]; [unfold q_gu, qsum, qzero, lfsum; cbn; rewrite !app_0; lra|]. cbn [qsum fold_right]. rewrite gu_add. unfold lfsum in *. cbn [fold_right]. fold (qsum l). rewrite IH. reflexivity. Qed.
Lemma Q_sum l i j : qd_Q (qsum l) i j = lfsum (fun d => qd_Q d i j) l.
Proof. unfold lfsum. induction l as [|d l IH]; [reflexivity|]. cbn [qsum fold_right qadd qd_Q]. fold (qsum l). rewrite IH. reflexivity. Qed.
Lemma H_sum l i j : qd_H (qsum l) i j = lfsum (fun d => qd_H d i j) l.
Proof. unfold lfsum. induction l as [|d l IH]; [reflexivity|]. cbn [qsum fold_right qadd qd_H]. fold (qsum l). rewrite IH. reflexivity. Qed.
Lemma R_sum l i j : qd_R (qsum l) i j = lfsum (fun d => qd_R d i j) l.
Proof. unfold lfsum. induction l as [|d l IH]; [reflexivity|]. cbn [qsum fold_right qadd qd_R]. fold (qsum l). rewrite IH. reflexivity. Qed.
End Quads.

(** * affine constraints *)
Definition cW (con : Con RS) (i j : nat) : bool := if Req_EM_T (con_jac con vzero vzero (fun _ _ => 0) i j) (con_jac con vzero vzero (fun _ _ => 1) i j) then true else false.
Definition cJ (con : Con RS) (i j : nat) : R := if cW con i j then con_jac con vzero vzero (fun _ _ => 0) i j else 0.
Definition cg0 (con : Con RS) (i : nat) : R := con_eval con vzero vzero vzero i.
Definition cfun (con : Con RS) (x u : vec RS) (i : nat) : R := con_eval con x u vzero i.
Section LinCon.
Context (n m : nat) (con : Con RS) (G H : nat -> nat -> R) (g : nat -> R) (L : lin_con n m con G H g).
Lemma lin_eval x u b i : (i < con_dim con)%nat -> con_eval con x u b i = app n G x i + app m H u i + g i.
Proof. intros Hi. destruct L as (W & E & _). apply E. exact Hi. Qed.
Lemma cg_lin i : (i < con_dim con)%nat -> cg0 con i = g i.
Proof. intros Hi. unfold cg0. rewrite lin_eval by exact Hi. change (@vzero RS) with (fun _ : nat => 0). rewrite !app_zero. lra. Qed.
Lemma cW_lin W i j y : con_jac con vzero vzero (fun _ _ => 0) i j = (if W : bool then y else 0) -> con_jac con vzero vzero (fun _ _ => 1) i j = (if W then y else 1) ->
  (W = false -> y = 0) -> cW con i j = W /\ cJ con i j = y.
Proof.
  intros A B C. unfold cJ, cW. rewrite A, B. destruct W.
  - destruct (Req_EM_T y y) as [_|N]; [auto|congruence].
  - destruct (Req_EM_T 0 1) as [N|_]; [lra|]. rewrite C by reflexivity. auto.
Qed.
Lemma cJ_x i j : (i < con_dim con)%nat -> (j < n)%nat -> cJ con i j = G i j.
Proof. intros Hi Hj. destruct L as (W & _ & J & _ & M & _). apply (cW_lin (W i j) i j (G i j)); [apply (J vzero vzero (fun _ _ => 0)); auto|apply (J vzero vzero (fun _ _ => 1)); auto|apply M; auto]. Qed.
Lemma cJ_u i j : (i < con_dim con)%nat -> (j < m)%nat -> cJ con i (n + j)%nat = H i j.
Proof. intros Hi Hj. destruct L as (W & _ & _ & J & _ & M). apply (cW_lin (W i (n + j)%nat) i (n + j) (H i j)); [apply (J vzero vzero (fun _ _ => 0)); auto|apply (J vzero vzero (fun _ _ => 1)); auto|apply M; auto]. Qed.
Lemma lin_true : con_true n m con (cfun con) (fun _ _ => cJ con) (cW con).
Proof.
  split.
  - intros x u buf i Hi. unfold cfun. rewrite !lin_eval by exact Hi. reflexivity.
  - intros x u buf i j Hi Hj. destruct L as (W & _ & J & J' & M & M'). destruct (Nat.lt_ge_cases j n) as [Hn|Hn].
    + destruct (cW_lin (W i j) i j (G i j)) as [A B]; [apply (J vzero vzero (fun _ _ => 0)); auto|apply (J vzero vzero (fun _ _ => 1)); auto|apply M; auto|]. rewrite A, B. apply J; auto.
    + replace j with (n + (j - n))%nat by lia. set (j' := (j - n)%nat). assert (Hj' : (j' < m)%nat) by (unfold j'; lia).
      destruct (cW_lin (W i (n + j')%nat) i (n + j') (H i j')) as [A B]; [apply (J' vzero vzero (fun _ _ => 0)); auto|apply (J' vzero vzero (fun _ _ => 1)); auto|apply M'; auto|]. rewrite A, B. apply J'; auto.
  - intros x u i j E. unfold cJ. rewrite E. reflexivity.
  - intros X U v w HX HU i Hi. rewrite !fsum_rsum.
    rewrite (rsum_ext n _ (fun j => G i j * v j)) by (intros j Hj; rewrite cJ_x by auto; reflexivity).
    rewrite (rsum_ext m _ (fun j => H i j * w j)) by (intros j Hj; rewrite cJ_u by auto; reflexivity).
    apply (d_ext (fun s => rsum n (fun j => G i j * X s j) + rsum m (fun j => H i j * U s j) + g i)); [intros s; unfold cfun; rewrite lin_eval by exact Hi; rewrite !app_r; reflexivity|].
    eapply d_eq; [apply d_plus; [apply d_plus; [apply (d_rsum n (fun j s => G i j * X s j) (fun j => G i j * v j)); intros; apply d_scal; apply HX|apply (d_rsum m (fun j s => H i j * U s j) (fun j => H i j * w j)); intros; apply d_scal; apply HU]|apply d_const]|]. lra.
Qed.
Lemma lin_cfun x u i : (i < con_dim con)%nat -> lin n m (cJ con i) (fun j => cJ con i (n + j)%nat) (cg0 con i) x u = cfun con x u i.
Proof.
  intros Hi. unfold lin, cfun. rewrite lin_eval, cg_lin by exact Hi. unfold app. rewrite !tot_rsum, !inner_r. f_equal. f_equal.
  - apply rsum_ext. intros j Hj. rewrite cJ_x by auto. reflexivity.
  - apply rsum_ext. intros j Hj. rewrite cJ_u by auto. reflexivity.
Qed.
End LinCon.

(** * one constraint object *)
Definition row_quad (n : nat) (v : CV RS) (l : nat) : Quad := qrow (cv_pen v 0%nat) (cv_lam v l) (cJ (cv_con v) l) (fun j => cJ (cv_con v) l (n + j)%nat) (cg0 (cv_con v) l).
Definition cv_quad (n : nat) (v : CV RS) : Quad := qsum (map (row_quad n v) (seq 0 (cv_p v))).
Lemma lfsum_seq {A} (f : A -> R) (h : nat -> A) p : lfsum f (map h (seq 0 p)) = rsum p (fun i => f (h i)).
Proof. rewrite <- fsum_rsum. unfold lfsum, fsum. generalize (seq 0 p). intros l. induction l as [|x l IH]; [reflexivity|]. cbn [map fold_right]. rewrite IH. reflexivity. Qed.
Lemma lfsum_map {A B} (f : B -> R) (h : A -> B) l : lfsum f (map h l) = lfsum (fun a => f (h a)) l.
Proof. unfold lfsum. induction l as [|x l IH]; [reflexivity|]. cbn [map fold_right]. rewrite IH. reflexivity. Qed.
Record cv_lin (n m : nat) (v : CV RS) : Prop := {
  vl_type : cv_type v = ZeroCone;
  vl_con : affine_con n m (cv_con v);
  vl_good : cv_good n m v (cfun (cv_con v)) (fun _ _ => cJ (cv_con v));
  vl_pen : 0 < cv_pen v 0%nat }.
Section OneCv.
Context (n m : nat) (v : CV RS) (HV : cv_lin n m v).
Lemma cv_lin_at x u l : (l < cv_p v)%nat -> lin n m (cJ (cv_con v) l) (fun j => cJ (cv_con v) l (n + j)%nat) (cg0 (cv_con v) l) x u = cfun (cv_con v) x u l.
Proof. intros Hl. destruct (vl_con _ _ _ HV) as (_ & G & H & g & L). exact (lin_cfun n m (cv_con v) G H g L x u l Hl). Qed.
Lemma cv_val x u : fst (cv_auglag v x u) = quad_val n m (cv_quad n v) x u.
Proof.
  rewrite auglag_phr by (pose proof (vl_pen _ _ _ HV); lra). unfold cv_quad. rewrite val_sum, lfsum_seq, fsum_rsum. apply rsum_ext. intros l Hl.
  unfold row_quad. rewrite val_row, cv_lin_at by exact Hl. rewrite (vl_type _ _ _ HV). unfold phr. destruct (vl_con _ _ _ HV) as (_ & G & H & g & L).
  unfold cfun. rewrite !(lin_eval n m _ G H g L) by exact Hl. reflexivity.
Qed.
Lemma cv_gx x u j : (j < n)%nat -> fst (fst (cv_gradient v x u)) j = q_gx n m (cv_quad n v) x u j.
Proof.
  intros Hj. rewrite (gradient_x n m v _ _ (vl_good _ _ _ HV) x u j Hj). unfold cv_quad. rewrite gx_sum, lfsum_seq, <- rsum_opp. apply rsum_ext. intros l Hl.
  unfold row_quad. rewrite gx_row, cv_lin_at by exact Hl. rewrite (vl_type _ _ _ HV). unfold dproj, sh. lra.
Qed.
Lemma cv_gu x u j : (j < m)%nat -> snd (fst (cv_gradient v x u)) j = q_gu n m (cv_quad n v) x u j.
Proof.
  intros Hj. rewrite (gradient_u n m v _ _ (vl_good _ _ _ HV) x u j Hj). unfold cv_quad. rewrite gu_sum, lfsum_seq, <- rsum_opp. apply rsum_ext. intros l Hl.
  unfold row_quad. rewrite gu_row, cv_lin_at by exact Hl. rewrite (vl_type _ _ _ HV). unfold dproj, sh. lra.
Qed.
Lemma cv_hess x u : (forall i j, (i < n)%nat -> (j < n)%nat -> fst (fst (fst (cv_hessian_core v x u))) i j = qd_Q (cv_quad n v) i j) /\
  (forall i j, (i < n)%nat -> (j < m)%nat -> snd (fst (fst (cv_hessian_core v x u))) i j = qd_H (cv_quad n v) i j) /\
  (forall i j, (i < m)%nat -> (j < m)%nat -> snd (fst (cv_hessian_core v x u)) i j = qd_R (cv_quad n v) i j).
Proof.
  pose proof (hess_entries n m v _ _ (vl_good _ _ _ HV) x u) as E. destruct (fst (cv_hessian_core v x u)) as [[hxx hxu] huu]. destruct E as (A & B & C). cbn [fst snd].
  unfold act in A, B, C. rewrite (vl_type _ _ _ HV) in A, B, C. cbn [dfac] in A, B, C. unfold cv_quad.
  split; [|split]; intros i j Hi Hj; [rewrite A by auto; rewrite Q_sum|rewrite B by auto; rewrite H_sum|rewrite C by auto; rewrite R_sum]; rewrite lfsum_seq; apply rsum_ext; intros l Hl; unfold row_quad; cbn [qrow qd_Q qd_H qd_R]; lra.
Qed.
Lemma cv_semi : semi n m (cv_quad n v).
Proof. apply semi_sum. apply Forall_forall. intros d Hd. apply in_map_iff in Hd. destruct Hd as (l & <- & _). apply semi_row. pose proof (vl_pen _ _ _ HV). lra. Qed.
Lemma cv_no_u : state_con n m (cv_con v) -> no_u m (cv_quad n v).
Proof.
  intros (_ & G & g & L). apply no_u_sum. apply Forall_forall. intros d Hd. apply in_map_iff in Hd. destruct Hd as (l & <- & Hl). apply in_seq in Hl. apply no_u_row. intros j Hj.
  apply (cJ_u n m (cv_con v) G (fun _ _ => 0) g L); [unfold cv_p in Hl; lia|exact Hj].
Qed.
End OneCv.
