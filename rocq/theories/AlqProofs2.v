(** Equality-constrained linear-quadratic problems: each inner problem is a linear-quadratic problem. *)
From Coq Require Import Reals Lra Lia List Bool ZArith Psatz Arith Relations.
From Verif Require Import Base Lin RLin ConModel ConSpec ConProofs ConProofs2 ConProofs3 ConProofs4 ConProofs5 LogModel StatsModel TrajModel IlqrModel IlqrSpec CostInst AlModel LqSpec LltProofs LqProofs LqProbSpec LqProofs4 AlqSpec AlqProofs.
Import List ListNotations LqSpec.
Local Open Scope R_scope.

(** * the quadratic of a user cost, read off at the origin *)
Definition m3 : mat RS * mat RS * mat RS := (mzero, mzero, mzero).
Definition cquad (n m : nat) (c : UCost RS) : Quad :=
  let h := uc_hess c vzero vzero m3 in let g := uc_grad c vzero vzero (vzero, vzero) in
  mkQuad (mstore (F:=RS) n n (fst (fst h))) (mstore (F:=RS) n m (snd (fst h))) (mstore (F:=RS) m m (snd h)) (vstore (F:=RS) n (fst g)) (vstore (F:=RS) m (snd g)) (uc_eval c vzero vzero).
Lemma mstore_out r c (A : mat RS) i j : (r <= i)%nat -> mstore r c A i j = 0.
Proof. intros H. unfold mstore. rewrite (nth_overflow _ []) by (rewrite map_length, seq_length; exact H). destruct j; reflexivity. Qed.
Section User.
Context (n m : nat) (c : UCost RS) (d : Quad) (HQ : is_quad n m c d).
Notation e := (cquad n m c).
Lemma cq_Q i j : (i < n)%nat -> (j < n)%nat -> qd_Q e i j = qd_Q d i j.
Proof. intros Hi Hj. cbn [cquad qd_Q]. rewrite mstore_lt by auto. exact (qc_hxx _ _ _ _ _ HQ c vzero vzero m3 i j eq_refl Hi Hj). Qed.
Lemma cq_H i j : (i < n)%nat -> (j < m)%nat -> qd_H e i j = qd_H d i j.
Proof. intros Hi Hj. cbn [cquad qd_H]. rewrite mstore_lt by auto. exact (qc_hxu _ _ _ _ _ HQ c vzero vzero m3 i j eq_refl Hi Hj). Qed.
Lemma cq_R i j : (i < m)%nat -> (j < m)%nat -> qd_R e i j = qd_R d i j.
Proof. intros Hi Hj. cbn [cquad qd_R]. rewrite mstore_lt by auto. exact (qc_huu _ _ _ _ _ HQ c vzero vzero m3 i j eq_refl Hi Hj). Qed.
Lemma cq_q i : (i < n)%nat -> qd_q e i = qd_q d i.
Proof.
  intros Hi. cbn [cquad qd_q]. rewrite vstore_lt by auto. pose proof (qc_gx _ _ _ _ _ HQ c vzero vzero (vzero, vzero) i eq_refl Hi) as E.
  change (@vzero RS) with (fun _ : nat => 0) in E at 3 4. rewrite !app_zero in E. rewrite Rplus_0_l, Rplus_0_l in E. exact E.
Qed.
Lemma cq_r i : (i < m)%nat -> qd_r e i = qd_r d i.
Proof.
  intros Hi. cbn [cquad qd_r]. rewrite vstore_lt by auto. pose proof (qc_gu _ _ _ _ _ HQ c vzero vzero (vzero, vzero) i eq_refl Hi) as E.
  change (@vzero RS) with (fun _ : nat => 0) in E. rewrite !app_zero in E. rewrite Rplus_0_l, Rplus_0_l in E. exact E.
Qed.
Lemma cq_c : qd_c e = qd_c d.
Proof.
  cbn [cquad qd_c]. pose proof (qc_value _ _ _ _ _ HQ c vzero vzero eq_refl) as E. cbn [co_eval ucost_ops fst] in E. rewrite E. unfold quad_val.
  change (@vzero RS) with (fun _ : nat => 0). rewrite !form_zero_l, !inner_zero_r. lra.
Qed.
Lemma cq_val x u : quad_val n m e x u = uc_eval c x u.
Proof.
  pose proof (qc_value _ _ _ _ _ HQ c x u eq_refl) as E. cbn [co_eval ucost_ops fst] in E. rewrite E. unfold quad_val.
  rewrite (form_ext n n (qd_Q e) x x (qd_Q d) x x), (form_ext n m (qd_H e) x u (qd_H d) x u), (form_ext m m (qd_R e) u u (qd_R d) u u), (inner_ext n (qd_q e) x (qd_q d) x), (inner_ext m (qd_r e) u (qd_r d) u), cq_c;
    auto using cq_Q, cq_H, cq_R, cq_q, cq_r.
Qed.
Lemma cq_gx x u b i : (i < n)%nat -> fst (uc_grad c x u b) i = q_gx n m e x u i.
Proof.
  intros Hi. pose proof (qc_gx _ _ _ _ _ HQ c x u b i eq_refl Hi) as E. cbn [co_grad ucost_ops fst] in E. rewrite E. unfold q_gx.
  rewrite (app_ext n (qd_Q e) x (qd_Q d) x i), (app_ext m (qd_H e) u (qd_H d) u i), cq_q; auto using cq_Q, cq_H.
Qed.
Lemma cq_gu x u b i : (i < m)%nat -> snd (uc_grad c x u b) i = q_gu n m e x u i.
Proof.
  intros Hi. pose proof (qc_gu _ _ _ _ _ HQ c x u b i eq_refl Hi) as E. cbn [co_grad ucost_ops fst] in E. rewrite E. unfold q_gu.
  rewrite (app_ext n (fun i j => qd_H e j i) x (fun i j => qd_H d j i) x i), (app_ext m (qd_R e) u (qd_R d) u i), cq_r; auto using cq_R, cq_H.
Qed.
Lemma cq_hess x u b : (forall i j, (i < n)%nat -> (j < n)%nat -> fst (fst (uc_hess c x u b)) i j = qd_Q e i j) /\
  (forall i j, (i < n)%nat -> (j < m)%nat -> snd (fst (uc_hess c x u b)) i j = qd_H e i j) /\ (forall i j, (i < m)%nat -> (j < m)%nat -> snd (uc_hess c x u b) i j = qd_R e i j).
Proof.
  split; [|split]; intros i j Hi Hj; [rewrite cq_Q by auto; exact (qc_hxx _ _ _ _ _ HQ c x u b i j eq_refl Hi Hj)|rewrite cq_H by auto; exact (qc_hxu _ _ _ _ _ HQ c x u b i j eq_refl Hi Hj)|
    rewrite cq_R by auto; exact (qc_huu _ _ _ _ _ HQ c x u b i j eq_refl Hi Hj)].
Qed.
Lemma cq_convex : convex_quad n m d -> convex_quad n m e.
Proof.
  intros (A & B & C & P). split; [intros i j Hi Hj; rewrite !cq_Q by auto; apply A; auto|]. split; [intros i j Hi Hj; rewrite !cq_R by auto; apply B; auto|]. split.
  - intros w Hw. rewrite (form_ext m m (qd_R e) w w (qd_R d) w w) by auto using cq_R. apply C. exact Hw.
  - intros x u. rewrite (form_ext n n (qd_Q e) x x (qd_Q d) x x), (form_ext n m (qd_H e) x u (qd_H d) x u), (form_ext m m (qd_R e) u u (qd_R d) u u) by auto using cq_Q, cq_H, cq_R. apply P.
Qed.
Lemma cq_terminal : terminal_quad n m d -> terminal_quad n m e.
Proof.
  intros (A & P & C). split; [intros i j Hi Hj; rewrite !cq_Q by auto; apply A; auto|]. split.
  - intros x. rewrite (form_ext n n (qd_Q e) x x (qd_Q d) x x) by auto using cq_Q. apply P.
  - intros i j Hj. destruct (C i j Hj) as (C1 & C2 & C3). split; [|split].
    + destruct (Nat.lt_ge_cases i n); [rewrite cq_H by auto; exact C1|cbn [cquad qd_H]; apply mstore_out; auto].
    + destruct (Nat.lt_ge_cases i m); [rewrite cq_R by auto; exact C2|cbn [cquad qd_R]; apply mstore_out; auto].
    + rewrite cq_r by auto. exact C3.
Qed.
End User.

(** * the augmented Lagrangian *)
Section Al.
Context (n m : nat).
Definition Dal (a : ALCost RS) : Quad := qadd (cquad n m (al_cost a)) (qsum (map (cv_quad n) (al_eq a))).
Definition Ial (a : ALCost RS) : Prop := exists cost eqs, al_rel cv_steps (al_make n m cost eqs []) a /\ Forall (affine_con n m) eqs /\ (exists d, is_quad n m cost d) /\
  forall v, In v (al_eq a) -> 0 < cv_pen v 0%nat.
Lemma steps_cons (l l' : list (CV RS)) : Forall2 cv_steps l l' -> map (@cv_con RS) l' = map (@cv_con RS) l /\ map (@cv_type RS) l' = map (@cv_type RS) l.
Proof. induction 1 as [|v v' l l' H F [A B]]; [auto|]. destruct (cv_steps_static _ _ H) as (_ & _ & S1 & S2). cbn [map]. rewrite A, B. split; f_equal; congruence. Qed.
Lemma Ial_facts a : Ial a -> al_n a = n /\ al_m a = m /\ al_ineq a = [] /\ (exists d, is_quad n m (al_cost a) d) /\ Forall (cv_lin n m) (al_eq a).
Proof.
  intros (cost & eqs & R & FA & (d & HD) & HP). 
  assert (T : forall c, In c (eqs ++ []) -> con_true n m c (cfun c) (fun _ _ => cJ c) (cW c)).
  { intros c Hc. rewrite app_nil_r in Hc. rewrite Forall_forall in FA. destruct (FA c Hc) as (_ & G & H & g & L). exact (lin_true n m c G H g L). }
  destruct (rel_good_given n m cfun (fun c _ _ => cJ c) cW cost eqs [] a T R) as (A & B & C & E). destruct R as (_ & _ & _ & R4 & R5). cbn in R5. inversion R5 as [R6 R7|]. 
  split; [exact A|]. split; [exact B|]. split; [auto|]. split; [exists d; rewrite C; exact HD|].
  apply Forall_forall. intros v Hv. assert (Hc : In v (al_cvs a)) by (unfold al_cvs; apply in_or_app; auto). destruct (E v Hc) as [E1 E2]. rewrite app_nil_r in E1. split.
  - cbn [al_make al_eq] in R4. destruct (steps_cons _ _ R4) as [_ T2]. apply (in_map (@cv_type RS)) in Hv. rewrite T2, map_map in Hv. apply in_map_iff in Hv. destruct Hv as (c & <- & _). reflexivity.
  - rewrite Forall_forall in FA. apply FA. exact E1.
  - exact E2.
  - apply HP. exact Hv.
Qed.
Lemma Dal_fresh a : Dal (al_fresh a) = Dal a.
Proof. unfold Dal, al_fresh, al_map, al_set. cbn [al_cost al_eq]. rewrite map_map. reflexivity. Qed.
Lemma Ial_fresh a b : al_rel cv_steps a b -> al_fresh b = al_fresh a -> Ial a -> Ial b /\ Dal b = Dal a.
Proof.
  intros R E (cost & eqs & R0 & FA & HD & HP). split; [|rewrite <- (Dal_fresh b), <- (Dal_fresh a), E; reflexivity].
  exists cost, eqs. split; [eapply al_rel_trans; eassumption|]. split; [exact FA|]. split; [exact HD|].
  intros v Hv. apply (f_equal (@al_eq RS)) in E. unfold al_fresh, al_map, al_set in E. cbn [al_eq] in E.
  apply (in_map CostInst.cv_fresh) in Hv. rewrite E in Hv. apply in_map_iff in Hv. destruct Hv as (w & W & Hw). change (cv_pen v 0%nat) with (cv_pen (CostInst.cv_fresh v) 0%nat). rewrite <- W. exact (HP w Hw).
Qed.
Theorem al_quad_costs : quad_costs n m (@al_ops RS) Ial Dal.
Proof.
  assert (CV : forall c, Ial c -> al_cvs c = al_eq c). { intros c Hc. destruct (Ial_facts c Hc) as (_ & _ & I & _). unfold al_cvs. rewrite I. apply app_nil_r. }
  split.
  - intros c x u Hc. destruct (Ial_facts c Hc) as (_ & _ & _ & (d & HD) & FL). cbn [co_eval al_ops]. rewrite al_eval_RS, (CV c Hc). unfold Dal. rewrite val_add, (cq_val n m _ d HD), val_sum, lfsum_map.
    f_equal. apply lfsum_ext_in. intros v Hv. rewrite Forall_forall in FL. apply cv_val. auto.
  - intros c x u Hc. cbn [co_eval al_ops]. apply Ial_fresh; [|apply al_eval_fresh|exact Hc]. rewrite al_eval_snd. apply al_rel_map. intros; constructor.
  - intros c x u b Hc. cbn [co_grad al_ops]. apply Ial_fresh; [|apply al_grad_fresh|exact Hc]. rewrite al_gradient_snd. apply al_rel_map. intros; constructor.
  - intros c x u b Hc. cbn [co_hess al_ops]. apply Ial_fresh; [|apply al_hess_fresh|exact Hc]. rewrite al_hessian_snd. apply al_rel_map. intros; constructor.
  - intros c x u b i Hc Hi. destruct (Ial_facts c Hc) as (En & Em & _ & (d & HD) & FL). rewrite Forall_forall in FL. cbn [co_grad al_ops]. destruct (al_gradient_entries c x u b) as [A _].
    rewrite A by (rewrite En; exact Hi). fold (q_gx n m (Dal c) x u i). unfold Dal. rewrite gx_add, (cq_gx n m _ d HD x u b i Hi), (CV c Hc), gx_sum, lfsum_map. f_equal. apply lfsum_ext_in. intros v Hv. apply cv_gx; auto.
  - intros c x u b i Hc Hi. destruct (Ial_facts c Hc) as (En & Em & _ & (d & HD) & FL). rewrite Forall_forall in FL. cbn [co_grad al_ops]. destruct (al_gradient_entries c x u b) as [_ A].
    rewrite A by (rewrite Em; exact Hi). fold (q_gu n m (Dal c) x u i). unfold Dal. rewrite gu_add, (cq_gu n m _ d HD x u b i Hi), (CV c Hc), gu_sum, lfsum_map. f_equal. apply lfsum_ext_in. intros v Hv. apply cv_gu; auto.
  - intros c x u b i j Hc Hi Hj. destruct (Ial_facts c Hc) as (En & Em & _ & (d & HD) & FL). rewrite Forall_forall in FL. cbn [co_hess al_ops]. destruct (al_hessian_entries c x u b) as (A & _ & _). destruct (cq_hess n m _ d HD x u b) as (A' & _).
    rewrite A by (rewrite En; auto). rewrite A' by auto. unfold Dal. cbn [qadd qd_Q]. rewrite (CV c Hc), Q_sum, lfsum_map. f_equal. apply lfsum_ext_in. intros v Hv. apply (cv_hess n m v (FL v Hv) x u); auto.
  - intros c x u b i j Hc Hi Hj. destruct (Ial_facts c Hc) as (En & Em & _ & (d & HD) & FL). rewrite Forall_forall in FL. cbn [co_hess al_ops]. destruct (al_hessian_entries c x u b) as (_ & A & _). destruct (cq_hess n m _ d HD x u b) as (_ & A' & _).
    rewrite A by (rewrite ?En, ?Em; auto). rewrite A' by auto. unfold Dal. cbn [qadd qd_H]. rewrite (CV c Hc), H_sum, lfsum_map. f_equal. apply lfsum_ext_in. intros v Hv. apply (cv_hess n m v (FL v Hv) x u); auto.
  - intros c x u b i j Hc Hi Hj. destruct (Ial_facts c Hc) as (En & Em & _ & (d & HD) & FL). rewrite Forall_forall in FL. cbn [co_hess al_ops]. destruct (al_hessian_entries c x u b) as (_ & _ & A). destruct (cq_hess n m _ d HD x u b) as (_ & _ & A').
    rewrite A by (rewrite ?En, ?Em; auto). rewrite A' by auto. unfold Dal. cbn [qadd qd_R]. rewrite (CV c Hc), R_sum, lfsum_map. f_equal. apply lfsum_ext_in. intros v Hv. apply (cv_hess n m v (FL v Hv) x u); auto.
Qed.
End Al.
