(** AL gradient and Hessian, violations, penalties, constraint info. *)
From Coq Require Import Reals Lra Lia List Bool ZArith Psatz Relations Permutation Sorted.
From Coquelicot Require Import Coquelicot.
From Verif Require Import Base Lin RLin RDer ConModel ConSpec ConProofs ConProofs2.
Import List ListNotations.
Local Open Scope R_scope.

Lemma con_true_masked n m con g J W : con_true n m con g J W -> con_masked (F:=RS) n m con J W.
Proof.
  intros [H1 H2 H3 H4]. constructor; auto. intros x u b b' i Hi. now rewrite !H1.
Qed.

(** a constraint value whose stored Jacobian buffer is in a reachable condition *)
Definition cv_good (n m : nat) (v : CV RS) g J : Prop :=
  cv_n v = n /\ cv_m v = m /\ exists W, con_true n m (cv_con v) g J W /\ cv_fresh W v.

(** diagonal factor of the dual projection's Jacobian *)
Definition dfac (K : cone) (s : R) : R :=
  match K with ZeroCone => 1 | NegativeOrthant => if Rlt_dec 0 s then 0 else 1 | IdentityCone => 0 end.
(** component of the dual projection *)
Definition dproj (K : cone) (s : R) : R :=
  match K with ZeroCone => s | NegativeOrthant => Rmin 0 s | IdentityCone => 0 end.
Lemma dproj_correct K p (x : vec RS) i : (i < p)%nat -> cone_proj (F:=RS) (dual_cone K) p x i = dproj K (x i).
Proof.
  intros Hi. destruct K; simpl dual_cone; unfold dproj.
  - now apply (proj_id (F:=RS)).
  - now apply (proj_zero (F:=RS)).
  - now apply proj_neg.
Qed.
Lemma dfac_dproj K s : dfac K s * dproj K s = dproj K s.
Proof. destruct K; simpl; try lra. unfold Rmin. destruct (Rlt_dec 0 s), (Rle_dec 0 s); lra. Qed.
Lemma dfac_sq K s : dfac K s * dfac K s = dfac K s.
Proof. destruct K; simpl; try lra. destruct (Rlt_dec 0 s); lra. Qed.

Section One.
Context (n m : nat) (v : CV RS) (g : vec RS -> vec RS -> nat -> R) (J : vec RS -> vec RS -> nat -> nat -> R).
Context (Hg : cv_good n m v g J).

Definition sh (x u : vec RS) i : R := cv_lam v i - cv_pen v 0%nat * g x u i.

Lemma shift_after x u i : (i < cv_p v)%nat -> cv_shift (cv_grad_core v x u) i = sh x u i.
Proof.
  destruct Hg as (_ & _ & W & [H1 H2 H3 H4] & _). intros Hi. unfold cv_shift.
  change (cv_p (cv_grad_core v x u)) with (cv_p v). rewrite vstore_lt by auto. unfold sh. simpl. rs.
  rewrite vstore_lt by auto. now rewrite H1.
Qed.
Lemma shift_after_eval x u i : (i < cv_p v)%nat -> cv_shift (cv_eval_c v x u) i = sh x u i.
Proof. exact (shift_after x u i). Qed.

Lemma jac_after x u i j : (i < cv_p v)%nat -> (j < n + m)%nat -> cv_jac (cv_grad_core v x u) i j = J x u i j.
Proof.
  destruct Hg as (Hn & Hm & W & [H1 H2 H3 H4] & [Hf _]). intros Hi Hj. unfold cv_p in *. simpl.
  unfold cv_p. simpl. rewrite mstore_lt by (rewrite ?Hn, ?Hm; auto). rewrite H2 by auto.
  destruct (W i j) eqn:E; auto. rewrite H3 by auto. rewrite Hf; auto. now rewrite Hn, Hm.
Qed.

Lemma pjac_after x u i l : (i < cv_p v)%nat -> (l < cv_p v)%nat ->
  cv_pjac (cv_grad_core v x u) i l = if Nat.eqb i l then dfac (cv_type v) (sh x u i) else 0.
Proof.
  intros Hi Hl. pose proof (shift_after x u i Hi) as Hs.
  destruct Hg as (Hn & Hm & W & _ & [_ Hf]).
  unfold cv_grad_core in *. simpl cv_pjac. change (cv_p (cv_eval_jac _ x u)) with (cv_p v).
  change (cv_type (cv_eval_jac _ x u)) with (cv_type v).
  destruct (cv_type v) eqn:Ht; simpl dual_cone; simpl cone_jac; rewrite mstore_lt by auto.
  - reflexivity.
  - unfold mzero, dfac. destruct (Nat.eqb i l); reflexivity.
  - destruct (Nat.eqb_spec i l); [|now apply Hf].
    rs. change (cv_shift (cv_eval_jac (cv_eval_c v x u) x u) i = sh x u i) in Hs. rewrite Hs.
    unfold Rltb, dfac. destruct (Rlt_dec 0 (sh x u i)); reflexivity.
Qed.

Lemma pj_after x u i j : (i < cv_p v)%nat -> (j < n + m)%nat ->
  cv_pj (cv_grad_core v x u) i j = dfac (cv_type v) (sh x u i) * J x u i j.
Proof.
  intros Hi Hj. destruct (Hg) as (Hn & Hm & _). unfold cv_pj.
  change (cv_p (cv_grad_core v x u)) with (cv_p v).
  change (cv_n (cv_grad_core v x u)) with (cv_n v). change (cv_m (cv_grad_core v x u)) with (cv_m v).
  rewrite mstore_lt by (rewrite ?Hn, ?Hm; auto). unfold mm, dot.
  rewrite (rsum_single _ i); auto.
  - rewrite pjac_after by auto. rewrite Nat.eqb_refl. rewrite jac_after by auto. reflexivity.
  - intros l Hl Hne. rewrite pjac_after by auto. destruct (Nat.eqb_spec i l); [congruence|]. rs. lra.
Qed.

Lemma gradient_x x u j : (j < n)%nat ->
  fst (fst (cv_gradient v x u)) j = - rsum (cv_p v) (fun i => dproj (cv_type v) (sh x u i) * J x u i j).
Proof.
  intros Hj. destruct (Hg) as (Hn & Hm & _). unfold cv_gradient. cbn [fst].
  change (cv_p (cv_grad_core v x u)) with (cv_p v).
  change (cv_n (cv_grad_core v x u)) with (cv_n v). change (cv_type (cv_grad_core v x u)) with (cv_type v).
  rewrite vstore_lt by lia. rewrite <- rsum_opp. apply rsum_ext. intros i Hi.
  rewrite dproj_correct by auto. rewrite shift_after by auto. rewrite pj_after by lia. rs.
  rewrite <- (dfac_dproj (cv_type v) (sh x u i)) at 2. lra.
Qed.
Lemma gradient_u x u j : (j < m)%nat ->
  snd (fst (cv_gradient v x u)) j = - rsum (cv_p v) (fun i => dproj (cv_type v) (sh x u i) * J x u i (n + j)%nat).
Proof.
  intros Hj. destruct (Hg) as (Hn & Hm & _). unfold cv_gradient. cbn [fst snd].
  change (cv_p (cv_grad_core v x u)) with (cv_p v).
  change (cv_n (cv_grad_core v x u)) with (cv_n v). change (cv_type (cv_grad_core v x u)) with (cv_type v).
  change (cv_m (cv_grad_core v x u)) with (cv_m v).
  rewrite vstore_lt by lia. rewrite <- rsum_opp. apply rsum_ext. intros i Hi.
  rewrite dproj_correct by auto. rewrite shift_after by auto. rewrite Hn. rewrite pj_after by lia. rs.
  rewrite <- (dfac_dproj (cv_type v) (sh x u i)) at 2. lra.
Qed.
End One.

Lemma is_derive_dproj_sq K (f : R -> R) d s0 :
  is_derive f s0 d -> is_derive (fun s => (dproj K (f s))^2) s0 (2 * dproj K (f s0) * d).
Proof.
  intros H. destruct K; simpl dproj.
  - replace (2 * f s0 * d) with (d * (2 * f s0)) by ring.
    apply (is_derive_comp (fun y => y^2) f s0); auto. auto_derive; auto. ring.
  - replace (2 * 0 * d) with 0 by ring.
    apply (is_derive_ext (fun _ => 0)); [intros; simpl; ring|]. apply d_const.
  - replace (2 * Rmin 0 (f s0) * d) with (d * (2 * Rmin 0 (f s0))) by ring.
    apply (is_derive_comp (fun y => (Rmin 0 y)^2) f s0); auto. apply is_derive_sqmin0.
Qed.

(** C05, one constraint *)
Lemma cv_gradient_true n m (v : CV RS) g J X U dv dw :
  cv_good n m v g J -> cv_pen v 0%nat <> 0 -> curve X dv -> curve U dw ->
  is_derive (fun s => fst (cv_auglag v (X s) (U s))) 0
    (fsum n (fun j => fst (fst (cv_gradient v (X 0) (U 0))) j * dv j)
     + fsum m (fun j => snd (fst (cv_gradient v (X 0) (U 0))) j * dw j)).
Proof.
  intros Hg Hr HX HU. destruct (Hg) as (Hn & Hm & W & Hct & Hf).
  set (rho := cv_pen v 0%nat) in *.
  set (c' := fun i => fsum n (fun j => J (X 0) (U 0) i j * dv j) + fsum m (fun j => J (X 0) (U 0) i (n + j)%nat * dw j)).
  apply (is_derive_ext (fun s => (rsum (cv_p v) (fun i => (dproj (cv_type v) (sh v g (X s) (U s) i))^2)
             - rsum (cv_p v) (fun i => cv_lam v i * cv_lam v i)) * / (2 * rho))).
  { intros s. unfold cv_auglag. cbn [fst]. rs. unfold two; rs. unfold Rdiv. f_equal. f_equal.
    unfold sqnorm, dot. apply rsum_ext. intros i Hi.
    rewrite dproj_correct by auto. rewrite (shift_after_eval n m v g J Hg) by auto. rs. ring. }
  replace (fsum n (fun j => fst (fst (cv_gradient v (X 0) (U 0))) j * dv j)
     + fsum m (fun j => snd (fst (cv_gradient v (X 0) (U 0))) j * dw j))
    with ((rsum (cv_p v) (fun i => 2 * dproj (cv_type v) (sh v g (X 0) (U 0) i) * (- (rho * c' i))) - 0) * / (2 * rho)).
  - apply d_scal_r.
    apply d_minus.
    + apply d_rsum. intros i Hi. apply (is_derive_dproj_sq (cv_type v) (fun s => sh v g (X s) (U s) i)).
      unfold sh. fold rho. 
      replace (- (rho * c' i)) with (0 - rho * c' i) by ring.
      apply d_minus; [apply d_const|].
      apply d_scal. apply (ct_deriv _ _ _ _ _ _ Hct); auto.
    + apply d_const.
  - rewrite !fsum_rsum.
    rewrite (rsum_ext n (fun j => fst (fst (cv_gradient v (X 0) (U 0))) j * dv j)
       (fun j => rsum (cv_p v) (fun i => - (dproj (cv_type v) (sh v g (X 0) (U 0) i) * (J (X 0) (U 0) i j * dv j))))).
    2:{ intros j Hj. rewrite (gradient_x n m v g J Hg) by auto. rewrite <- rsum_opp, <- rsum_scal_r. apply rsum_ext. intros; ring. }
    rewrite (rsum_ext m (fun j => snd (fst (cv_gradient v (X 0) (U 0))) j * dw j)
       (fun j => rsum (cv_p v) (fun i => - (dproj (cv_type v) (sh v g (X 0) (U 0) i) * (J (X 0) (U 0) i (n + j)%nat * dw j))))).
    2:{ intros j Hj. rewrite (gradient_u n m v g J Hg) by auto. rewrite <- rsum_opp, <- rsum_scal_r. apply rsum_ext. intros; ring. }
    rewrite (rsum_swap n), (rsum_swap m), <- rsum_plus, Rminus_0_r, <- rsum_scal_r.
    apply rsum_ext. intros i Hi. rewrite !rsum_opp, !rsum_scal. unfold c'. rewrite !fsum_rsum. field. exact Hr.
Qed.

(** * AL-level gradient *)
Lemma al_grad_loop_comp n m (g : vec RS * vec RS) l x u :
  (forall j, (j < n)%nat -> fst (fst (al_grad_loop n m g l x u)) j = fst g j + lfsum (fun v => fst (fst (cv_gradient v x u)) j) l) /\
  (forall j, (j < m)%nat -> snd (fst (al_grad_loop n m g l x u)) j = snd g j + lfsum (fun v => snd (fst (cv_gradient v x u)) j) l).
Proof.
  revert g; induction l as [|v l IH]; intros g.
  - simpl. split; intros; lra.
  - cbn [al_grad_loop lfsum fold_right]. fold (lfsum (fun v => fst (fst (cv_gradient v x u)) 0%nat) l).
    destruct (cv_gradient v x u) as [gv v'] eqn:E.
    match goal with |- context [al_grad_loop n m ?g' l x u] => destruct (IH g') as [I1 I2] end.
    destruct (al_grad_loop _ _ _ l x u) as [g2 r']. cbn [fst snd] in *. split; intros j Hj.
    + rewrite I1 by auto. rewrite vstore_lt by auto. unfold vadd. rs. unfold lfsum. simpl. rewrite ?E. simpl. lra.
    + rewrite I2 by auto. rewrite vstore_lt by auto. unfold vadd. rs. unfold lfsum. simpl. rewrite ?E. simpl. lra.
Qed.
Lemma is_derive_lfsum {A} (f : A -> R -> R) (d : A -> R) l s0 :
  (forall v, In v l -> is_derive (f v) s0 (d v)) ->
  is_derive (fun s => lfsum (fun v => f v s) l) s0 (lfsum d l).
Proof.
  induction l; intros H.
  - exact (d_const 0 s0).
  - apply (d_plus (f a) (fun s => lfsum (fun v => f v s) l)).
    + apply H. simpl; auto.
    + apply IHl. intros. apply H. simpl; auto.
Qed.
Lemma rsum_lfsum {A} n (h : nat -> A -> R) (w : nat -> R) l :
  rsum n (fun j => lfsum (h j) l * w j) = lfsum (fun v => rsum n (fun j => h j v * w j)) l.
Proof.
  induction l; simpl.
  - apply rsum_zero'. intros. lra.
  - rewrite <- IHl, <- rsum_plus. apply rsum_ext. intros. unfold lfsum at 1. simpl. unfold lfsum. lra.
Qed.
Lemma lfsum_plus {A} (f g : A -> R) l : lfsum f l + lfsum g l = lfsum (fun v => f v + g v) l.
Proof. unfold lfsum. induction l; simpl; lra. Qed.

Lemma al_gradient_true n m (a : ALCost RS) X U dv dw old :
  al_n a = n -> al_m a = m -> cost_true n m (al_cost a) ->
  (forall v, In v (al_cvs a) -> cv_pen v 0%nat <> 0 /\ exists g J, cv_good n m v g J) ->
  curve X dv -> curve U dw ->
  is_derive (fun s => fst (al_eval a (X s) (U s))) 0
    (fsum n (fun j => fst (fst (al_gradient a (X 0) (U 0) old)) j * dv j)
     + fsum m (fun j => snd (fst (al_gradient a (X 0) (U 0) old)) j * dw j)).
Proof.
  intros Hn Hm Hc Hv HX HU. rewrite al_gradient_fst, Hn, Hm. rewrite !fsum_rsum.
  destruct (al_grad_loop_comp n m (uc_grad (al_cost a) (X 0) (U 0) old) (al_cvs a) (X 0) (U 0)) as [I1 I2].
  rewrite (rsum_ext n _ (fun j => fst (uc_grad (al_cost a) (X 0) (U 0) old) j * dv j +
     lfsum (fun v : CV RS => fst (fst (cv_gradient v (X 0) (U 0))) j) (al_cvs a) * dv j)).
  2:{ intros j Hj. rewrite I1 by auto. lra. }
  rewrite (rsum_ext m _ (fun j => snd (uc_grad (al_cost a) (X 0) (U 0) old) j * dw j +
     lfsum (fun v : CV RS => snd (fst (cv_gradient v (X 0) (U 0))) j) (al_cvs a) * dw j)).
  2:{ intros j Hj. rewrite I2 by auto. lra. }
  rewrite !rsum_plus. rewrite (rsum_lfsum n (fun j (v : CV RS) => fst (fst (cv_gradient v (X 0) (U 0))) j)).
  rewrite (rsum_lfsum m (fun j (v : CV RS) => snd (fst (cv_gradient v (X 0) (U 0))) j)).
  match goal with |- is_derive _ _ (?a + ?b + (?c + ?d)) => replace (a + b + (c + d)) with ((a + c) + (b + d)) by lra end.
  rewrite lfsum_plus.
  apply (is_derive_ext (fun s => uc_eval (al_cost a) (X s) (U s) + lfsum (fun v : CV RS => fst (cv_auglag v (X s) (U s))) (al_cvs a))).
  { intros s. now rewrite al_eval_RS. }
  apply d_plus.
  - pose proof (cst_grad _ _ _ Hc X U dv dw HX HU old) as H. rewrite !fsum_rsum in H. exact H.
  - apply (is_derive_lfsum (fun (v : CV RS) s => fst (cv_auglag v (X s) (U s)))). intros v Hin.
    destruct (Hv v Hin) as (Hr & g & J & Hg). 
    pose proof (cv_gradient_true n m v g J X U dv dw Hg Hr HX HU) as H. rewrite !fsum_rsum in H. exact H.
Qed.

(** reachable states are good *)
Lemma steps_good n m K (c : Con RS) y :
  con_smooth n m c -> cv_steps (cv_make n m K c) y -> cv_con y = c /\ exists g J, cv_good n m y g J.
Proof.
  intros (g & J & W & Ht) Hs. pose proof (cv_steps_static _ _ Hs) as (S1 & S2 & S3 & S4). simpl in S1, S2, S3, S4.
  split; auto. exists g, J. split; [auto|]. split; [auto|]. exists W. rewrite S4. split; auto.
  assert (HQ : same_static (cv_make n m K c) y /\ cv_fresh W y); [|apply HQ].
  apply (cv_steps_inv (fun z => same_static (cv_make n m K c) z /\ cv_fresh W z)) with (v := cv_make n m K c); auto.
  - intros z z' Hz [T1 T2]. pose proof (cv_step1_static _ _ Hz) as T3.
    split; [unfold same_static in *; intuition congruence|].
    destruct T1 as (U1 & U2 & U3 & U4).
    apply (cv_fresh_step n m (cv_con z) J W z z'); auto.
    rewrite U4. simpl. now apply con_true_masked with (g := g).
  - split; [repeat split|apply cv_fresh_make].
Qed.
Lemma steps_good_list n m K cs l :
  (forall c, In c cs -> con_smooth n m c) -> Forall2 cv_steps (map (cv_make (F:=RS) n m K) cs) l ->
  forall v, In v l -> In (cv_con v) cs /\ exists g J, cv_good n m v g J.
Proof.
  revert l; induction cs as [|c cs IH]; intros l Hc HF w Hw.
  - inversion HF; subst. easy.
  - inversion HF as [|a b la lb Ha Hb Hla Hlb]; subst. destruct Hw as [<-|Hw].
    + destruct (steps_good n m K c b) as [E G]; auto. { apply Hc; simpl; auto. } split; [simpl; left; auto|auto].
    + destruct (IH lb) with (v := w) as [E G]; auto.
      * intros; apply Hc; simpl; auto.
      * split; [simpl; right; auto|auto].
Qed.
Lemma reach_good debug n m (cost : UCost RS) eqs ineqs os a :
  (forall c, In c (eqs ++ ineqs) -> con_smooth n m c) ->
  al_reach debug (al_make n m cost eqs ineqs) os a ->
  al_n a = n /\ al_m a = m /\ al_cost a = cost /\
  (forall v, In v (al_cvs a) -> In (cv_con v) (eqs ++ ineqs) /\ exists g J, cv_good n m v g J).
Proof.
  intros Hs Hr. apply al_reach_rel in Hr. destruct Hr as (H1 & H2 & H3 & H4 & H5). simpl in *.
  split; [auto|]. split; [auto|]. split; [auto|].
  intros v Hv. apply in_app_or in Hv. destruct Hv as [Hv|Hv].
  - destruct (steps_good_list n m ZeroCone eqs (al_eq a)) with (v := v) as [A B]; auto.
    + intros; apply Hs; apply in_or_app; auto.
    + split; auto. apply in_or_app; auto.
  - destruct (steps_good_list n m NegativeOrthant ineqs (al_ineq a)) with (v := v) as [A B]; auto.
    + intros; apply Hs; apply in_or_app; auto.
    + split; auto. apply in_or_app; auto.
Qed.

(** the same with the value and Jacobian functions of each constraint given *)
Section Given.
Context (n m : nat) (g : Con RS -> vec RS -> vec RS -> nat -> R) (J : Con RS -> vec RS -> vec RS -> nat -> nat -> R)
        (W : Con RS -> nat -> nat -> bool).
Lemma rel_good_given (cost : UCost RS) eqs ineqs a :
  (forall c, In c (eqs ++ ineqs) -> con_true n m c (g c) (J c) (W c)) ->
  al_rel cv_steps (al_make n m cost eqs ineqs) a ->
  al_n a = n /\ al_m a = m /\ al_cost a = cost /\
  (forall v, In v (al_cvs a) -> In (cv_con v) (eqs ++ ineqs) /\ cv_good n m v (g (cv_con v)) (J (cv_con v))).
Proof.
  intros Hs Hr. destruct Hr as (H1 & H2 & H3 & H4 & H5). simpl in *.
  split; [auto|]. split; [auto|]. split; [auto|].
  assert (G : forall K cs l, (forall c, In c cs -> con_true n m c (g c) (J c) (W c)) ->
     Forall2 cv_steps (map (cv_make (F:=RS) n m K) cs) l ->
     forall v, In v l -> In (cv_con v) cs /\ cv_good n m v (g (cv_con v)) (J (cv_con v))).
  { clear H1 H2 H3 H4 H5 Hs. intros K cs. induction cs as [|c cs IH]; intros l Hc HF w Hw.
    - inversion HF; subst. easy.
    - inversion HF as [|a1 b la lb Ha Hb Hla Hlb]; subst. destruct Hw as [<-|Hw].
      + pose proof (cv_steps_static _ _ Ha) as (S1 & S2 & S3 & S4). simpl in S1, S2, S3, S4. rewrite S4.
        split; [simpl; left; auto|]. split; [auto|]. split; [auto|]. exists (W c). rewrite S4.
        assert (Ht : con_true n m c (g c) (J c) (W c)) by (apply Hc; simpl; auto). split; auto.
        assert (HQ : same_static (cv_make n m K c) b /\ cv_fresh (W c) b); [|apply HQ].
        apply (cv_steps_inv (fun z => same_static (cv_make n m K c) z /\ cv_fresh (W c) z)) with (v := cv_make n m K c); auto.
        * intros z z' Hz [T1 T2]. pose proof (cv_step1_static _ _ Hz) as T3.
          split; [unfold same_static in *; intuition congruence|].
          destruct T1 as (U1 & U2 & U3 & U4).
          apply (cv_fresh_step n m (cv_con z) (J c) (W c) z z'); auto.
          rewrite U4. simpl. now apply con_true_masked with (g := g c).
        * split; [repeat split|apply cv_fresh_make].
      + destruct (IH lb) with (v := w) as [E G]; auto.
        * intros; apply Hc; simpl; auto.
        * split; [simpl; right; auto|auto]. }
  intros v Hv. apply in_app_or in Hv. destruct Hv as [Hv|Hv].
  - destruct (G ZeroCone eqs (al_eq a)) with (v := v) as [A B]; auto.
    + intros; apply Hs; apply in_or_app; auto.
    + split; auto. apply in_or_app; auto.
  - destruct (G NegativeOrthant ineqs (al_ineq a)) with (v := v) as [A B]; auto.
    + intros; apply Hs; apply in_or_app; auto.
    + split; auto. apply in_or_app; auto.
Qed.
Lemma reach_good_given debug (cost : UCost RS) eqs ineqs os a :
  (forall c, In c (eqs ++ ineqs) -> con_true n m c (g c) (J c) (W c)) ->
  al_reach debug (al_make n m cost eqs ineqs) os a ->
  al_n a = n /\ al_m a = m /\ al_cost a = cost /\
  (forall v, In v (al_cvs a) -> In (cv_con v) (eqs ++ ineqs) /\ cv_good n m v (g (cv_con v)) (J (cv_con v))).
Proof. intros Hs Hr. apply al_reach_rel in Hr. exact (rel_good_given _ _ _ _ Hs Hr). Qed.
End Given.

(** * C06: Hessian *)
Section OneH.
Context (n m : nat) (v : CV RS) (g : vec RS -> vec RS -> nat -> R) (J : vec RS -> vec RS -> nat -> nat -> R).
Context (Hg : cv_good n m v g J).
Definition act x u l : R := dfac (cv_type v) (sh v g x u l).
Lemma hess_entries x u :
  let '(hxx, hxu, huu) := fst (cv_hessian_core v x u) in
  (forall i j, (i < n)%nat -> (j < n)%nat -> hxx i j = rsum (cv_p v) (fun l => cv_pen v 0%nat * act x u l * J x u l i * J x u l j)) /\
  (forall i j, (i < n)%nat -> (j < m)%nat -> hxu i j = rsum (cv_p v) (fun l => cv_pen v 0%nat * act x u l * J x u l i * J x u l (n + j)%nat)) /\
  (forall i j, (i < m)%nat -> (j < m)%nat -> huu i j = rsum (cv_p v) (fun l => cv_pen v 0%nat * act x u l * J x u l (n + i)%nat * J x u l (n + j)%nat)).
Proof.
  unfold cv_hessian_core. cbn [fst]. destruct (Hg) as (Hn & Hm & _).
  change (cv_p (cv_grad_core v x u)) with (cv_p v). change (cv_n (cv_grad_core v x u)) with (cv_n v).
  change (cv_m (cv_grad_core v x u)) with (cv_m v). rewrite Hn, Hm.
  assert (Hd : forall l i j, (l < cv_p v)%nat -> (i < n + m)%nat -> (j < n + m)%nat ->
    cv_pen v 0%nat * cv_pj (cv_grad_core v x u) l i * cv_pj (cv_grad_core v x u) l j
    = cv_pen v 0%nat * act x u l * J x u l i * J x u l j).
  { intros l i j Hl Hi Hj. rewrite !(pj_after n m v g J Hg) by auto. fold (act x u l).
    assert (E : act x u l * act x u l = act x u l) by apply dfac_sq.
    transitivity (cv_pen v 0%nat * (act x u l * act x u l) * J x u l i * J x u l j); [ring|]. now rewrite E. }
  repeat split; intros i j Hi Hj; rewrite mstore_lt by auto; apply rsum_ext; intros l Hl; rs; apply Hd; lia.
Qed.
(** J(x,u) applied to a direction *)
Definition Jdir x u (dv dw : nat -> R) l : R :=
  fsum n (fun j => J x u l j * dv j) + fsum m (fun j => J x u l (n + j)%nat * dw j).
Lemma bilinear p a b (c : nat -> R) (A B : nat -> nat -> R) (va vb : nat -> R) :
  rsum a (fun i => rsum b (fun j => va i * rsum p (fun l => c l * A l i * B l j) * vb j))
  = rsum p (fun l => c l * (rsum a (fun i => A l i * va i) * rsum b (fun j => B l j * vb j))).
Proof.
  transitivity (rsum a (fun i => rsum b (fun j => rsum p (fun l => c l * ((A l i * va i) * (B l j * vb j)))))).
  { apply rsum_ext; intros i _. apply rsum_ext; intros j _. rewrite <- rsum_scal, <- rsum_scal_r. apply rsum_ext. intros; ring. }
  transitivity (rsum a (fun i => rsum p (fun l => rsum b (fun j => c l * ((A l i * va i) * (B l j * vb j)))))).
  { apply rsum_ext; intros i _. apply rsum_swap. }
  rewrite rsum_swap. apply rsum_ext. intros l _.
  transitivity (rsum a (fun i => (c l * (rsum b (fun j => B l j * vb j))) * (A l i * va i))).
  { apply rsum_ext; intros i _. rewrite <- (rsum_scal b (c l)). rewrite <- rsum_scal_r. apply rsum_ext; intros; ring. }
  rewrite rsum_scal. ring.
Qed.
Lemma qform_cv x u dv dw :
  qform n m (fst (cv_hessian_core v x u)) dv dw
  = cv_pen v 0%nat * rsum (cv_p v) (fun l => act x u l * (Jdir x u dv dw l)^2).
Proof.
  pose proof (hess_entries x u) as H. destruct (fst (cv_hessian_core v x u)) as [[hxx hxu] huu].
  destruct H as (H1 & H2 & H3). unfold qform. rewrite !fsum_rsum.
  rewrite (rsum_ext n (fun i => fsum n (fun j => dv i * hxx i j * dv j))
     (fun i => rsum n (fun j => dv i * rsum (cv_p v) (fun l => (cv_pen v 0%nat * act x u l) * J x u l i * J x u l j) * dv j))).
  2:{ intros i Hi. rewrite fsum_rsum. apply rsum_ext. intros j Hj. now rewrite H1. }
  rewrite (rsum_ext n (fun i => fsum m (fun j => dv i * hxu i j * dw j))
     (fun i => rsum m (fun j => dv i * rsum (cv_p v) (fun l => (cv_pen v 0%nat * act x u l) * J x u l i * J x u l (n + j)%nat) * dw j))).
  2:{ intros i Hi. rewrite fsum_rsum. apply rsum_ext. intros j Hj. now rewrite H2. }
  rewrite (rsum_ext m (fun i => fsum m (fun j => dw i * huu i j * dw j))
     (fun i => rsum m (fun j => dw i * rsum (cv_p v) (fun l => (cv_pen v 0%nat * act x u l) * J x u l (n + i)%nat * J x u l (n + j)%nat) * dw j))).
  2:{ intros i Hi. rewrite fsum_rsum. apply rsum_ext. intros j Hj. now rewrite H3. }
  rewrite (bilinear (cv_p v) n n (fun l => cv_pen v 0%nat * act x u l) (fun l i => J x u l i) (fun l j => J x u l j)).
  rewrite (bilinear (cv_p v) n m (fun l => cv_pen v 0%nat * act x u l) (fun l i => J x u l i) (fun l j => J x u l (n + j)%nat)).
  rewrite (bilinear (cv_p v) m m (fun l => cv_pen v 0%nat * act x u l) (fun l i => J x u l (n + i)%nat) (fun l j => J x u l (n + j)%nat)).
  rewrite <- !rsum_scal, <- !rsum_plus. apply rsum_ext. intros l Hl. unfold Jdir. rewrite !fsum_rsum. ring.
Qed.
Lemma hess_sym x u : let '(hxx, hxu, huu) := fst (cv_hessian_core v x u) in msym n hxx /\ msym m huu.
Proof.
  pose proof (hess_entries x u) as H. destruct (fst (cv_hessian_core v x u)) as [[hxx hxu] huu].
  destruct H as (H1 & H2 & H3). split; intros i j Hi Hj.
  - rewrite !H1 by auto. apply rsum_ext. intros; ring.
  - rewrite !H3 by auto. apply rsum_ext. intros; ring.
Qed.
Lemma act_active x u l : (l < cv_p v)%nat ->
  act x u l = if active (cv_type v) (cv_pen v 0%nat) (cv_lam v l) (g x u l) then 1 else 0.
Proof.
  intros _. unfold act, dfac, active, sh. destruct (cv_type v); auto.
  destruct (Rlt_dec 0 _), (Rle_dec _ 0); auto; lra.
Qed.
End OneH.

Lemma qform_ext n m hxx hxu huu kxx kxu kuu v w :
  (forall i j, (i < n)%nat -> (j < n)%nat -> hxx i j = kxx i j) ->
  (forall i j, (i < n)%nat -> (j < m)%nat -> hxu i j = kxu i j) ->
  (forall i j, (i < m)%nat -> (j < m)%nat -> huu i j = kuu i j) ->
  qform n m (hxx, hxu, huu) v w = qform n m (kxx, kxu, kuu) v w.
Proof.
  intros H1 H2 H3. unfold qform. rewrite !fsum_rsum. f_equal; [f_equal|].
  - apply rsum_ext; intros i Hi. rewrite !fsum_rsum. apply rsum_ext; intros j Hj. now rewrite H1.
  - f_equal. apply rsum_ext; intros i Hi. rewrite !fsum_rsum. apply rsum_ext; intros j Hj. now rewrite H2.
  - apply rsum_ext; intros i Hi. rewrite !fsum_rsum. apply rsum_ext; intros j Hj. now rewrite H3.
Qed.
Lemma qform_add n m (hxx hxu huu kxx kxu kuu : mat RS) v w :
  qform n m (madd hxx kxx, madd hxu kxu, madd huu kuu) v w
  = qform n m (hxx, hxu, huu) v w + qform n m (kxx, kxu, kuu) v w.
Proof.
  unfold qform, madd. rs.
  assert (A : forall a b (P Q : nat -> nat -> R) (p q : nat -> R),
    fsum a (fun i => fsum b (fun j => p i * (P i j + Q i j) * q j)) =
    fsum a (fun i => fsum b (fun j => p i * P i j * q j)) + fsum a (fun i => fsum b (fun j => p i * Q i j * q j))).
  { intros. rewrite !fsum_rsum, <- rsum_plus. apply rsum_ext. intros i Hi. rewrite !fsum_rsum, <- rsum_plus.
    apply rsum_ext. intros; ring. }
  rewrite !A. ring.
Qed.
Lemma al_hess_loop_qform n m h l x u dv dw :
  qform n m (fst (al_hess_loop n m h l x u)) dv dw
  = qform n m h dv dw + lfsum (fun v => qform n m (fst (cv_hessian_core v x u)) dv dw) l.
Proof.
  revert h; induction l as [|v l IH]; intros [[h1 h2] h3].
  - simpl. lra.
  - cbn [al_hess_loop]. unfold lfsum; cbn [fold_right]. fold (lfsum (fun v : CV RS => qform n m (fst (cv_hessian_core v x u)) dv dw) l).
    destruct (cv_hessian_core v x u) as [[[k1 k2] k3] v'].
    match goal with |- context [al_hess_loop n m ?g' l x u] => specialize (IH g') end.
    destruct (al_hess_loop _ _ _ l x u) as [g2 r']. cbn [fst] in *. rewrite IH.
    rewrite (qform_ext n m _ _ _ (madd h1 k1) (madd h2 k2) (madd h3 k3)); try (intros; apply mstore_lt; auto).
    rewrite qform_add. lra.
Qed.
Lemma al_hess_loop_sym n m h l x u :
  (let '(hxx, hxu, huu) := h in msym n hxx /\ msym m huu) ->
  (forall v, In v l -> let '(hxx, hxu, huu) := fst (cv_hessian_core v x u) in msym n hxx /\ msym m huu) ->
  let '(hxx, hxu, huu) := fst (al_hess_loop n m h l x u) in msym n hxx /\ msym m huu.
Proof.
  revert h; induction l as [|v l IH]; intros [[h1 h2] h3] [Hh1 Hh3] Hl.
  - simpl. auto.
  - cbn [al_hess_loop]. pose proof (Hl v (or_introl eq_refl)) as Hv.
    destruct (cv_hessian_core v x u) as [[[k1 k2] k3] v']. cbn [fst] in Hv. destruct Hv as [Hv1 Hv3].
    match goal with |- context [al_hess_loop n m ?g' l x u] => specialize (IH g') end.
    destruct (al_hess_loop _ _ _ l x u) as [g2 r']. cbn [fst] in *. apply IH.
    + split; intros i j Hi Hj; rewrite !mstore_lt by auto; unfold madd; rs;
        [rewrite (Hh1 i j), (Hv1 i j) | rewrite (Hh3 i j), (Hv3 i j)]; auto.
    + intros; apply Hl; simpl; auto.
Qed.

(** ALCost Hessian of a reachable state *)
Lemma al_hessian_gn n m g J W debug (cost : UCost RS) eqs ineqs os a x u old dv dw :
  (forall c, In c (eqs ++ ineqs) -> con_true n m c (g c) (J c) (W c)) ->
  al_reach debug (al_make n m cost eqs ineqs) os a ->
  qform n m (fst (al_hessian a x u old)) dv dw
  = qform n m (uc_hess cost x u old) dv dw
    + lfsum (fun v => cv_pen v 0%nat * fsum (cv_p v) (fun l =>
          if active (cv_type v) (cv_pen v 0%nat) (cv_lam v l) (g (cv_con v) x u l)
          then (fsum n (fun j => J (cv_con v) x u l j * dv j) + fsum m (fun j => J (cv_con v) x u l (n + j)%nat * dw j))^2
          else 0)) (al_cvs a).
Proof.
  intros Hs Hr. destruct (reach_good_given n m g J W debug cost eqs ineqs os a Hs Hr) as (Hn & Hm & Hc & Hv).
  rewrite al_hessian_fst, Hn, Hm, Hc, al_hess_loop_qform. f_equal.
  apply lfsum_ext_in. intros v Hin. destruct (Hv v Hin) as [_ Hg].
  rewrite (qform_cv n m v _ _ Hg). rewrite fsum_rsum. f_equal. apply rsum_ext. intros l Hl.
  rewrite act_active by auto. unfold Jdir.
  destruct (active _ _ _ _); ring.
Qed.
Lemma al_hessian_sym n m debug (cost : UCost RS) eqs ineqs os a x u old :
  (forall c, In c (eqs ++ ineqs) -> con_smooth n m c) ->
  al_reach debug (al_make n m cost eqs ineqs) os a ->
  (let '(hxx, hxu, huu) := uc_hess cost x u old in msym n hxx /\ msym m huu) ->
  let '(hxx, hxu, huu) := fst (al_hessian a x u old) in msym n hxx /\ msym m huu.
Proof.
  intros Hs Hr Hu. destruct (reach_good debug n m cost eqs ineqs os a Hs Hr) as (Hn & Hm & Hc & Hv).
  rewrite al_hessian_fst, Hn, Hm, Hc. apply al_hess_loop_sym; auto.
  intros v Hin. destruct (Hv v Hin) as (_ & g & J & Hg). now apply (hess_sym n m v g J Hg).
Qed.
Lemma al_hessian_psd n m debug (cost : UCost RS) eqs ineqs os a x u old dv dw :
  (forall c, In c (eqs ++ ineqs) -> con_smooth n m c) ->
  al_reach debug (al_make n m cost eqs ineqs) os a ->
  (forall v, In v (al_cvs a) -> 0 <= cv_pen v 0%nat) ->
  qform n m (uc_hess cost x u old) dv dw <= qform n m (fst (al_hessian a x u old)) dv dw.
Proof.
  intros Hs Hr Hp.
  destruct (reach_good debug n m cost eqs ineqs os a Hs Hr) as (Hn & Hm & Ec & Hv).
  rewrite al_hessian_fst, Hn, Hm, Ec, al_hess_loop_qform.
  assert (0 <= lfsum (fun v => qform n m (fst (cv_hessian_core v x u)) dv dw) (al_cvs a)); [|lra].
  revert Hv Hp. generalize (al_cvs a). induction l as [|v l IH]; intros Hv Hp; [apply Rle_refl|].
  change (0 <= qform n m (fst (cv_hessian_core v x u)) dv dw + lfsum (fun v => qform n m (fst (cv_hessian_core v x u)) dv dw) l).
  apply Rplus_le_le_0_compat.
  - destruct (Hv v (or_introl eq_refl)) as (_ & g & J & Hg). rewrite (qform_cv n m v g J Hg).
    apply Rmult_le_pos; [apply Hp; simpl; auto|]. apply rsum_nonneg. intros i Hi.
    rewrite act_active by auto. destruct (active _ _ _ _); [|lra]. rewrite Rmult_1_l. apply pow2_ge_0.
  - apply IH; intros; [apply Hv|apply Hp]; simpl; auto.
Qed.
