(** Constrained nonlinear problems: augmented-Lagrangian objects as smooth costs; Lagrangian and augmented Lagrangian have the same slopes. *)
From Coq Require Import Reals Lra Lia List Bool ZArith Psatz Arith FunctionalExtensionality.
From Coquelicot Require Import Coquelicot.
Import List ListNotations.
From Verif Require Import Base Lin LogModel StatsModel TrajModel ConModel ConSpec IlqrModel IlqrSpec CostInst AlModel LsSpec RLin RDer ConProofs ConProofs2 ConProofs3 ConProofs4 ConProofs5 LqSpec LltProofs LqProofs LqProbSpec NlSpec NlAlSpec NlProofs NlProofs2 NlProofs3.
Local Open Scope R_scope.

Lemma inner_fsum n a b : inner n a b = fsum n (fun j => a j * b j).
Proof. rewrite inner_r, fsum_rsum. reflexivity. Qed.
Section Curves.
Context (n m : nat) (g : vec RS -> vec RS -> R).
(** functions differentiable along all curves only look at the first entries *)
Lemma curves_same (GX GU : vec RS -> vec RS -> nat -> R) :
  (forall X U v w, curve X v -> curve U w -> is_derive (fun s => g (X s) (U s)) 0 (fsum n (fun j => GX (X 0) (U 0) j * v j) + fsum m (fun j => GU (X 0) (U 0) j * w j))) ->
  forall x u y v, (forall i, (i < n)%nat -> y i = x i) -> (forall i, (i < m)%nat -> v i = u i) -> g x u = g y v.
Proof.
  intros H x u y v HY HV. set (X := fun (s : R) i => x i + s * (y i - x i)). set (U := fun (s : R) i => u i + s * (v i - u i)).
  assert (D : forall s, is_derive (fun r => g (X r) (U r)) s 0).
  { intros s. set (X' := fun t => X (s + t)). set (U' := fun t => U (s + t)).
    assert (CX : curve X' (fun i => y i - x i)). { intros i. unfold X', X. eapply d_eq; [apply d_plus; [apply d_const|apply d_scal_r, d_plus; [apply d_const|apply d_id]]|lra]. }
    assert (CU : curve U' (fun i => v i - u i)). { intros i. unfold U', U. eapply d_eq; [apply d_plus; [apply d_const|apply d_scal_r, d_plus; [apply d_const|apply d_id]]|lra]. }
    specialize (H X' U' _ _ CX CU). rewrite !fsum_rsum, !rsum_zero' in H; [|intros i Hi; rewrite HV by exact Hi; lra|intros i Hi; rewrite HY by exact Hi; lra].
    apply (d_ext (fun r => g (X' (r - s)) (U' (r - s)))); [intros r; unfold X', U'; replace (s + (r - s)) with r by ring; reflexivity|].
    eapply d_eq; [apply (d_comp (fun t => g (X' t) (U' t)) (fun r => r - s) 0 1 s)|lra].
    - eapply d_eq; [apply d_minus; [apply d_id|apply d_const]|lra].
    - replace (s - s) with 0 by ring. eapply d_eq; [exact H|lra]. }
  pose proof (eq_is_derive (fun r => g (X r) (U r)) 0 1 (fun t _ => D t) Rlt_0_1) as E.
  replace (g x u) with (g (X 0) (U 0)) by (f_equal; apply functional_extensionality; intros i; unfold X, U; ring).
  replace (g y v) with (g (X 1) (U 1)) by (f_equal; apply functional_extensionality; intros i; unfold X, U; ring). exact E.
Qed.
(** so curves need only be given on those entries *)
Lemma slopes_at gx gu x u : (forall x u y v, (forall i, (i < n)%nat -> y i = x i) -> (forall i, (i < m)%nat -> v i = u i) -> g x u = g y v) ->
  (forall X U v w, curve X v -> curve U w -> X 0 = x -> U 0 = u -> is_derive (fun s => g (X s) (U s)) 0 (fsum n (fun j => gx j * v j) + fsum m (fun j => gu j * w j))) -> slopes n m g gx gu x u.
Proof.
  intros S H X U dx du [X0 DX] [U0 DU]. set (X' := fun (t : R) i => if Nat.ltb i n then X t i else x i). set (U' := fun (t : R) i => if Nat.ltb i m then U t i else u i).
  apply (d_ext (fun t => g (X' t) (U' t))); [intros t; apply S; intros i Hi; unfold X', U'; rewrite (proj2 (Nat.ltb_lt _ _) Hi); reflexivity|].
  assert (CX : curve X' (fun i => if Nat.ltb i n then dx i else 0)). { intros i. unfold X'. destruct (Nat.ltb_spec i n); [apply DX; assumption|apply d_const]. }
  assert (CU : curve U' (fun i => if Nat.ltb i m then du i else 0)). { intros i. unfold U'. destruct (Nat.ltb_spec i m); [apply DU; assumption|apply d_const]. }
  eapply d_eq; [apply (H X' U' _ _ CX CU)|].
  - apply functional_extensionality. intros i. unfold X'. destruct (Nat.ltb_spec i n); [apply X0; assumption|reflexivity].
  - apply functional_extensionality. intros i. unfold U'. destruct (Nat.ltb_spec i m); [apply U0; assumption|reflexivity].
  - rewrite !inner_fsum, !fsum_rsum. f_equal; apply rsum_ext; intros i Hi; rewrite (proj2 (Nat.ltb_lt _ _) Hi); reflexivity.
Qed.
Lemma curves_slopes (GX GU : vec RS -> vec RS -> nat -> R) :
  (forall X U v w, curve X v -> curve U w -> is_derive (fun s => g (X s) (U s)) 0 (fsum n (fun j => GX (X 0) (U 0) j * v j) + fsum m (fun j => GU (X 0) (U 0) j * w j))) ->
  forall x u, slopes n m g (GX x u) (GU x u) x u.
Proof. intros H x u. apply slopes_at; [exact (curves_same GX GU H)|]. intros X U v w CX CU <- <-. apply H; assumption. Qed.
End Curves.

(** ** objects *)
Section Obj.
Context (n m : nat).
Lemma fresh_pens (a b : ALCost RS) : al_fresh a = al_fresh b -> map (@cv_pen RS) (al_cvs a) = map (@cv_pen RS) (al_cvs b).
Proof.
  intros E. assert (H : forall c : ALCost RS, map (@cv_pen RS) (al_cvs c) = map (@cv_pen RS) (al_cvs (al_fresh c))).
  { intros c. unfold al_cvs, al_fresh, al_map. cbn. rewrite <- map_app, map_map. apply map_ext. reflexivity. }
  rewrite (H a), (H b), E. reflexivity.
Qed.
Lemma smooth_step (a b : ALCost RS) o : (forall debug, al_step debug o a = Ok b) -> al_fresh b = al_fresh a -> smooth_al n m a -> smooth_al n m b.
Proof.
  intros ST FR (debug & cost & eqs & ineqs & os & C & H & G & R & P). exists debug, cost, eqs, ineqs, (os ++ [o]). split; [exact C|]. split; [exact H|]. split; [exact G|]. split; [eapply reach_step; [exact R|apply ST]|].
  intros v Hv. assert (In (cv_pen v) (map (@cv_pen RS) (al_cvs a))) by (rewrite <- (fresh_pens _ _ FR); apply in_map; exact Hv). apply in_map_iff in H0. destruct H0 as (w & <- & Hw). apply P. exact Hw.
Qed.
Lemma smooth_facts a : smooth_al n m a -> al_n a = n /\ al_m a = m /\ cost_true n m (al_cost a) /\ (forall v, In v (al_cvs a) -> 0 < cv_pen v 0%nat /\ (1 <= cv_p v)%nat /\ (forall i, (i < cv_p v)%nat -> cv_pen v i = cv_pen v 0%nat) /\ exists g J, cv_good n m v g J).
Proof.
  intros (debug & cost & eqs & ineqs & os & C & H & G & R & P). destruct (reach_good debug n m cost eqs ineqs os a (fun c Hc => proj1 (G c Hc)) R) as (A & B & E & F). rewrite E. repeat (split; [assumption|]).
  intros v Hv. destruct (F v Hv) as [I GJ]. destruct (G _ I) as [_ D]. fold (cv_p v) in D. split; [apply P; exact Hv|]. split; [exact D|]. split; [|exact GJ]. intros i Hi. apply (penalties_uniform debug n m cost eqs ineqs os a R v Hv); [exact Hi|lia].
Qed.
Lemma good_writes v g J : cv_good n m v g J -> con_writes (cv_con v).
Proof. intros (_ & _ & W & T & _) x u b b' i Hi. rewrite !(ct_eval _ _ _ _ _ _ T) by exact Hi. reflexivity. Qed.
Lemma smooth_writes a : smooth_al n m a -> al_writes a.
Proof. intros H. destruct (smooth_facts a H) as (_ & _ & _ & F). apply Forall_forall. intros v Hv. destruct (F v Hv) as (_ & _ & _ & g & J & G). exact (good_writes v g J G). Qed.
Theorem al_smooth : smooth_costs n m al_ops (smooth_al n m) al_value.
Proof.
  split.
  - destruct (@al_faithful RS) as [A B C D]. split; intros.
    + apply A. apply smooth_writes. assumption.
    + split; [|apply B; apply smooth_writes; assumption]. apply (smooth_step c _ (OpEval x u)); [reflexivity|apply al_eval_fresh|assumption].
    + split; [|apply C; apply smooth_writes; assumption]. apply (smooth_step c _ (OpGrad x u b)); [reflexivity|apply al_grad_fresh|assumption].
    + split; [|apply D; apply smooth_writes; assumption]. apply (smooth_step c _ (OpHess x u b)); [reflexivity|apply al_hess_fresh|assumption].
  - intros a x u SA. destruct (smooth_facts a SA) as (Hn & Hm & C & F).
    apply (curves_slopes n m (al_value a) (fun x u => fst (fst (al_gradient a x u (vzero, vzero)))) (fun x u => snd (fst (al_gradient a x u (vzero, vzero))))).
    intros X U v w CX CU. apply (d_ext (fun s => fst (al_eval a (X s) (U s)))); [intros s; apply al_value_eval, smooth_writes; exact SA|].
    apply al_gradient_true; auto. intros c Hc. destruct (F c Hc) as (P & _ & _ & GJ). split; [lra|exact GJ].
  - intros a x u (debug & cost & eqs & ineqs & os & C & H & G & R & P). pose proof (al_hessian_sym n m debug cost eqs ineqs os a x u (mzero, mzero, mzero) (fun c Hc => proj1 (G c Hc)) R) as S.
    destruct (H x u (mzero, mzero, mzero)) as [H1 H2]. destruct (uc_hess cost x u (mzero, mzero, mzero)) as [[hxx hxu] huu]. specialize (S (conj H1 H2)). cbn [al_ops co_hess].
    destruct (fst (al_hessian a x u (mzero, mzero, mzero))) as [[rxx rxu] ruu]. exact S.
Qed.
End Obj.
