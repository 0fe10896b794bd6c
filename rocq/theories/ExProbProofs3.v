(** The example problems in exact arithmetic. *)
From Coq Require Import Reals Lra ZArith List Bool Lia.
From Verif Require Import Base Lin RLin ConModel ConSpec ConProofs LogModel StatsModel TrajModel IlqrModel CostInst AlModel DynModel ExampleModel ExampleSpec ExampleProofs2 ExampleProofs3 P_Examples ProblemModel ProblemSpec ProblemProofs ProblemProofs2 ProblemProofs3 ProblemProofs4 LqSpec LltProofs LqInst ExProbModel ExProbSpec ExProbProofs ExProbProofs2.
From Coq Require Import FunctionalExtensionality.
Import List ListNotations LqSpec.
Local Open Scope R_scope.

(** * symmetric bounds *)
Lemma bounds_ok (l : list R) : forall k cnt, (k + cnt <= length l)%nat -> ti_bounds (F:=RS) l k cnt = Ok (map Ropp (firstn cnt (skipn k l)), firstn cnt (skipn k l)).
Proof.
  intros k cnt. revert k. induction cnt as [|c IH]; intros k H; [reflexivity|]. cbn [ti_bounds].
  destruct (nth_error l k) as [b|] eqn:E; [|apply nth_error_None in E; lia]. assert (E' : nth_error (A:=T RS) l k = Some b) by exact E. rewrite E', IH by lia. cbn [bind].
  assert (ES : skipn k l = b :: skipn (S k) l). { clear -E. revert k E. induction l as [|a l IH]; intros [|k] E; cbn in *; try discriminate; [now inversion E|]. now apply IH. }
  rewrite ES. reflexivity.
Qed.
Lemma cb_make_ok debug dmax (lb ub : list R) : length lb = length ub -> (0 < length lb)%nat -> (forall i, (i < length lb)%nat -> nth i lb 0 <= nth i ub 0) ->
  cb_make (F:=RS) dmax debug lb ub = Ok (mkCB (F:=RS) (length lb) lb ub (finite_indices (F:=RS) dmax lb) (finite_indices (F:=RS) dmax ub)).
Proof.
  intros HL HP HB. unfold cb_make, cb_validate. change (@length (T RS)) with (@length R). rewrite HL, Nat.eqb_refl, assert_true. cbn [bind].
  replace (Nat.ltb 0 (length ub)) with true by (symmetry; apply Nat.ltb_lt; lia). rewrite assert_true. cbn [bind].
  replace (forallb _ _) with true; [rewrite assert_true; reflexivity|]. symmetry. apply forallb_forall. intros i Hi. apply in_seq in Hi. apply Rleb_true. apply HB. lia.
Qed.
(** all bounds finite: two rows per control, and the box as feasible set *)
Theorem bound_box debug dmax (lb ub : list R) b n : 0 <= dmax -> length lb = length ub -> cb_make (F:=RS) dmax debug lb ub = Ok b ->
  Forall (fun v => Rabs v < dmax) lb -> Forall (fun v => Rabs v < dmax) ub ->
  con_dim (cb_con (F:=RS) n b) = (2 * length lb)%nat /\
  forall x u buf, in_cone NegativeOrthant (con_dim (cb_con (F:=RS) n b)) (con_eval (cb_con n b) x u buf) <-> forall i, (i < length lb)%nat -> nth i lb 0 <= u i <= nth i ub 0.
Proof.
  intros HD HL E FL FU.
  assert (RE : cb_reach (F:=RS) dmax dmax debug b) by (eapply R_make; [right; exact HL|exact E]).
  assert (EB : cb_lo b = lb /\ cb_hi b = ub).
  { unfold cb_make, cb_validate in E. repeat match type of E with context [altro_assert ?d ?x] => destruct (altro_assert d x) as [[]| | | | |]; cbn [bind] in E; try discriminate end. now inversion E. }
  destruct EB as [EL EU].
  assert (D1 : Rltb (Rabs dmax) dmax = false) by (apply Rltb_false; rewrite Rabs_pos_eq; lra).
  assert (D2 : Rltb (Rabs (- dmax)) dmax = false) by (apply Rltb_false; rewrite Rabs_Ropp, Rabs_pos_eq; lra).
  destruct (C52_rows RS dmax dmax D1 D2 debug b RE) as (_ & _ & DIM & _).
  assert (FA : forall l : list R, Forall (fun v => Rabs v < dmax) l -> length (filter (fun v : R => ltb (s:=RS) (sabs (s:=RS) v) dmax) l) = length l).
  { induction l as [|v l IH]; intros HF; [reflexivity|]. inversion HF; subst. cbn [filter]. replace (ltb (s:=RS) (sabs (s:=RS) v) dmax) with true by (symmetry; apply Rltb_true; exact H1). cbn. f_equal. apply IH; auto. }
  split.
  - cbn [cb_con con_dim]. rewrite DIM, EL, EU. etransitivity; [apply f_equal2; apply FA; auto|]. lia.
  - intros x u buf. cbn [cb_con con_dim]. rewrite (C52_feasible dmax dmax (Rle_refl _) debug b RE n x u buf). unfold within. rewrite EL, EU. split.
    + intros [H1 H2] i Hi. split.
      * destruct (nth_error lb i) as [v|] eqn:E1; [|apply nth_error_None in E1; lia]. rewrite (nth_error_nth _ _ _ E1). apply (H1 i v E1). rewrite Forall_forall in FL. apply FL. eapply nth_error_In; eauto.
      * destruct (nth_error ub i) as [v|] eqn:E1; [|apply nth_error_None in E1; lia]. rewrite (nth_error_nth _ _ _ E1). apply (H2 i v E1). rewrite Forall_forall in FU. apply FU. eapply nth_error_In; eauto.
    + intros H. split; intros j v E1 _.
      * pose proof (H j ltac:(apply nth_error_Some; congruence)) as [A _]. rewrite (nth_error_nth _ _ 0 E1) in A. exact A.
      * pose proof (H j ltac:(rewrite HL; apply nth_error_Some; congruence)) as [_ A]. rewrite (nth_error_nth _ _ 0 E1) in A. exact A.
Qed.

(** * quadratic costs *)
Lemma scale0 (R : mat RS) : mscale zero R = (fun _ _ => 0 : RS).
Proof. apply functional_extensionality. intros i. apply functional_extensionality. intros j. unfold mscale. rs. lra. Qed.
Lemma qform_zero n m x y : qform n m (fun _ _ => 0) x y = 0.
Proof. unfold qform. rewrite fsum_rsum. apply rsum_zero'. intros i Hi. rewrite fsum_rsum, rsum_zero' by (intros; lra). lra. Qed.

(** * TripleIntegratorProblem *)
Definition weights_ok (n m : nat) (Q R : nat -> nat -> R) : Prop := sym n Q /\ sym m R /\ posdef m R.
Theorem ti_made debug ldlt dmax dof uref st add (t : TIP RS) h : let n := (3 * dof)%nat in let N := ti_N t in
  (1 <= dof)%nat -> (1 <= N)%Z -> length (ti_x0 t) = n -> sym n (ti_Q t) -> sym n (ti_Qf t) -> sym dof (ti_R t) -> posdef dof (ti_R t) ->
  ldlt (ti_Q t) = true -> ldlt (ti_Qf t) = true ->
  (add = true -> (dof <= length (A:=R) (ti_ubnd t))%nat /\ forall i, (i < dof)%nat -> 0 <= nth i (ti_ubnd t) 0 < dmax) ->
  exists h' p c cT b q qT, ti_make debug ldlt dmax dof uref st add t h = Ok (h', p) /\ pr_is_fully_defined h' p = Ok true /\
    pr_num_constraints debug p = Ok (if add then Z.to_nat N * (2 * dof) + n else 0)%nat /\
    holds N h' p (ti_x0 t) (ti_model dof st) (fun k => if (k =? N)%Z then cT else c)
      (fun k => if add && (k =? N)%Z then [goal_con n (lvec (ti_xf t))] else []) (fun k => if add && (k <? N)%Z then [b] else []) /\
    c = qc_ucost q /\ cT = qc_ucost qT /\
    qc_lqr debug (ldlt (ti_Q t)) n dof (ti_Q t) (ti_R t) (lvec (ti_xf t)) uref false = Ok q /\
    qc_lqr debug (ldlt (ti_Qf t)) n dof (ti_Qf t) (fun _ _ => 0 : RS) (lvec (ti_xf t)) uref true = Ok qT /\
    (add = true -> forall x u buf, in_cone NegativeOrthant (con_dim b) (con_eval b x u buf) <-> forall i, (i < dof)%nat -> - nth i (ti_ubnd t) 0 <= u i <= nth i (ti_ubnd t) 0).
Proof.
  intros n N HD HN HX SQ SQf SR PR LQ LQf HB.
  destruct (lqr_ok debug ldlt n dof (ti_Q t) (ti_R t) (lvec (ti_xf t)) uref false SQ SR (or_intror PR) LQ) as (q & Eq & Ec).
  destruct (lqr_ok debug ldlt n dof (ti_Qf t) (mscale zero (ti_R t)) (lvec (ti_xf t)) uref true SQf) as (qT & EqT & EcT); auto. { intros i j _ _. rewrite scale0. reflexivity. }
  set (ub := firstn (A:=R) dof (ti_ubnd t)). set (lb := map Ropp ub). set (b := mkCB (F:=RS) (length lb) lb ub (finite_indices (F:=RS) dmax lb) (finite_indices (F:=RS) dmax ub)).
  assert (UB : add = true -> length ub = dof /\ ti_bounds (F:=RS) (ti_ubnd t) 0 dof = Ok (lb, ub) /\ cb_make (F:=RS) dmax debug lb ub = Ok b /\ (forall i, (i < dof)%nat -> nth i lb 0 = - nth i (ti_ubnd t) 0 /\ nth i ub 0 = nth i (ti_ubnd t) 0)).
  { intros EA. destruct (HB EA) as [HL HI]. assert (LU : length ub = dof) by (unfold ub; rewrite firstn_length; lia).
    assert (NT : forall i, (i < dof)%nat -> nth i lb 0 = - nth i (ti_ubnd t) 0 /\ nth i ub 0 = nth i (ti_ubnd t) 0).
    { intros i Hi. assert (EU : nth i ub 0 = nth i (ti_ubnd t) 0). { unfold ub. rewrite <- (firstn_skipn (A:=R) dof (ti_ubnd t)) at 2. rewrite app_nth1; [reflexivity|]. rewrite firstn_length. lia. }
      split; [|exact EU]. unfold lb. rewrite <- EU. rewrite (nth_indep _ 0 (Ropp 0)) by (rewrite map_length; lia). apply map_nth. }
    split; [exact LU|]. split; [apply (bounds_ok (ti_ubnd t) 0 dof); lia|]. split; [|exact NT]. assert (LL : length lb = dof) by (unfold lb; rewrite map_length; exact LU). apply cb_make_ok; rewrite ?LL; [congruence|lia|]. intros i Hi. destruct (NT i Hi) as [-> ->]. specialize (HI i Hi). lra. }
  assert (BX : add = true -> con_dim (cb_con (F:=RS) n b) = (2 * dof)%nat /\ forall x u buf, in_cone NegativeOrthant (con_dim (cb_con (F:=RS) n b)) (con_eval (cb_con n b) x u buf) <-> forall i, (i < dof)%nat -> - nth i (ti_ubnd t) 0 <= u i <= nth i (ti_ubnd t) 0).
  { intros EA. destruct (UB EA) as (LU & _ & EM & NT). destruct (HB EA) as [_ HI]. assert (DM : 0 <= dmax) by (specialize (HI 0%nat ltac:(lia)); lra).
    assert (LL : length lb = dof) by (unfold lb; rewrite map_length; exact LU).
    destruct (bound_box debug dmax lb ub b n DM) as [E1 E2]; auto.
    - congruence.
    - apply Forall_forall. intros v Hv. destruct (In_nth _ _ 0 Hv) as (i & Hi & <-). rewrite LL in Hi. destruct (NT i Hi) as [-> _]. specialize (HI i Hi). rewrite Rabs_Ropp, Rabs_pos_eq; lra.
    - apply Forall_forall. intros v Hv. destruct (In_nth _ _ 0 Hv) as (i & Hi & <-). rewrite LU in Hi. destruct (NT i Hi) as [_ ->]. specialize (HI i Hi). rewrite Rabs_pos_eq; lra.
    - rewrite LL in E1, E2. split; [exact E1|]. intros x u buf. rewrite E2. split; intros H i Hi; specialize (H i Hi); destruct (NT i Hi) as [F1 F2]; rewrite F1, F2 in *; exact H. }
  destruct (new_ok (C:=UCost RS) N h ltac:(lia)) as [p0 E0].
  pose proof (ti_make_run debug ldlt dmax dof uref st add t h _ (qc_ucost q) (qc_ucost qT) lb ub b E0 Ec EcT) as ER.
  set (bg := if add then Some (cb_con n b, goal_con n (lvec (ti_xf t))) else None) in *.
  assert (Hbg : match bg with Some (b, g) => (0 < con_dim b)%nat /\ (0 < con_dim g)%nat | None => True end).
  { unfold bg. destruct add; [|exact I]. split; [destruct (BX eq_refl) as [-> _]; lia|cbn; lia]. }
  destruct (sh_run N HN None (qc_ucost q) (qc_ucost qT) (ti_model dof st) bg (ti_x0 t) false) with (h0 := h) (s0 := (h ++ [[]], p0)) as (h' & p & RUN & FD & CT); auto.
  { unfold ti_model. cbn [md_n md_m]. lia. } { unfold ti_model. cbn [md_n]. now rewrite HX. }
  exists h', p, (qc_ucost q), (qc_ucost qT), (cb_con n b), q, qT. rewrite ER by (intros EA; destruct (UB EA) as (_ & A & B & _); auto).
  split; [apply RUN|]. split; [exact FD|]. split.
  { rewrite (sh_num debug N None _ _ _ bg _ _ h' p _ HN CT). cbn [odim]. rewrite Nat.mul_0_r. f_equal. unfold bg in *. destruct add; [|reflexivity].
    destruct (BX eq_refl) as [-> _]. reflexivity. }
  split.
  { pose proof (sh_holds N HN None (qc_ucost q) (qc_ucost qT) (ti_model dof st) bg (ti_x0 t) false h h' p CT) as [A1 A2 A3 A4 A5 A6 A7]. split; auto.
    - intros k Hk. rewrite A6 by auto. f_equal. unfold sh_eq, bg. destruct add; reflexivity.
    - intros k Hk. rewrite A7 by auto. f_equal. unfold sh_ineq, bg. destruct add; reflexivity. }
  split; [reflexivity|]. split; [reflexivity|]. split; [exact Eq|]. split; [rewrite scale0 in EqT; exact EqT|].
  intros EA. apply (BX EA).
Qed.
