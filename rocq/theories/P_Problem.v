(** Properties C12, C48, C49: the Problem class and its conversion to an augmented-Lagrangian problem.
    Proofs in ProblemProofs*.v. *)
From Coq Require Import ZArith QArith String List Bool Lia.
From Verif Require Import Base Lin ConModel LogModel StatsModel TrajModel IlqrModel CostInst AlModel.
From Verif Require Import ProblemModel ProblemSpec ProblemProofs ProblemProofs2 ProblemProofs3 ProblemProofs4.
Import ListNotations.
Local Open Scope string_scope.
Local Open Scope list_scope.
Local Open Scope Z_scope.

(** ** C48: IsFullyDefined *)
(** After any history of setter calls that returned, on a problem with at least one segment: the answer is true exactly
    when the history is [complete], except that the check dereferences null when the initial state was given before any
    model for the first segment. *)
Theorem C48_decides : forall (F : Scalar) (C : Type) (debug : bool) (N : Z) (h0 : heap F) s0 (os : list (pop F C)) h p,
  1 <= N -> pr_new N h0 = Ok s0 -> pr_run debug os s0 = Ok (h, p) ->
  (init_given os <> [] /\ dyn_given os 0 = None -> pr_is_fully_defined h p = UB) /\
  (~ (init_given os <> [] /\ dyn_given os 0 = None) ->
     (complete N os -> pr_is_fully_defined h p = Ok true) /\ (~ complete N os -> pr_is_fully_defined h p = Ok false)).
Proof.
  intros F C debug N h0 s0 os h p HN H0 Hr. destruct (fully_defined_run debug N h0 s0 os h p HN H0 Hr) as [H1 H2]. split; [exact H1|].
  intros Hn. destruct (H2 Hn) as (b & -> & Hb). split; intros Hc.
  - f_equal. apply Hb. exact Hc.
  - destruct b; [elim Hc; apply Hb; reflexivity|reflexivity].
Qed.
(** a small computable problem *)
Definition exd : Model QS := mkModel 1 1 (mkDyn (fun x u _ h _ i => add (x i) (mul h (u i))) (fun _ _ _ _ _ => mident)).
Definition ex1 : list QS := [(1%Q : QS)].
Definition exc : UCost QS := mkUCost (fun x u => mul (x 0%nat) (x 0%nat)) (fun _ _ _ => (vzero, vzero)) (fun _ _ _ => (mzero, mzero, mzero)).
Definition exk : Con QS := mkCon (F:=QS) 1 (fun x u _ => x) (fun _ _ _ => mident) "bound".
Definition exos : list (pop QS (UCost QS)) :=
  [PDyns [Some exd; Some exd] 0; PCost (Some exc) 2; PCosts [Some exc; Some exc] 0; PCon Equality exk 2; PCon Inequality exk 1; PCon Equality exk 1;
   PInit ex1].
Definition exrun (os : list (pop QS (UCost QS))) (N : Z) : res (heap QS * Prob QS (UCost QS)) := do s <- pr_new N [] ; pr_run true os s.
Lemma exrun_defined N os : (do (h, p) <- exrun os N ; pr_is_fully_defined h p) = Ok true ->
  exists s0 h p, pr_new N [] = Ok s0 /\ pr_run true os s0 = Ok (h, p) /\ exrun os N = Ok (h, p) /\ pr_is_fully_defined h p = Ok true.
Proof.
  unfold exrun. destruct (pr_new N []) as [s0| | | | |]; try discriminate. cbn [bind].
  destruct (pr_run true os s0) as [[h p]| | | | |] eqn:E; try discriminate. intros H. exists s0, h, p. auto.
Qed.
Example C48_example :
  (do (h, p) <- exrun exos 2 ; pr_is_fully_defined h p) = Ok true /\
  (do (h, p) <- exrun (removelast exos) 2 ; pr_is_fully_defined h p) = Ok false /\
  (do (h, p) <- exrun exos 3 ; pr_is_fully_defined h p) = Ok false /\ complete 2 exos.
Proof.
  assert (T : (do (h, p) <- exrun exos 2 ; pr_is_fully_defined h p) = Ok true) by (vm_compute; reflexivity).
  split; [exact T|]. split; [vm_compute; reflexivity|]. split; [vm_compute; reflexivity|].
  destruct (exrun_defined _ _ T) as (s0 & h & p & H0 & Hr & _ & Hf).
  destruct (fully_defined_run true 2 [] s0 exos h p ltac:(lia) H0 Hr) as [H1 H2].
  destruct H2 as (b & Hb & Hc). { intros Hn. rewrite (H1 Hn) in Hf. discriminate. }
  rewrite Hf in Hb. injection Hb as <-. apply Hc. reflexivity.
Qed.
(** FINDING: "returns false rather than crashing" is false.  Setting the initial state before the dynamics and asking
    IsFullyDefined dereferences a null model pointer (problem.cpp:23). *)
Theorem C48_no_crash_refuted : exists (os : list (pop QS (UCost QS))) h p,
  exrun os 1 = Ok (h, p) /\ ~ complete 1 os /\ pr_is_fully_defined h p = UB.
Proof.
  exists [PCosts [Some exc; Some exc] 0; PInit ex1]. eexists. eexists. split; [reflexivity|]. split; [|reflexivity].
  intros (H & _). apply (H 0); [lia|reflexivity].
Qed.
(** FINDING: a problem with zero segments whose initial state is set always crashes the check (no SetDynamics call is
    accepted for it), for every history in a debug build. *)
Theorem C48_zero_segments_refuted :
  (forall (F : Scalar) (C : Type) h0 s0 (os : list (pop F C)) h p, pr_new 0 h0 = Ok s0 -> pr_run true os s0 = Ok (h, p) ->
     init_given os <> [] -> pr_is_fully_defined h p = UB) /\
  exists (os : list (pop QS (UCost QS))) h p, exrun os 0 = Ok (h, p) /\ cost_given os 0 <> None /\ init_given os <> [] /\ pr_is_fully_defined h p = UB.
Proof.
  split.
  - intros F C h0 s0 os h p H0 Hr Hi. exact (fully_defined_zero h0 s0 os h p H0 Hr Hi).
  - exists [PCost (Some exc) 0; PInit ex1]. eexists. eexists. split; [reflexivity|]. split; [discriminate|]. split; [discriminate|reflexivity].
Qed.

(** ** C49: copies *)
Section Copies.
Context {F : Scalar} {C : Type}.
(** the parts of a problem other than its number of segments *)
Definition same_data (h : heap F) (p : Prob F C) (h' : heap F) (q : Prob F C) : Prop :=
  pr_costs q = pr_costs p /\ pr_models q = pr_models p /\ pr_eq q = pr_eq p /\ pr_ineq q = pr_ineq p /\
  h_get (pr_init q) h' = h_get (pr_init p) h.
End Copies.
(** Copy construction, move construction and both assignments transfer costs, dynamics, constraints and initial state;
    a copy has its own initial-state cell (changing it leaves the original's alone).
    Missing: the number of segments (see the refutations). *)
Theorem C49_copy_contents_partial : forall (F : Scalar) (C : Type) (h : heap F) (p q : Prob F C),
  (pr_init p < length h)%nat -> (pr_init q < length h)%nat ->
  (let (h', c) := pr_copy h p in same_data h p h' c /\ same_data h p h' p /\
     (forall x0, h_get (pr_init p) (pr_set_init x0 h' c) = h_get (pr_init p) h)) /\
  same_data h p h (fst (pr_move p)) /\
  (let (h', q') := pr_assign h q p in same_data h p h' q' /\ pr_init q' = pr_init q) /\
  (let '(h', q', _) := pr_assign_move h q p in same_data h p h' q').
Proof.
  intros F C h p q Hp Hq.
  assert (G1 : forall x, h_get (pr_init p) (h ++ [x]) = h_get (pr_init p) h) by (intros x; unfold h_get; apply app_nth1; exact Hp).
  assert (G2 : forall x (g : heap F), (pr_init p < length g)%nat -> h_get (pr_init p) (h_set (length h) x g) = h_get (pr_init p) g).
  { intros x g Hg. unfold h_get, h_set.
    destruct (nth_error g (pr_init p)) eqn:E; [|apply nth_error_None in E; lia].
    rewrite (nth_error_nth _ _ _ E). apply nth_error_nth. rewrite nth_error_upd_other by lia. exact E. }
  split.
  - unfold pr_copy, h_new. split; [|split].
    + unfold same_data. cbn. repeat split. rewrite h_get_set by (rewrite app_length; simpl; lia). apply G1.
    + unfold same_data. repeat split. rewrite G2 by (rewrite app_length; lia). apply G1.
    + intros x0. unfold pr_set_init. cbn [pr_init]. rewrite !G2 by (unfold h_set; try rewrite upd_length; rewrite app_length; lia). apply G1.
  - split; [unfold same_data; cbn; repeat split|]. split.
    + unfold pr_assign, same_data. cbn. repeat split. apply h_get_set. exact Hq.
    + unfold pr_assign_move, same_data. cbn. repeat split. apply h_get_set. exact Hq.
Qed.
(** FINDING: the number of segments of a copied or moved-from-constructed problem is never initialised
    (problem.hpp:88-91, 102-107): reading it is undefined for every problem. *)
Theorem C49_copy_segments_refuted :
  (forall (F : Scalar) (C : Type) (h : heap F) (p : Prob F C), pr_segments (snd (pr_copy h p)) = UB /\ pr_segments (fst (pr_move p)) = UB) /\
  exists h p, exrun exos 2 = Ok (h, p) /\ pr_is_fully_defined h p = Ok true /\ pr_segments p = Ok 2 /\
    (let (h', c) := pr_copy h p in pr_is_fully_defined h' c = UB).
Proof.
  split; [intros; split; reflexivity|].
  destruct (exrun_defined _ _ (proj1 C48_example)) as (s0 & h & p & H0 & Hr & E & Hf). exists h, p. split; [exact E|]. split; [exact Hf|].
  split; [|reflexivity]. unfold pr_segments. rewrite (ct_N _ _ _ _ _ (contents_run true 2 [] s0 exos h p ltac:(lia) H0 Hr)). reflexivity.
Qed.
(** FINDING: assignment keeps the target's number of segments (problem.hpp:79-86): assigning a 1-segment problem to a
    2-segment one gives a problem that claims 2 segments and reads past the end of its vectors. *)
Theorem C49_assign_refuted : exists (h : heap QS) (p q : Prob QS (UCost QS)),
  pr_is_fully_defined h q = Ok true /\ pr_segments q = Ok 1 /\
  (let (h', p') := pr_assign h p q in pr_segments p' = Ok 2 /\ pr_is_fully_defined h' p' = UB).
Proof.
  exists [ex1; []], (mkProb (Some 2) 1 (repeat None 3) (repeat None 3) (repeat [] 3) (repeat [] 3)),
    (mkProb (Some 1) 0 [Some exc; Some exc] [Some exd; Some exd] [[]; []] [[]; []]).
  vm_compute. auto.
Qed.
Example C49_example : let (h', c) := pr_copy [ex1] (mkProb (F:=QS) (Some 1) 0 [Some exc; Some exc] [Some exd; Some exd] [[exk]; []] [[]; []]) in
  h_get (pr_init c) h' = ex1 /\ pr_init c = 1%nat /\ length (pr_costs c) = 2%nat /\ h_get 0 (pr_set_init (one :: ex1) h' c) = ex1.
Proof. vm_compute. auto. Qed.

(** ** C12: conversion to an augmented-Lagrangian problem *)
(** For every problem built by accepted setter calls and fully defined (copy elision of the returned problem assumed, as
    every mainstream compiler does): segments, dynamics and the shared initial-state cell are kept, all constraint lists
    of the new problem are empty, and cost k is an ALCost wrapping the user's cost k and exactly the constraints attached
    at k in order, with zero multipliers. *)
Theorem C12_conversion : forall (F : Scalar) (debug : bool) (N : Z) (h0 : heap F) s0 (os : list (pop F (UCost F))) h p cs,
  1 <= N -> pr_new N h0 = Ok s0 -> pr_run true os s0 = Ok (h, p) -> pr_is_fully_defined h p = Ok true ->
  exists q als, build_al debug true h p cs = Ok (h, q, cs ++ als) /\
    pr_segments q = Ok N /\ pr_init q = pr_init p /\ Z.of_nat (length als) = N + 1 /\
    (forall k, 0 <= k < N -> nth_error (pr_models q) (Z.to_nat k) = Some (dyn_given os k)) /\
    (exists md, dyn_given os (N - 1) = Some md /\ nth_error (pr_models q) (Z.to_nat N) = Some (Some (mkModel (md_n md) (md_m md) identity_dyn))) /\
    (forall k, 0 <= k <= N -> nth_error (pr_eq q) (Z.to_nat k) = Some [] /\ nth_error (pr_ineq q) (Z.to_nat k) = Some []) /\
    pr_num_constraints debug q = Ok 0%nat /\
    (forall k, 0 <= k <= N -> exists c a, cost_given os k = Some c /\ nth_error als (Z.to_nat k) = Some a /\
       nth_error (pr_costs q) (Z.to_nat k) = Some (Some a) /\ al_cost a = c /\
       map cv_con (al_eq a) = con_given false os k /\ map cv_con (al_ineq a) = con_given true os k /\
       Forall (fun v => cv_type v = Equality) (al_eq a) /\ Forall (fun v => cv_type v = Inequality) (al_ineq a) /\
       Forall (fun v => forall i, cv_lam v i = zero) (al_cvs a)).
Proof.
  intros F debug N h0 s0 os h p cs HN H0 Hr Hf.
  assert (Hcomp : complete N os).
  { destruct (fully_defined_run true N h0 s0 os h p HN H0 Hr) as [H1 H2].
    assert (Hn : ~ (init_given os <> [] /\ dyn_given os 0 = None)) by (intros Hn; rewrite (H1 Hn) in Hf; discriminate).
    destruct (H2 Hn) as (b & E & Hb). rewrite Hf in E. injection E as <-. apply Hb. reflexivity. }
  pose proof (contents_run true N h0 s0 os h p ltac:(lia) H0 Hr) as Hp.
  destruct (complete_models N h0 s0 os h p HN H0 Hr Hcomp) as [Hm (mdl & El & EN & Hpos)].
  pose proof Hcomp as (_ & Hcost & _ & _).
  set (md := the_model os N).
  assert (Hmd : forall k, 0 <= k <= N -> last_at (model_calls N (dyn_calls os)) k = Some (md k)).
  { intros k Hk. unfold md, the_model. destruct (Z.eq_dec k N) as [->|Hne]; [rewrite EN; reflexivity|].
    destruct (Hm k ltac:(lia)) as (m0 & _ & E0). rewrite E0. reflexivity. }
  destruct (cost_given os 0) as [c0|] eqn:Ec0; [|elim (Hcost 0 ltac:(lia)); exact Ec0].
  set (c := fun k => match cost_given os k with Some c => c | None => c0 end).
  assert (Hc : forall k, 0 <= k <= N -> cost_given os k = Some (c k)).
  { intros k Hk. unfold c. specialize (Hcost k Hk). destruct (cost_given os k); congruence. }
  assert (HposN : 0 < md_n (md (N - 1)) /\ 0 < md_m (md (N - 1))).
  { destruct (Hm (N - 1) ltac:(lia)) as (m0 & E0 & E1). rewrite El in E0. injection E0 as <-. unfold md, the_model. rewrite E1. exact Hpos. }
  destruct (build_al_ok debug N (length h0) os h p md c cs HN Hp Hmd Hc HposN) as (q & E & Cq). cbv zeta in E, Cq.
  set (al := fun k => al_make (Z.to_nat (md_n (md k))) (Z.to_nat (md_m (md k))) (c k) (con_given false os k) (con_given true os k)) in *.
  exists q, (map al (zseq 0 (Z.to_nat (N + 1)))). split; [exact E|].
  split; [unfold pr_segments; rewrite (ct_N _ _ _ _ _ Cq); reflexivity|].
  split; [rewrite (ct_loc _ _ _ _ _ Cq), (ct_loc _ _ _ _ _ Hp); reflexivity|].
  split; [rewrite map_length, zseq_length; lia|].
  split. { intros k Hk. rewrite (ct_model _ _ _ _ _ Cq) by lia. rewrite al_ops_model by lia. destruct (k =? N) eqn:E2; [apply Z.eqb_eq in E2; lia|].
    destruct (Hm k Hk) as (m0 & E0 & E1). rewrite E0. do 2 f_equal. unfold md, the_model. rewrite E1. reflexivity. }
  split. { exists mdl. split; [exact El|]. rewrite (ct_model _ _ _ _ _ Cq) by lia. rewrite al_ops_model, Z.eqb_refl by lia. do 2 f_equal.
    destruct (Hm (N - 1) ltac:(lia)) as (m0 & E0 & E1). rewrite El in E0. injection E0 as <-. unfold md, the_model. rewrite E1. reflexivity. }
  split. { intros k Hk. rewrite (ct_eq _ _ _ _ _ Cq), (ct_ineq _ _ _ _ _ Cq) by lia. rewrite !al_ops_con. auto. }
  split. { rewrite (num_ok debug N _ _ _ _ Cq). f_equal. clear. induction (zseq 0 (Z.to_nat (N + 1))) as [|k l IH]; [reflexivity|]. cbn [map list_sum fold_right].
    rewrite !al_ops_con. exact IH. }
  intros k Hk. exists (c k), (al k). split; [apply Hc; exact Hk|]. split.
  { unfold zseq. rewrite map_map, nth_error_map. rewrite (nth_error_nth' _ 0%nat) by (rewrite seq_length; lia). rewrite seq_nth by lia. cbn. f_equal. f_equal. lia. }
  split. { rewrite (ct_cost _ _ _ _ _ Cq) by lia. rewrite al_ops_cost by lia. reflexivity. }
  unfold al, al_make. cbn [al_cost al_eq al_ineq al_cvs]. split; [reflexivity|].
  assert (Hmap : forall n m K (l : list (Con F)), map cv_con (map (cv_make n m K) l) = l) by (intros; rewrite map_map; apply map_id).
  rewrite !Hmap. split; [reflexivity|]. split; [reflexivity|].
  assert (HF : forall n m K (l : list (Con F)), Forall (fun v => cv_type v = K) (map (cv_make n m K) l)).
  { intros. apply Forall_forall. intros v Hv. apply in_map_iff in Hv. destruct Hv as (x & <- & _). reflexivity. }
  split; [apply HF|]. split; [apply HF|]. unfold al_cvs. cbn [al_eq al_ineq].
  assert (HL : forall n m K (l : list (Con F)), Forall (fun v => forall i, cv_lam v i = zero) (map (cv_make n m K) l)).
  { intros. apply Forall_forall. intros v Hv. apply in_map_iff in Hv. destruct Hv as (x & <- & _). intros i. unfold cv_make. cbn [cv_lam].
    unfold vstore. generalize (con_dim x). intros d. destruct (Nat.lt_ge_cases i d).
    - rewrite (nth_indep _ _ (vzero 0%nat)) by (rewrite map_length, seq_length; lia). rewrite map_nth. reflexivity.
    - apply nth_overflow. rewrite map_length, seq_length. lia. }
  apply Forall_app. split; apply HL.
Qed.

(** The solver constructed from the problem: initial state, dynamics, costs and constraints at every knot point are the
    user's; identity dynamics at the end.  [on], [om] are the compile-time dimensions (None = dynamic). *)
Theorem C12_solver : forall (F : Scalar) debug (n m : nat) on om N (h0 : heap F) s0 (os : list (pop F (UCost F))) h p
    (dyn : Z -> Model F) (c : Z -> UCost F),
  1 <= N -> pr_new N h0 = Ok s0 -> pr_run true os s0 = Ok (h, p) -> complete N os ->
  (forall k, 0 <= k < N -> dyn_given os k = Some (dyn k)) -> (forall k, 0 <= k <= N -> cost_given os k = Some (c k)) ->
  (forall k, 0 <= k < N -> md_n (dyn k) = Z.of_nat n /\ md_m (dyn k) = Z.of_nat m) -> (on = None \/ on = Some n) -> (om = None \/ om = Some m) ->
  as_of_problem debug true on om h p =
    Ok (as_make n m (Z.to_nat N) (fun i => nth i (init_given os) zero)
          (map (fun k => (if k =? N then identity_dyn else md_dyn (dyn k), (c k, con_given false os k, con_given true os k))) (zseq 0 (Z.to_nat (N + 1)))),
        map (fun k => al_make n m (c k) (con_given false os k) (con_given true os k)) (zseq 0 (Z.to_nat (N + 1)))).
Proof. intros F. exact (@solver_of_problem F). Qed.
(** Constraint counts agree, at each knot point and in total. *)
Theorem C12_num_constraints : forall (F : Scalar) (debug : bool) (N : Z) (h0 : heap F) s0 (os : list (pop F (UCost F))) h p cs,
  1 <= N -> pr_new N h0 = Ok s0 -> pr_run true os s0 = Ok (h, p) -> pr_is_fully_defined h p = Ok true ->
  exists q als, build_al debug true h p cs = Ok (h, q, cs ++ als) /\ pr_num_constraints debug p = Ok (als_num_constraints als) /\
    forall k, 0 <= k <= N -> exists a, nth_error als (Z.to_nat k) = Some a /\ pr_num_constraints_at debug p k = Ok (al_num_constraints a).
Proof.
  intros F debug N h0 s0 os h p cs HN H0 Hr Hf.
  destruct (C12_conversion F debug N h0 s0 os h p cs HN H0 Hr Hf) as (q & als & E & _ & _ & Hl & _ & _ & _ & _ & Hk). exists q, als. split; [exact E|].
  pose proof (contents_run true N h0 s0 os h p ltac:(lia) H0 Hr) as Hp.
  assert (Hnum : forall a : ALCost F, al_num_constraints a = (con_dims (map cv_con (al_eq a)) + con_dims (map cv_con (al_ineq a)))%nat).
  { intros a. unfold al_num_constraints.
    assert (H : forall l x, fold_left (fun p v => (p + cv_p v)%nat) l x = (x + con_dims (map (cv_con (F:=F)) l))%nat).
    { induction l as [|v l IH]; intros x; simpl; [lia|]. rewrite IH. unfold cv_p. lia. }
    rewrite !H. lia. }
  assert (Hat : forall k, 0 <= k <= N -> exists a, nth_error als (Z.to_nat k) = Some a /\
    al_num_constraints a = (con_dims (con_given false os k) + con_dims (con_given true os k))%nat).
  { intros k Hkk. destruct (Hk k Hkk) as (c & a & _ & Ea & _ & _ & E1 & E2 & _). exists a. split; [exact Ea|]. rewrite Hnum, E1, E2. reflexivity. }
  split.
  - rewrite (num_ok debug N _ _ _ _ Hp). f_equal.
    assert (Em : als = map (fun k => nth (Z.to_nat k) als (al_make 0 0 (mkUCost (fun _ _ => zero) (fun _ _ _ => (vzero, vzero)) (fun _ _ _ => (mzero, mzero, mzero))) [] []))
      (zseq 0 (Z.to_nat (N + 1)))).
    { unfold zseq. rewrite map_map. set (d := al_make _ _ _ _ _). replace (Z.to_nat (N + 1)) with (length als) by lia.
      transitivity (map (fun i => nth i als d) (seq 0 (length als))).
      - apply (nth_ext _ _ d d); [now rewrite map_length, seq_length|]. intros i Hi.
        rewrite (nth_indep (map _ _) d (nth 0 als d)) by (rewrite map_length, seq_length; lia).
        rewrite (map_nth (fun i => nth i als d)). rewrite seq_nth by lia. reflexivity.
      - apply map_ext. intros i. f_equal. lia. }
    rewrite Em, als_num_map. f_equal. apply map_ext_in. intros k Hkk. apply in_zseq in Hkk. destruct (Hat k ltac:(lia)) as (a & Ea & En).
    rewrite <- En. rewrite (nth_error_nth _ _ _ Ea). reflexivity.
  - intros k Hkk. destruct (Hat k Hkk) as (a & Ea & En). exists a. split; [exact Ea|]. rewrite (num_at_ok debug N _ _ _ _ k Hp Hkk), En. reflexivity.
Qed.
Definition exsolver (elide : bool) : res (nat * nat * list (list nat)) :=
  do (h, p) <- exrun exos 2 ; do (s, als) <- as_of_problem true elide (Some 1%nat) None h p ;
  do k <- pr_num_constraints true p ;
  Ok (k, als_num_constraints als, map (fun a => [length (al_eq a); length (al_ineq a)]) als).
Example C12_example : exsolver true = Ok (3%nat, 3%nat, [[0%nat; 0%nat]; [1%nat; 1%nat]; [1%nat; 0%nat]]).
Proof. vm_compute. reflexivity. Qed.
Lemma build_no_elision {F : Scalar} debug h (p : Prob F (UCost F)) cs h1 q als :
  build_al debug true h p cs = Ok (h1, q, als) -> build_al debug false h p cs = Ok (h1, fst (pr_move q), als).
Proof.
  unfold build_al. destruct (pr_segments p) as [z| | | | |]; try discriminate. cbn [bind].
  destruct (pr_make _ _) as [q0| | | | |]; try discriminate. cbn [bind].
  match goal with |- context [for_z ?l ?f q0] => destruct (for_z l f q0) as [q1| | | | |]; try discriminate end. cbn [bind].
  match goal with |- context [for_z ?l ?f (q1, cs)] => destruct (for_z l f (q1, cs)) as [[q2 c2]| | | | |]; try discriminate end. cbn [bind].
  intros H. injection H as <- <- <-. reflexivity.
Qed.
(** FINDING (consequence of C49): BuildAugLagProblem returns its local problem by value.  The language allows the
    compiler not to elide that copy; then the move constructor runs, the number of segments is lost, and constructing the
    solver reads an indeterminate value. *)
Theorem C12_no_elision_refuted :
  (exists h p, exrun exos 2 = Ok (h, p) /\ pr_is_fully_defined h p = Ok true /\
     exists q als, build_al true false h p [] = Ok (h, q, als) /\ pr_segments q = UB) /\ exsolver false = UB.
Proof.
  split; [|vm_compute; reflexivity].
  destruct (exrun_defined _ _ (proj1 C48_example)) as (s0 & h & p & E0 & E & Ex & E1). exists h, p. split; [exact Ex|]. split; [exact E1|].
  destruct (C12_conversion QS true 2 [] s0 exos h p [] ltac:(lia) E0 E E1) as (q & als & Hb & _).
  exists (fst (pr_move q)), als. split; [|reflexivity]. exact (build_no_elision true h p [] h q als Hb).
Qed.

Print Assumptions C48_decides.
Print Assumptions C49_copy_contents_partial.
Print Assumptions C12_conversion.
Print Assumptions C12_solver.
Print Assumptions C12_num_constraints.
