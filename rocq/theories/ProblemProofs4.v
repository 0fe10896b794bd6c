From Coq Require Import ZArith List Bool Lia.
From Verif Require Import Base Lin ConModel LogModel StatsModel TrajModel IlqrModel CostInst AlModel ProblemModel ProblemSpec ProblemProofs ProblemProofs2 ProblemProofs3.
Import ListNotations.
Local Open Scope Z_scope.

Lemma for_z_app {B} (f : Z -> list B -> res (list B)) (g : Z -> B) l : (forall k acc, In k l -> f k acc = Ok (acc ++ [g k])) ->
  forall acc, for_z l f acc = Ok (acc ++ map g l).
Proof.
  induction l as [|k l IH]; intros H acc; simpl; [now rewrite app_nil_r|]. rewrite H by (left; reflexivity). cbn [bind].
  rewrite IH by (intros; apply H; right; assumption). rewrite <- app_assoc. reflexivity.
Qed.
Section Copy.
Context {F : Scalar} {C : Type}.
Lemma copy_problem_ok debug on om N loc os h (p : Prob F C) (md : Z -> Model F) (c : Z -> C) : 1 <= N -> contents N loc os h p ->
  (forall k, 0 <= k <= N -> last_at (model_calls N (dyn_calls os)) k = Some (md k)) ->
  (forall k, 0 <= k <= N -> cost_given os k = Some (c k)) ->
  init_given os <> [] -> md_n (md 0) = Z.of_nat (length (init_given os)) ->
  (forall k, 0 <= k <= N -> dim_ok on (md_n (md k)) = true /\ dim_ok om (md_m (md k)) = true) ->
  il_copy_problem debug on om N h p 0 (N + 1) = Ok (map (fun k => (md_dyn (md k), c k)) (zseq 0 (Z.to_nat (N + 1)))).
Proof.
  intros HN Hp Hmd Hc Hi Hd Hdim. unfold il_copy_problem.
  assert (A1 : altro_assert debug true = Ok tt) by (unfold altro_assert; destruct debug; reflexivity).
  replace ((0 <=? 0) && (0 <=? N)) with true by (symmetry; zb). rewrite A1. cbn [bind].
  replace ((0 <=? N + 1) && (N + 1 <=? N + 1)) with true by (symmetry; zb). rewrite A1. cbn [bind].
  assert (V : view N h p (cost_given os) (fun k => last_at (model_calls N (dyn_calls os)) k) (init_given os)).
  { destruct Hp. constructor; auto. rewrite ct_loc. exact ct_init. }
  assert (Hf : pr_is_fully_defined h p = Ok true).
  { rewrite (fully_defined_spec N _ _ _ _ _ ltac:(lia) V). rewrite (Hmd 0) by lia. cbn [some negb]. rewrite andb_false_r. f_equal.
    apply checks_true; [lia|]. split; [intros k Hk; rewrite Hmd by lia; discriminate|]. split; [intros k Hk; rewrite Hc by lia; discriminate|].
    unfold check0. rewrite (Hmd 0) by lia. destruct (init_given os); [congruence|]. apply Z.eqb_eq. exact Hd. }
  rewrite Hf. cbn [bind]. rewrite A1. assert (A2 : (if debug then Ok tt else Ok tt) = Ok tt) by (destruct debug; reflexivity). rewrite A2. cbn [bind].
  rewrite Z.sub_0_r. rewrite (for_z_app _ (fun k => (md_dyn (md k), c k))); [reflexivity|].
  intros k acc Hk. apply in_zseq in Hk. rewrite (get_dyn_ok debug N loc os h p k (md k) Hp) by (try apply Hmd; lia). cbn [bind].
  rewrite (get_cost_ok debug N loc os h p k Hp) by lia. rewrite Hc by lia. destruct (Hdim k ltac:(lia)) as [D1 D2]. rewrite D1, D2, A1. cbn [bind].
  rewrite A2. reflexivity.
Qed.
End Copy.

Section Solver.
Context {F : Scalar}.
(** the user's data of a complete problem, as total functions *)
Definition the_model (os : list (pop F (UCost F))) (N k : Z) : Model F :=
  match last_at (model_calls N (dyn_calls os)) k with Some m => m | None => mkModel 0 0 identity_dyn end.
Lemma complete_models N h0 s0 (os : list (pop F (UCost F))) h p : 1 <= N -> pr_new N h0 = Ok s0 -> pr_run true os s0 = Ok (h, p) -> complete N os ->
  (forall k, 0 <= k < N -> exists md, dyn_given os k = Some md /\ last_at (model_calls N (dyn_calls os)) k = Some md) /\
  (exists md, dyn_given os (N - 1) = Some md /\ last_at (model_calls N (dyn_calls os)) N = Some (ident_of md) /\ 0 < md_n md /\ 0 < md_m md).
Proof.
  intros HN H0 Hr (H1 & _ & _ & _). split.
  - intros k Hk. specialize (H1 k Hk). destruct (dyn_given os k) as [md|] eqn:E; [|congruence]. exists md. split; [reflexivity|].
    rewrite model_calls_lt by lia. exact E.
  - specialize (H1 (N - 1) ltac:(lia)). destruct (dyn_given os (N - 1)) as [md|] eqn:E; [|congruence]. exists md. split; [reflexivity|].
    split; [rewrite (model_calls_N N _ (debug_range N h0 s0 os h p ltac:(lia) H0 Hr)); unfold dyn_given in E; rewrite E; reflexivity|].
    pose proof (debug_dyn_ok N h0 s0 os h p ltac:(lia) H0 Hr) as Hf. rewrite Forall_forall in Hf.
    destruct (Hf _ (last_at_in _ _ _ E)) as (_ & md' & E2 & Hpos). injection E2 as ->. apply Hpos. reflexivity.
Qed.
Theorem solver_of_problem debug (n m : nat) on om N h0 s0 (os : list (pop F (UCost F))) h p (dyn : Z -> Model F) (c : Z -> UCost F) :
  1 <= N -> pr_new N h0 = Ok s0 -> pr_run true os s0 = Ok (h, p) -> complete N os ->
  (forall k, 0 <= k < N -> dyn_given os k = Some (dyn k)) -> (forall k, 0 <= k <= N -> cost_given os k = Some (c k)) ->
  (forall k, 0 <= k < N -> md_n (dyn k) = Z.of_nat n /\ md_m (dyn k) = Z.of_nat m) -> (on = None \/ on = Some n) -> (om = None \/ om = Some m) ->
  as_of_problem debug true on om h p =
    Ok (as_make n m (Z.to_nat N) (fun i => nth i (init_given os) zero)
          (map (fun k => (if k =? N then identity_dyn else md_dyn (dyn k), (c k, con_given false os k, con_given true os k))) (zseq 0 (Z.to_nat (N + 1)))),
        map (fun k => al_make n m (c k) (con_given false os k) (con_given true os k)) (zseq 0 (Z.to_nat (N + 1)))).
Proof.
  intros HN H0 Hr Hcomp Hdyn Hc Hdim Hon Hom.
  pose proof (contents_run true N h0 s0 os h p ltac:(lia) H0 Hr) as Hp.
  destruct (complete_models N h0 s0 os h p HN H0 Hr Hcomp) as [_ (mdl & El & EN & Hpos)].
  rewrite (Hdyn (N - 1)) in El by lia. injection El as <-.
  set (md := fun k => if k =? N then ident_of (dyn (N - 1)) else dyn k).
  assert (Hmd : forall k, 0 <= k <= N -> last_at (model_calls N (dyn_calls os)) k = Some (md k)).
  { intros k Hk. unfold md. destruct (k =? N) eqn:E; [apply Z.eqb_eq in E; subst; exact EN|]. apply Z.eqb_neq in E.
    rewrite model_calls_lt by lia. apply Hdyn. lia. }
  assert (HdN : forall k, 0 <= k <= N -> md_n (md k) = Z.of_nat n /\ md_m (md k) = Z.of_nat m).
  { intros k Hk. unfold md. destruct (k =? N) eqn:E; [apply (Hdim (N - 1)); lia|apply Hdim; lia]. }
  assert (HposN : 0 < md_n (md (N - 1)) /\ 0 < md_m (md (N - 1))).
  { unfold md. destruct (N - 1 =? N) eqn:E; [apply Z.eqb_eq in E; lia|exact Hpos]. }
  destruct (build_al_ok debug N (length h0) os h p md c [] HN Hp Hmd Hc HposN) as (q & E & Cq). cbv zeta in E, Cq.
  assert (Hal : forall k, In k (zseq 0 (Z.to_nat (N + 1))) ->
     al_make (Z.to_nat (md_n (md k))) (Z.to_nat (md_m (md k))) (c k) (con_given false os k) (con_given true os k) =
     al_make n m (c k) (con_given false os k) (con_given true os k)).
  { intros k Hk. apply in_zseq in Hk. destruct (HdN k ltac:(lia)) as [-> ->]. rewrite !Nat2Z.id. reflexivity. }
  rewrite (map_ext_in _ _ _ Hal) in E.
  unfold as_of_problem, pr_segments. rewrite (ct_N _ _ _ _ _ Hp). cbn [bind]. rewrite E. cbn [bind app].
  rewrite map_length, zseq_length. replace (Z.of_nat (Z.to_nat (N + 1)) =? N + 1) with true by (symmetry; apply Z.eqb_eq; lia).
  assert (A1 : altro_assert debug true = Ok tt) by (unfold altro_assert; destruct debug; reflexivity). rewrite A1. cbn [bind].
  set (al := fun k => al_make (Z.to_nat (md_n (md k))) (Z.to_nat (md_m (md k))) (c k) (con_given false os k) (con_given true os k)) in *.
  destruct Hcomp as (G1 & G2 & G3 & G4).
  assert (Hmd' : forall k, 0 <= k <= N -> last_at (model_calls N (dyn_calls (al_ops_list N (init_given os) md al))) k = Some (md k)).
  { intros k Hk. rewrite al_ops_model by lia. unfold md. destruct (k =? N) eqn:Ek; [|reflexivity].
    destruct (N - 1 =? N) eqn:E2; [apply Z.eqb_eq in E2; lia|]. reflexivity. }
  rewrite (copy_problem_ok debug on om N (length h0) _ h q md al HN Cq Hmd').
  - cbn [bind]. unfold as_make. do 3 f_equal.
    assert (Ei : h_get (pr_init q) h = init_given os). { rewrite (ct_loc _ _ _ _ _ Cq), (ct_init _ _ _ _ _ Cq). apply al_ops_init. }
    rewrite Ei. f_equal. rewrite map_map. apply map_ext_in. intros k Hk. cbn [fst snd]. rewrite <- (Hal k Hk). f_equal.
    unfold md. destruct (k =? N); reflexivity.
  - intros k Hk. apply al_ops_cost; lia.
  - rewrite al_ops_init. exact G3.
  - rewrite al_ops_init. unfold md. destruct (0 =? N) eqn:E2; [apply Z.eqb_eq in E2; lia|]. apply G4. apply Hdyn. lia.
  - intros k Hk. destruct (HdN k Hk) as [-> ->]. split; [destruct Hon as [->| ->]|destruct Hom as [->| ->]]; simpl; auto using Z.eqb_refl.
Qed.
Lemma al_num_make n m (c : UCost F) e i : al_num_constraints (al_make n m c e i) = (con_dims e + con_dims i)%nat.
Proof.
  unfold al_num_constraints, al_make. cbn [al_eq al_ineq].
  assert (H : forall K l a, fold_left (fun p v => (p + cv_p v)%nat) (map (cv_make n m K) l) a = (a + con_dims (F:=F) l)%nat).
  { intros K l. induction l as [|x l IH]; intros a; simpl; [lia|]. rewrite IH. unfold cv_p, cv_make. simpl. lia. }
  rewrite !H. lia.
Qed.
Lemma als_num_map {A} (f : A -> ALCost F) l : als_num_constraints (map f l) = list_sum (map (fun k => al_num_constraints (f k)) l).
Proof.
  unfold als_num_constraints. assert (H : forall a, fold_left (fun c a => (c + al_num_constraints a)%nat) (map f l) a = (a + list_sum (map (fun k => al_num_constraints (f k)) l))%nat).
  { induction l as [|x l IH]; intros a; simpl; [lia|]. rewrite IH. lia. }
  rewrite H. reflexivity.
Qed.
End Solver.
