From Coq Require Import ZArith List Bool Lia.
From Verif Require Import Base Lin ConModel LogModel StatsModel TrajModel IlqrModel CostInst AlModel ProblemModel ProblemSpec.
From Verif Require Import ProblemProofs ProblemProofs2 ProblemProofs3 ProblemProofs4 TaskModel SolverObjModel SolverObjSpec SolverObjProofs.
Import ListNotations.
Local Open Scope Z_scope.

Section W.
Context {F : Scalar} {C : Type}.
Implicit Types p q : Prob F C.
Lemma set_cost_init debug c k p q : pr_set_cost debug c k p = Ok q -> pr_init q = pr_init p.
Proof.
  unfold pr_set_cost. destruct (assert_N _ _ _); try discriminate. cbn [bind]. destruct (vset _ _ _); try discriminate. cbn [bind].
  intros H. injection H as <-. reflexivity.
Qed.
Lemma set_costs_init debug cs : forall k p q, pr_set_costs debug cs k p = Ok q -> pr_init q = pr_init p.
Proof.
  induction cs as [|c cs IH]; intros k p q; cbn [pr_set_costs]; [intros H; injection H as <-; reflexivity|].
  destruct (pr_set_cost debug c k p) as [p1| | | | |] eqn:E; try discriminate. cbn [bind]. intros H. rewrite (IH _ _ _ H). exact (set_cost_init _ _ _ _ _ E).
Qed.
Lemma set_dynamics_init debug m k p q : pr_set_dynamics debug m k p = Ok q -> pr_init q = pr_init p.
Proof.
  unfold pr_set_dynamics. destruct (altro_assert _ _); try discriminate. cbn [bind]. destruct (assert_N _ _ _); try discriminate. cbn [bind].
  destruct (pr_segments p) as [z| | | | |]; try discriminate. cbn [bind].
  match goal with |- bind ?e _ = _ -> _ => destruct e as [ms| | | | |]; try discriminate end. cbn [bind].
  destruct (vset _ _ _); try discriminate. cbn [bind]. intros H. injection H as <-. reflexivity.
Qed.
Lemma set_dyns_init debug ms : forall k p q, pr_set_dyns debug ms k p = Ok q -> pr_init q = pr_init p.
Proof.
  induction ms as [|c cs IH]; intros k p q; cbn [pr_set_dyns]; [intros H; injection H as <-; reflexivity|].
  destruct (pr_set_dynamics debug c k p) as [p1| | | | |] eqn:E; try discriminate. cbn [bind]. intros H. rewrite (IH _ _ _ H). exact (set_dynamics_init _ _ _ _ _ E).
Qed.
Lemma step_init debug o h p h' q : pr_step debug o (h, p) = Ok (h', q) -> pr_init q = pr_init p.
Proof.
  destruct o; cbn [pr_step].
  - intros H. injection H as <- <-. reflexivity.
  - destruct (pr_set_cost _ _ _ _) eqn:E; try discriminate. cbn [bind]. intros H. injection H as <- <-. exact (set_cost_init _ _ _ _ _ E).
  - destruct (pr_set_costs _ _ _ _) eqn:E; try discriminate. cbn [bind]. intros H. injection H as <- <-. exact (set_costs_init _ _ _ _ _ E).
  - destruct (pr_set_dynamics _ _ _ _) eqn:E; try discriminate. cbn [bind]. intros H. injection H as <- <-. exact (set_dynamics_init _ _ _ _ _ E).
  - destruct (pr_set_dyns _ _ _ _) eqn:E; try discriminate. cbn [bind]. intros H. injection H as <- <-. exact (set_dyns_init _ _ _ _ _ E).
  - unfold pr_set_constraint. destruct (altro_assert _ _); try discriminate. cbn [bind].
    destruct K; (destruct (vset _ _ _); try discriminate; cbn [bind]; intros H; injection H as <- <-; reflexivity).
Qed.
(** the solver at address a is neither built, changed, moved nor destroyed by the operation *)
Definition leaves (a : nat) (o : wop F C) : Prop :=
  match o with
  | WSolver b _ | WSolverOf b _ | WCopy b _ _ _ | WInit b _ | WFree b => b <> a
  | WMove b d => b <> a /\ d <> a
  | _ => True
  end.
Lemma sput_other a b s (m : nat -> option (Sol F C)) : b <> a -> sput b s m a = m a.
Proof. intros H. unfold sput. destruct (Nat.eqb a b) eqn:E; [apply Nat.eqb_eq in E; congruence|reflexivity]. Qed.
Lemma sput_same a s (m : nat -> option (Sol F C)) : sput a s m a = s.
Proof. unfold sput. rewrite Nat.eqb_refl. reflexivity. Qed.
Definition keeps (a : nat) (w w' : World F C) : Prop :=
  w_sols w' a = w_sols w a /\
  forall i p, nth_error (w_probs w) i = Some p -> exists q, nth_error (w_probs w') i = Some q /\ pr_init q = pr_init p.
Lemma keeps_refl a w : keeps a w w.
Proof. split; [reflexivity|]. intros i p H. exists p. auto. Qed.
Lemma keeps_probs a h (ps : list (Prob F C)) m h' m' : m' a = m a -> keeps a (mkW h ps m) (mkW h' ps m').
Proof. intros H. split; [exact H|]. intros i p E. exists p. auto. Qed.
Lemma keeps_upd a h (ps : list (Prob F C)) m h' i p q : nth_error ps i = Some p -> pr_init q = pr_init p ->
  keeps a (mkW h ps m) (mkW h' (upd i (fun _ => q) ps) m).
Proof.
  intros E Hi. split; [reflexivity|]. cbn [w_probs]. intros j p0 Ej. destruct (Nat.eq_dec i j) as [->|Hne].
  - rewrite Ej in E. injection E as ->. exists q. split; [|exact Hi]. rewrite nth_error_upd_same, Ej. reflexivity.
  - exists p0. split; [|reflexivity]. rewrite nth_error_upd_other by congruence. exact Ej.
Qed.
Lemma step_keeps debug on om o w w' a : leaves a o -> w_step debug on om o w = Ok w' -> keeps a w w'.
Proof.
  intros Hl. destruct w as [h ps m]. destruct o; cbn [w_step w_heap w_probs w_sols leaves] in *.
  - destruct (pr_new N h) as [[h1 p]| | | | |]; try discriminate. cbn [bind]. intros H. injection H as <-. split; [reflexivity|].
    cbn [w_probs]. intros i q E. exists q. split; [|reflexivity]. rewrite nth_error_app1; [exact E|]. apply nth_error_Some. congruence.
  - unfold w_prob. cbn [w_probs]. destruct (nth_error ps i) as [p|] eqn:E; try discriminate. cbn [bind].
    destruct (pr_step debug o (h, p)) as [[h1 q]| | | | |] eqn:E1; try discriminate. cbn [bind]. intros H. injection H as <-.
    apply (keeps_upd _ _ _ _ _ _ _ _ E). exact (step_init _ _ _ _ _ _ E1).
  - unfold w_prob. cbn [w_probs]. destruct (nth_error ps i) as [p|] eqn:E; try discriminate. cbn [bind].
    destruct (nth_error ps j) as [q|]; try discriminate. cbn [bind pr_assign]. intros H. injection H as <-. apply (keeps_upd _ _ _ _ _ _ _ _ E). reflexivity.
  - unfold w_fresh. cbn [w_sols]. destruct (m a0); try discriminate. cbn [bind]. intros H. injection H as <-. apply keeps_probs. apply sput_other. exact Hl.
  - unfold w_fresh. cbn [w_sols]. destruct (m a0); try discriminate. cbn [bind]. destruct (w_prob _ _); try discriminate. cbn [bind].
    destruct (so_of _ _ _ _ _); try discriminate. cbn [bind]. intros H. injection H as <-. apply keeps_probs. apply sput_other. exact Hl.
  - destruct (w_sol _ _); try discriminate. cbn [bind]. destruct (w_prob _ _); try discriminate. cbn [bind].
    destruct (so_copy _ _ _ _ _ _ _ _); try discriminate. cbn [bind]. intros H. injection H as <-. apply keeps_probs. apply sput_other. exact Hl.
  - destruct (w_sol _ _); try discriminate. cbn [bind]. destruct (w_prob _ _); try discriminate. cbn [bind].
    destruct (so_init _ _ _ _ _ _); try discriminate. cbn [bind]. intros H. injection H as <-. apply keeps_probs. apply sput_other. exact Hl.
  - destruct (w_sol _ _); try discriminate. cbn [bind]. destruct (w_fresh _ _); try discriminate. cbn [bind]. intros H. injection H as <-.
    apply keeps_probs. destruct Hl as [H1 H2]. rewrite !sput_other by assumption. reflexivity.
  - destruct (w_sol _ _); try discriminate. cbn [bind]. intros H. injection H as <-. apply keeps_probs. apply sput_other. exact Hl.
Qed.
Lemma run_keeps debug on om os : forall w w' a, Forall (leaves a) os -> w_run debug on om os w = Ok w' -> keeps a w w'.
Proof.
  induction os as [|o os IH]; intros w w' a Hl Hr; cbn [w_run] in Hr; [injection Hr as <-; apply keeps_refl|].
  inversion Hl; subst. destruct (w_step debug on om o w) as [w1| | | | |] eqn:E; try discriminate. cbn [bind] in Hr.
  destruct (step_keeps _ _ _ _ _ _ a H1 E) as [S1 P1]. destruct (IH _ _ _ H2 Hr) as [S2 P2]. split; [congruence|].
  intros i p Hp. destruct (P1 i p Hp) as (q & Hq & E1). destruct (P2 i q Hq) as (r & Hr' & E2). exists r. split; [exact Hr'|congruence].
Qed.
(** the solver built from problem i holds a pointer to that problem's initial state *)
Lemma so_copy_cell debug on om (h : heap F) p k0 k1 s s' : so_copy debug on om h p k0 k1 s = Ok s' -> so_cell s' = Some (pr_init p) /\ so_set s' = true.
Proof. unfold so_copy. destruct (il_copy_problem _ _ _ _ _ _ _ _); try discriminate. cbn [bind]. intros H. injection H as <-. auto. Qed.
Lemma so_init_cell debug on om (h : heap F) p s s' : so_init debug on om h p s = Ok s' -> so_cell s' = Some (pr_init p) /\ so_set s' = true.
Proof. unfold so_init. destruct (assert_N _ _ _); try discriminate. cbn [bind]. apply so_copy_cell. Qed.
Lemma so_of_cell debug on om (h : heap F) p s : so_of debug on om h p = Ok s -> so_cell s = Some (pr_init p) /\ so_set s = true.
Proof. unfold so_of. destruct (pr_segments p); try discriminate. cbn [bind]. apply so_init_cell. Qed.
Lemma data_follow debug (h h' : heap F) (s : Sol F C) l : so_cell s = Some l ->
  so_data debug h' s = do (_, ks) <- so_data debug h s ; Ok (h_get l h', ks).
Proof.
  intros E. unfold so_data. rewrite E. destruct (altro_assert _ _); try reflexivity. cbn [bind].
  destruct (Nat.leb _ _); reflexivity.
Qed.
End W.
