From Coq Require Import ZArith List Bool Lia.
From Verif Require Import Base Lin ConModel LogModel StatsModel TrajModel IlqrModel CostInst AlModel ProblemModel ProblemSpec.
From Verif Require Import ProblemProofs ProblemProofs2 ProblemProofs3 ProblemProofs4 TaskModel SolverObjModel SolverObjSpec SolverObjProofs.
Import ListNotations.
Local Open Scope Z_scope.

Section A.
Context {F : Scalar}.
Notation U := (UCost F).
Section Given.
Context (on om : option nat) (N : Z) (h0 : heap F) (s0 : heap F * Prob F U) (os : list (pop F U)) (h : heap F) (p : Prob F U)
  (dyn : Z -> Model F) (c : Z -> U).
Context (G : given on om N os dyn c) (H0 : pr_new N h0 = Ok s0) (Hr : pr_run true os s0 = Ok (h, p)).
Lemma build_given debug cs : exists q, build_al debug true h p cs = Ok (h, q, cs ++ map snd (knots N dyn (al_given N os dyn c))) /\
  pr_init q = pr_init p /\ pr_segments q = Ok N /\
  forall debug, il_copy_problem debug on om N h q 0 (N + 1) = Ok (knots N dyn (al_given N os dyn c)).
Proof.
  pose proof G as [HN (K1 & K2 & K3 & K4) Hd Hc _].
  pose proof (gv_contents on om N h0 s0 os h p dyn c G H0 Hr) as Hp.
  pose proof (gv_models on om N h0 s0 os h p dyn c G H0 Hr) as Hm.
  assert (Hpos : 0 < md_n (model_at N dyn (N - 1)) /\ 0 < md_m (model_at N dyn (N - 1))).
  { unfold model_at. destruct (N - 1 =? N) eqn:E; [apply Z.eqb_eq in E; lia|]. exact (gv_pos on om N h0 s0 os h p dyn c G H0 Hr). }
  destruct (build_al_ok debug N (length h0) os h p (model_at N dyn) c cs HN Hp Hm Hc Hpos) as (q & E & Cq). cbv zeta in E, Cq.
  set (al := fun k => al_make (Z.to_nat (md_n (model_at N dyn k))) (Z.to_nat (md_m (model_at N dyn k))) (c k) (con_given false os k) (con_given true os k)) in *.
  assert (Eal : forall k, al k = al_given N os dyn c k).
  { intros k. unfold al, al_given, model_at. destruct (k =? N); reflexivity. }
  exists q. split; [|split; [|split]].
  - rewrite E. do 3 f_equal. rewrite knots_zseq by exact HN. rewrite map_map. apply map_ext. intros k. rewrite Eal. reflexivity.
  - rewrite (ct_loc _ _ _ _ _ Cq), (ct_loc _ _ _ _ _ Hp). reflexivity.
  - unfold pr_segments. rewrite (ct_N _ _ _ _ _ Cq). reflexivity.
  - intros debug'. rewrite (copy_problem_ok debug' on om N (length h0) _ h q (model_at N dyn) al HN Cq).
    + f_equal. rewrite knots_zseq by exact HN. apply map_ext. intros k. unfold knot_at. rewrite Eal. reflexivity.
    + intros k Hk. rewrite al_ops_model by lia. unfold model_at. destruct (k =? N) eqn:Ek; [|reflexivity].
      destruct (N - 1 =? N) eqn:E2; [apply Z.eqb_eq in E2; lia|]. reflexivity.
    + intros k Hk. apply al_ops_cost; lia.
    + rewrite al_ops_init. exact K3.
    + rewrite al_ops_init. unfold model_at. destruct (0 =? N) eqn:E2; [apply Z.eqb_eq in E2; lia|]. apply K4. apply Hd. lia.
    + exact (gv_dims on om N os dyn c G).
Qed.
Lemma copy_release (q : Prob F (ALCost F)) (hq : heap F) M1 M2 a b :
  il_copy_problem false on om M1 hq q a b = il_copy_problem false on om M2 hq q a b.
Proof. reflexivity. Qed.
Lemma ao_init_ok debug a o : debug = false \/ (ao_costs o = [] /\ so_N (ao_sol o) = N) ->
  ao_init debug true on om a h p o =
    Ok (h, mkAl (mkSol (so_N (ao_sol o)) (Some (pr_init p)) true (so_kps (ao_sol o) ++ knots N dyn (al_given N os dyn c)))
             (ao_costs o ++ map snd (knots N dyn (al_given N os dyn c))) (Some a)).
Proof.
  intros Hd. pose proof (gv_N _ _ _ _ _ _ G) as HN.
  unfold ao_init, pr_segments. rewrite (ct_N _ _ _ _ _ (gv_contents on om N h0 s0 os h p dyn c G H0 Hr)). cbn [bind].
  destruct (build_given debug (ao_costs o)) as (q & E & Ei & _ & Ec). rewrite E. cbn [bind].
  assert (A : altro_assert debug (Z.of_nat (length (ao_costs o ++ map snd (knots N dyn (al_given N os dyn c)))) =? N + 1) = Ok tt).
  { destruct Hd as [->|[-> _]]; [reflexivity|]. cbn [app]. rewrite map_length, knots_length.
    replace (Z.of_nat (S (Z.to_nat N)) =? N + 1) with true by (symmetry; apply Z.eqb_eq; lia). unfold altro_assert. destruct debug; reflexivity. }
  rewrite A. cbn [bind]. unfold so_copy.
  assert (E2 : il_copy_problem debug on om (so_N (ao_sol o)) h q 0 (N + 1) = Ok (knots N dyn (al_given N os dyn c))).
  { destruct Hd as [->|[_ ->]]; [rewrite (copy_release q h _ N)|]; apply Ec. }
  rewrite E2. cbn [bind]. rewrite Ei. reflexivity.
Qed.
Lemma ao_init_twice a o : ao_costs o <> [] -> ao_init true true on om a h p o = Abort.
Proof.
  intros Hne. unfold ao_init, pr_segments. rewrite (ct_N _ _ _ _ _ (gv_contents on om N h0 s0 os h p dyn c G H0 Hr)). cbn [bind].
  destruct (build_given true (ao_costs o)) as (q & E & _ & _ & _). rewrite E. cbn [bind].
  pose proof (gv_N _ _ _ _ _ _ G). rewrite app_length, map_length, knots_length. destruct (ao_costs o); [congruence|]. cbn [length].
  replace (Z.of_nat (S (length l) + S (Z.to_nat N)) =? N + 1) with false by (symmetry; apply Z.eqb_neq; lia). reflexivity.
Qed.
Lemma ao_of_ok debug a : ao_of debug true on om a h p =
  Ok (h, mkAl (mkSol N (Some (pr_init p)) true (knots N dyn (al_given N os dyn c))) (map snd (knots N dyn (al_given N os dyn c))) (Some a)).
Proof.
  unfold ao_of, pr_segments. rewrite (ct_N _ _ _ _ _ (gv_contents on om N h0 s0 os h p dyn c G H0 Hr)). cbn [bind].
  rewrite ao_init_ok by (right; split; reflexivity). reflexivity.
Qed.
End Given.
End A.
