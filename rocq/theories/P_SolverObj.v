(** Property C79: what a solver object works on, and what becomes of it when problems and solvers are changed, initialised again or moved.
    Proofs in SolverObjProofs*.v. *)
From Coq Require Import ZArith QArith String List Bool Lia.
From Verif Require Import Base Lin ConModel LogModel StatsModel TrajModel IlqrModel CostInst AlModel ProblemModel ProblemSpec.
From Verif Require Import TaskModel SolverObjModel SolverObjSpec ProblemProofs SolverObjProofs SolverObjProofs2 SolverObjProofs3 P_Problem.
Import ListNotations.
Local Open Scope list_scope.
Local Open Scope Z_scope.

(** A solver constructed from a problem works on exactly the dynamics and costs given to the problem, in order, and starts at its initial state. *)
Theorem C79_built : forall (F : Scalar) (C : Type) on om N (h0 : heap F) s0 (os : list (pop F C)) h p dyn c debug,
  given on om N os dyn c -> pr_new N h0 = Ok s0 -> pr_run true os s0 = Ok (h, p) ->
  exists s, so_of debug on om h p = Ok s /\ so_data debug h s = Ok (init_given os, knots N dyn c).
Proof.
  intros F C on om N h0 s0 os h p dyn c debug G H0 Hr. eexists. split; [exact (so_of_ok on om N h0 s0 os h p dyn c G H0 Hr debug)|].
  pose proof (gv_N _ _ _ _ _ _ G). rewrite so_data_ok by (try apply knots_length; lia).
  rewrite (ct_init _ _ _ _ _ (gv_contents on om N h0 s0 os h p dyn c G H0 Hr)). reflexivity.
Qed.
(** Copying the problem piece by piece, over any division of 0..N+1 into consecutive ranges, gives the same solver as InitializeFromProblem. *)
Theorem C79_ranges : forall (F : Scalar) (C : Type) on om N (h0 : heap F) s0 (os : list (pop F C)) h p dyn c debug cuts,
  given on om N os dyn c -> pr_new N h0 = Ok s0 -> pr_run true os s0 = Ok (h, p) -> cut_at 0 (N + 1) cuts ->
  so_ranges debug on om h p cuts (so_new N) = so_init debug on om h p (so_new N) /\
  so_init debug on om h p (so_new N) = so_of debug on om h p.
Proof.
  intros F C on om N h0 s0 os h p dyn c debug cuts G H0 Hr Hc. pose proof (gv_N _ _ _ _ _ _ G) as HN.
  rewrite (so_of_ok on om N h0 s0 os h p dyn c G H0 Hr debug), (so_init_ok on om N h0 s0 os h p dyn c G H0 Hr debug) by reflexivity.
  split; [|reflexivity]. unfold so_new. rewrite (so_ranges_ok on om N h0 s0 os h p dyn c G H0 Hr debug cuts 0 [] None false) by (try assumption; lia).
  rewrite knots_zseq by exact HN. rewrite Z.sub_0_r. reflexivity.
Qed.
(** Whatever is done afterwards to this problem, to other problems and to other solvers: the solver keeps the knot points it was built with, and
    starts at the present initial state of its problem. *)
Theorem C79_follows : forall (F : Scalar) (C : Type) debug on om (w w1 w2 : World F C) a i os,
  w_step debug on om (WSolverOf a i) w = Ok w1 -> Forall (leaves a) os -> w_run debug on om os w1 = Ok w2 ->
  exists s p2, w_sols w1 a = Some s /\ w_sols w2 a = Some s /\ nth_error (w_probs w2) i = Some p2 /\
    so_data debug (w_heap w2) s = do (_, ks) <- so_data debug (w_heap w1) s ; Ok (h_get (pr_init p2) (w_heap w2), ks).
Proof.
  intros F C debug on om w w1 w2 a i os H1 Hl H2. destruct (run_keeps _ _ _ _ _ _ _ Hl H2) as [Ks Kp]. clear H2.
  cbn [w_step] in H1. destruct (w_fresh w a); try discriminate. cbn [bind] in H1. unfold w_prob in H1.
  destruct (nth_error (w_probs w) i) as [p|] eqn:Ep; try discriminate. cbn [bind] in H1.
  destruct (so_of debug on om (w_heap w) p) as [s| | | | |] eqn:Es; try discriminate. cbn [bind] in H1. injection H1 as <-.
  destruct (Kp i p Ep) as (p2 & Ep2 & Ei). exists s, p2. cbn [w_sols] in *. rewrite sput_same in *. split; [reflexivity|]. split; [exact Ks|]. split; [exact Ep2|].
  rewrite Ei. apply data_follow. apply (so_of_cell _ _ _ _ _ _ Es).
Qed.
(** a program that changes the initial state of the problem after the solver was made *)
Definition ex2 : list QS := [(2%Q : QS)].
Lemma exgiven : given None (Some 1%nat) 2 exos (fun _ => exd) (fun _ => exc).
Proof.
  constructor; [lia|exact (proj2 (proj2 (proj2 C48_example)))| | |].
  - intros k Hk. assert (k = 0 \/ k = 1) as [->| ->] by lia; reflexivity.
  - intros k Hk. assert (k = 0 \/ k = 1 \/ k = 2) as [->|[->| ->]] by lia; reflexivity.
  - intros k Hk. split; [exact I|reflexivity].
Qed.
Definition exbuild : list (wop QS (UCost QS)) := WNew 2 :: map (WSet 0) exos ++ [WSolverOf 7 0].
Definition start {C} (w : World QS C) (a : nat) : res (list QS * nat) :=
  do s <- w_sol w a ; do (x, ks) <- so_data true (w_heap w) s ; Ok (x, length ks).
Example C79_example :
  given None (Some 1%nat) 2 exos (fun _ => exd) (fun _ => exc) /\ cut_at 0 3 [0; 1; 3] /\
  (do w <- w_run true None None exbuild (mkW [] [] (fun _ => None)) ; start w 7) = Ok (ex1, 3%nat) /\
  (do w <- w_run true None None (exbuild ++ [WSet 0 (PInit ex2); WNew 2; WSet 1 (PInit ex1)]) (mkW [] [] (fun _ => None)) ; start w 7) = Ok (ex2, 3%nat).
Proof. split; [exact exgiven|]. split; [cbn; lia|]. split; vm_compute; reflexivity. Qed.

(** FINDING: giving an initialised solver a second problem.  It is accepted, in debug builds too, and the solver then starts at the initial state
    of the second problem but keeps the dynamics and costs of the first (CopyFromProblem appends, ilqr.hpp:119): it solves neither. *)
Theorem C79_second_problem_refuted :
  (forall (F : Scalar) (C : Type) on om N (h0 : heap F) s0 (os : list (pop F C)) h p dyn c s01 (os1 : list (pop F C)) h1 q dyn1 c1 debug,
     given on om N os dyn c -> pr_new N h0 = Ok s0 -> pr_run true os s0 = Ok (h, p) ->
     given on om N os1 dyn1 c1 -> pr_new N h = Ok s01 -> pr_run true os1 s01 = Ok (h1, q) ->
     exists s s1, so_of debug on om h p = Ok s /\ so_init debug on om h1 q s = Ok s1 /\ so_data debug h1 s1 = Ok (init_given os1, knots N dyn c)) /\
  exists (os os1 : list (pop QS (UCost QS))) c c1, given None (Some 1%nat) 2 os (fun _ => exd) c /\ given None (Some 1%nat) 2 os1 (fun _ => exd) c1 /\
    map snd (knots 2 (fun _ => exd) c) <> map snd (knots 2 (fun _ => exd) c1) /\ init_given os <> init_given os1.
Proof.
  split.
  - intros F C on om N h0 s0 os h p dyn c s01 os1 h1 q dyn1 c1 debug G H0 Hr G1 H01 Hr1. eexists. eexists.
    split; [exact (so_of_ok on om N h0 s0 os h p dyn c G H0 Hr debug)|].
    split; [apply (so_init_ok on om N h s01 os1 h1 q dyn1 c1 G1 H01 Hr1); reflexivity|]. cbn [so_kps].
    pose proof (gv_N _ _ _ _ _ _ G). unfold so_data. cbn [so_set so_cell so_N so_kps].
    replace (altro_assert debug true) with (Ok tt) by (destruct debug; reflexivity). cbn [bind].
    rewrite app_length, !knots_length. replace (Nat.leb (Z.to_nat (N + 1)) (S (Z.to_nat N) + S (Z.to_nat N))) with true by (symmetry; apply Nat.leb_le; lia).
    replace (Z.to_nat (N + 1)) with (length (knots N dyn c)) by (rewrite knots_length; lia). rewrite firstn_app, Nat.sub_diag, firstn_all, firstn_O, app_nil_r.
    rewrite (ct_init _ _ _ _ _ (gv_contents on om N h s01 os1 h1 q dyn1 c1 G1 H01 Hr1)). reflexivity.
  - set (exc1 := mkUCost (F:=QS) (fun x u => zero) (fun _ _ _ => (vzero, vzero)) (fun _ _ _ => (mzero, mzero, mzero))).
    exists exos, (exos ++ [PCosts [Some exc1; Some exc1; Some exc1] 0; PInit ex2]), (fun _ => exc), (fun _ => exc1). split; [exact exgiven|]. split.
    + destruct exgiven as [G1 (K1 & K2 & K3 & K4) G3 G4 G5].
      assert (Ed : forall k, 0 <= k < 2 -> dyn_given (exos ++ [PCosts [Some exc1; Some exc1; Some exc1] 0; PInit ex2]) k = Some exd).
      { intros k Hk. assert (k = 0 \/ k = 1) as [->| ->] by lia; reflexivity. }
      assert (Ec : forall k, 0 <= k <= 2 -> cost_given (exos ++ [PCosts [Some exc1; Some exc1; Some exc1] 0; PInit ex2]) k = Some exc1).
      { intros k Hk. assert (k = 0 \/ k = 1 \/ k = 2) as [->|[->| ->]] by lia; reflexivity. }
      constructor; try assumption. split; [intros k Hk; rewrite Ed by assumption; discriminate|]. split; [intros k Hk; rewrite Ec by assumption; discriminate|].
      split; [discriminate|]. intros md. rewrite Ed by lia. intros E. injection E as <-. reflexivity.
    + split; [|discriminate]. intros E. apply (f_equal (fun l => match l with c :: _ => uc_eval c (fun _ => one) vzero | [] => zero end)) in E.
      vm_compute in E. discriminate E.
Qed.

(** FINDING: assigning another problem to the problem of a solver replaces the solver's initial state and nothing else (problem.hpp:80 writes
    through the shared initial state): the solver starts where the new problem starts, with the dynamics and costs of the old one. *)
Theorem C79_assign_refuted : forall (F : Scalar) (C : Type) debug on om (w w1 : World F C) a i j p q,
  w_step debug on om (WSolverOf a i) w = Ok w1 -> nth_error (w_probs w1) i = Some p -> nth_error (w_probs w1) j = Some q ->
  (pr_init p < length (w_heap w1))%nat ->
  exists w2 s p2, w_step debug on om (WAssign i j) w1 = Ok w2 /\ w_sols w1 a = Some s /\ w_sols w2 a = Some s /\
    nth_error (w_probs w2) i = Some p2 /\ pr_costs p2 = pr_costs q /\ pr_models p2 = pr_models q /\
    so_data debug (w_heap w2) s = do (_, ks) <- so_data debug (w_heap w1) s ; Ok (h_get (pr_init q) (w_heap w1), ks).
Proof.
  intros F C debug on om w w1 a i j p q H1 Hi Hj Hb.
  destruct (w_step debug on om (WAssign i j) w1) as [w2| | | | |] eqn:E2; pose proof E2 as E3;
    cbn [w_step] in E3; unfold w_prob in E3; rewrite Hi, Hj in E3; cbn [bind pr_assign] in E3; try discriminate.
  assert (R : w_run debug on om [WAssign i j] w1 = Ok w2) by (cbn [w_run]; rewrite E2; reflexivity).
  destruct (C79_follows F C debug on om w w1 w2 a i [WAssign i j] H1 ltac:(constructor; [exact I|constructor]) R) as (s & p2 & S1 & S2 & P2 & D).
  exists w2, s, p2. split; [reflexivity|]. split; [exact S1|]. split; [exact S2|]. split; [exact P2|]. rewrite D. injection E3 as <-.
  cbn [w_probs w_heap] in *. rewrite nth_error_upd_same, Hi in P2. cbn [option_map] in P2. injection P2 as <-. cbn [pr_costs pr_models pr_init].
  split; [reflexivity|]. split; [reflexivity|]. rewrite h_get_set by exact Hb. reflexivity.
Qed.

(** ** augmented-Lagrangian solvers *)
(** Constructed in place from a problem: the knot points carry the user's costs and constraints, the outer loop updates the multipliers of exactly
    these cost objects, and the violation reported to the inner solver is that of exactly these objects. *)
Theorem C79_al_built : forall (F : Scalar) on om N (h0 : heap F) s0 (os : list (pop F (UCost F))) h p dyn c debug a,
  given on om N os dyn c -> pr_new N h0 = Ok s0 -> pr_run true os s0 = Ok (h, p) ->
  let ks := knots N dyn (al_given N os dyn c) in
  exists o, ao_of debug true on om a h p = Ok (h, o) /\ so_data debug h (ao_sol o) = Ok (init_given os, ks) /\
    so_cell (ao_sol o) = Some (pr_init p) /\ ao_updates o = Ok (map snd ks) /\ forall m, m a = Some o -> cb_reads m o = Ok (map snd ks).
Proof.
  intros F on om N h0 s0 os h p dyn c debug a G H0 Hr ks. eexists. split; [exact (ao_of_ok on om N h0 s0 os h p dyn c G H0 Hr debug a)|].
  pose proof (gv_N _ _ _ _ _ _ G). fold ks.
  assert (L : Z.to_nat (N + 1) = length (map snd ks)) by (unfold ks; rewrite map_length, knots_length; lia).
  split; [|split; [reflexivity|split]].
  - cbn [ao_sol]. rewrite so_data_ok by (try apply knots_length; lia). pose proof (gv_contents on om N h0 s0 os h p dyn c G H0 Hr) as Ct.
    rewrite (ct_loc _ _ _ _ _ Ct), (ct_init _ _ _ _ _ Ct). reflexivity.
  - unfold ao_updates. cbn [ao_sol so_N ao_costs]. rewrite L, Nat.leb_refl, firstn_all. reflexivity.
  - intros m Hm. unfold cb_reads. cbn [ao_cb]. rewrite Hm. cbn [ao_sol so_N ao_costs]. rewrite L, Nat.leb_refl, firstn_all. reflexivity.
Qed.
(** FINDING: a second problem is refused in debug builds whatever it is; in release builds it is half accepted, as for iLQR: start at the second
    problem's initial state, costs, constraints and multipliers of the first. *)
Theorem C79_al_second_problem_refuted :
  forall (F : Scalar) on om N (h0 : heap F) s0 (os : list (pop F (UCost F))) h p dyn c M s01 (os1 : list (pop F (UCost F))) h1 q dyn1 c1 a,
  given on om N os dyn c -> pr_new N h0 = Ok s0 -> pr_run true os s0 = Ok (h, p) ->
  given on om M os1 dyn1 c1 -> pr_new M h = Ok s01 -> pr_run true os1 s01 = Ok (h1, q) ->
  (exists o, ao_of true true on om a h p = Ok (h, o) /\ ao_init true true on om a h1 q o = Abort) /\
  (exists o o1, ao_of false true on om a h p = Ok (h, o) /\ ao_init false true on om a h1 q o = Ok (h1, o1) /\
     so_data false h1 (ao_sol o1) = Ok (init_given os1, knots N dyn (al_given N os dyn c)) /\
     ao_updates o1 = Ok (map snd (knots N dyn (al_given N os dyn c)))).
Proof.
  intros F on om N h0 s0 os h p dyn c M s01 os1 h1 q dyn1 c1 a G H0 Hr G1 H01 Hr1. pose proof (gv_N _ _ _ _ _ _ G). split.
  - eexists. split; [exact (ao_of_ok on om N h0 s0 os h p dyn c G H0 Hr true a)|].
    apply (ao_init_twice on om M h s01 os1 h1 q dyn1 c1 G1 H01 Hr1). cbn [ao_costs]. unfold knots. discriminate.
  - eexists. eexists. split; [exact (ao_of_ok on om N h0 s0 os h p dyn c G H0 Hr false a)|].
    split; [apply (ao_init_ok on om M h s01 os1 h1 q dyn1 c1 G1 H01 Hr1); left; reflexivity|].
    cbn [ao_sol ao_costs so_kps so_N]. set (ks := knots N dyn (al_given N os dyn c)). assert (L : length ks = Z.to_nat (N + 1)) by (unfold ks; rewrite knots_length; lia).
    split.
    + unfold so_data. cbn [so_set so_cell so_N so_kps]. unfold altro_assert. cbn [bind andb negb]. rewrite app_length, L.
      replace (Nat.leb _ _) with true by (symmetry; apply Nat.leb_le; lia). rewrite <- L, firstn_app, Nat.sub_diag, firstn_all, firstn_O, app_nil_r.
      pose proof (gv_contents on om M h s01 os1 h1 q dyn1 c1 G1 H01 Hr1) as Ct. rewrite (ct_loc _ _ _ _ _ Ct), (ct_init _ _ _ _ _ Ct). reflexivity.
    + unfold ao_updates. cbn [ao_sol so_N ao_costs]. assert (L' : length (map snd ks) = Z.to_nat (N + 1)) by (rewrite map_length; exact L).
      rewrite app_length, L'. replace (Nat.leb _ _) with true by (symmetry; apply Nat.leb_le; lia).
      rewrite <- L', firstn_app, Nat.sub_diag, firstn_all, firstn_O, app_nil_r. reflexivity.
Qed.

(** ** moves *)
(** A move-constructed iLQR solver works on what its source worked on; its source cannot be solved any more. *)
Theorem C79_move : forall (F : Scalar) (C : Type) debug (h : heap F) (s : Sol F C),
  so_data debug h (fst (so_move s)) = so_data debug h s /\ forall d, so_data debug h (snd (so_move s)) <> Ok d.
Proof.
  intros F C debug h s. split; [reflexivity|]. intros d. unfold so_data, so_move. cbn [snd so_cell so_set]. destruct (altro_assert _ _); discriminate.
Qed.
(** In a program: the object moved to starts every solve as the old one did, the old one is of no use, everything else is as before. *)
Theorem C79_moved : forall (F : Scalar) (C : Type) debug dbg on om (w w' : World F C) a b s,
  w_sols w a = Some s -> w_step debug on om (WMove a b) w = Ok w' ->
  exists s1 s0, w_sols w' b = Some s1 /\ w_sols w' a = Some s0 /\ so_data dbg (w_heap w') s1 = so_data dbg (w_heap w) s /\
    (forall d, so_data dbg (w_heap w') s0 <> Ok d) /\ w_probs w' = w_probs w /\ w_heap w' = w_heap w /\ forall c, c <> a -> c <> b -> w_sols w' c = w_sols w c.
Proof.
  intros F C debug dbg on om w w' a b s Ha E. cbn [w_step] in E. unfold w_sol, w_fresh in E. rewrite Ha in E. cbn [bind] in E. destruct (w_sols w b) eqn:Hb; [discriminate|]. cbn [bind] in E. injection E as <-.
  assert (N : a <> b) by (intros ->; congruence). exists (fst (so_move s)), (snd (so_move s)). cbn [w_sols w_heap w_probs]. destruct (C79_move F C dbg (w_heap w) s) as [M1 M2]. unfold sput. rewrite Nat.eqb_refl.
  replace (Nat.eqb a b) with false by (symmetry; apply Nat.eqb_neq; exact N). rewrite ?Nat.eqb_refl. repeat split; try assumption. intros c Hc1 Hc2. replace (Nat.eqb c b) with false by (symmetry; apply Nat.eqb_neq; exact Hc2). replace (Nat.eqb c a) with false by (symmetry; apply Nat.eqb_neq; exact Hc1). reflexivity.
Qed.
(** FINDING: an augmented-Lagrangian solver that has been moved (returned by value without elision, stored in a container) is undefined behaviour
    in its first iteration: the callback still belongs to the moved-from object (al_solver.hpp:247), whose costs_ is empty, or which is gone. *)
Theorem C79_al_move_refuted : forall (F : Scalar) on om N (h0 : heap F) s0 (os : list (pop F (UCost F))) h p dyn c debug a b (m : AlMem F),
  given on om N os dyn c -> pr_new N h0 = Ok s0 -> pr_run true os s0 = Ok (h, p) -> a <> b ->
  exists o, ao_of debug true on om a h p = Ok (h, o) /\
    let m1 := aput b (Some (fst (ao_move o))) (aput a (Some (snd (ao_move o))) m) in
    so_data debug h (ao_sol (fst (ao_move o))) = so_data debug h (ao_sol o) /\
    cb_reads m1 (fst (ao_move o)) = UB /\ cb_reads (aput a None m1) (fst (ao_move o)) = UB.
Proof.
  intros F on om N h0 s0 os h p dyn c debug a b m G H0 Hr Hab. eexists. split; [exact (ao_of_ok on om N h0 s0 os h p dyn c G H0 Hr debug a)|].
  pose proof (gv_N _ _ _ _ _ _ G). cbv zeta. split; [reflexivity|]. unfold cb_reads, ao_move, aput. cbn [fst snd ao_cb]. rewrite Nat.eqb_refl.
  destruct (Nat.eqb a b) eqn:E; [apply Nat.eqb_eq in E; congruence|]. split; [|reflexivity].
  cbn [ao_sol so_move snd so_N ao_costs length]. replace (Nat.leb _ 0) with false by (symmetry; apply Nat.leb_gt; lia). reflexivity.
Qed.
(** FINDING: a move loses the custom task assignment (ilqr.hpp:58-71): the next solve divides the knot points anew. *)
Theorem C79_move_tasks_refuted :
  (forall t, t_custom (tasks_move t) = false /\ t_inds (tasks_move t) = [] /\ t_pool (tasks_move t) = 0) /\
  exists t0 t t1 t2, get_tasks (F:=FS) f_round 10 true 4 2 1 t_new = Ok t0 /\ set_tasks true 4 [0; 1; 5] t0 = Ok t /\
    launch (F:=FS) f_round 10 true 4 2 1 t = Ok t1 /\ t_tasks t1 = [(0, 1); (1, 5)] /\
    launch (F:=FS) f_round 10 true 4 2 1 (tasks_move t) = Ok t2 /\ t_tasks t2 = [(0, 2); (2, 5)].
Proof.
  split; [intros t; repeat split|]. eexists. eexists. eexists. eexists.
  split; [vm_compute; reflexivity|]. split; [vm_compute; reflexivity|]. split; [vm_compute; reflexivity|]. split; [vm_compute; reflexivity|].
  split; vm_compute; reflexivity.
Qed.
(** FINDING: a solver whose trajectory was made by MakeTrajectory cannot be solved: MakeTrajectory (ilqr.hpp:216-220) sets Z_ but not Zbar_, and
    SolveSetup dereferences Zbar_ (ilqr.hpp:638).  Every solver with an initial state, every step, both builds. *)
Lemma uniform_length {F : Scalar} (h : F) Z : forall k, length (set_uniform h k Z) = length Z.
Proof. induction Z as [|z [|z' Z] IH]; intros k; [reflexivity|reflexivity|]. cbn [set_uniform length]. f_equal. apply (IH (S k)). Qed.
Theorem C79_make_trajectory_refuted : forall (F : Scalar) (CS : Type) (ops : CostOps F CS) n m cb debug fuel (s : ILQR F CS) dt,
  il_x0_set s = true -> il_Zb s = None -> il_solve ops n m cb debug fuel (il_make_trajectory dt s) = UB.
Proof.
  intros F CS ops n m cb debug fuel s dt Hx Hz. unfold il_solve, il_begin, il_make_trajectory, il_set_Z. cbn [il_x0_set il_Z il_N].
  rewrite Hx. unfold traj_N, traj_set_uniform_step. rewrite uniform_length. unfold traj_zero. rewrite repeat_length.
  replace (Z.of_nat (S (il_N s)) - 1 =? Z.of_nat (il_N s)) with true by (symmetry; apply Z.eqb_eq; lia).
  unfold il_solve_setup, il_set_stats. cbn [il_Z il_Zb]. rewrite Hz. destruct debug; reflexivity.
Qed.
Example C79_example_al :
  (do (h, p) <- exrun exos 2 ; do (h1, o) <- ao_of true true (Some 1%nat) None 5 h p ;
   do r <- cb_reads (fun _ => Some o) o ; do (x, ks) <- so_data true h1 (ao_sol o) ;
   Ok (x, length ks, map (fun a => (length (al_eq a), length (al_ineq a))) r)) = Ok (ex1, 3%nat, [(0%nat, 0%nat); (1%nat, 1%nat); (1%nat, 0%nat)]).
Proof. vm_compute. reflexivity. Qed.
Print Assumptions C79_moved. Print Assumptions C79_built. Print Assumptions C79_ranges. Print Assumptions C79_follows. Print Assumptions C79_second_problem_refuted.
Print Assumptions C79_assign_refuted. Print Assumptions C79_al_built. Print Assumptions C79_al_second_problem_refuted. Print Assumptions C79_move. Print Assumptions C79_al_move_refuted.
Print Assumptions C79_move_tasks_refuted. Print Assumptions C79_make_trajectory_refuted.
