(** Property C80: solving with several threads gives the result of solving with one.  Proofs in ParSolveProofs*.v. *)
From Coq Require Import List ZArith Bool Lia Arith.
From Coq Require Import Floats.SpecFloat.
From Verif Require Import Base Lin LogModel StatsModel TrajModel IlqrModel IlqrSpec CostInst ConModel AlModel IlqrExamples.
From Verif Require Import PoolSpec PoolModel PoolProofs PoolProofs5 TaskModel TaskSpec ParModel TaskProofs TaskFloat TaskProofs2 ParSolveModel ParSolveProofs ParSolveProofs2 ParSolveProofs3.
Import ListNotations.
Local Open Scope Z_scope.

(** a solver that has not used its pool *)
Definition fresh {F CS} (W : nat) (m0 : @mem F CS) : Pool F CS := ([], p_init W m0).
(** the default division of N segments, if it is made at all, is one of all the knot points *)
Definition divides {F : Scalar} (rnd : F -> Z) (tf : nat) (debug : bool) (N : nat) (nt tpt : Z) : Prop :=
  1 <= nt * tpt /\ forall l, default_inds rnd tf debug (Z.of_nat N) nt tpt = Ok l -> valid_inds (Z.of_nat N) l.
Lemma fresh_good {F CS} debug W (m0 : @mem F CS) : pgood debug W (fresh W m0).
Proof. split; [apply SR_init|]. split; [intros id L; cbn in L; lia|reflexivity]. Qed.
Lemma fresh_fits {F CS} debug W (m0 : @mem F CS) : fits debug W t_new (fresh W m0).
Proof. split; [split; [apply SR_init|reflexivity]|]. split; [cbn; lia|reflexivity]. Qed.
Lemma launch_new {F : Scalar} (rnd : F -> Z) tf debug N nt tpt : 1 <= nt * tpt -> 
  launch rnd tf debug N nt tpt t_new = if (nt =? 1) || negb (0 <? N) then Ok t_new
    else do l <- default_inds rnd tf debug N nt tpt ; Ok (mkTasks false (blocks l) l (if 1 <? nt then nt else 0)).
Proof.
  intros P. unfold launch. cbn [t_new t_pool]. change (0 =? 0) with true. cbn [andb]. destruct (nt =? 1) eqn:E; [reflexivity|]. cbn [orb].
  destruct (0 <? N); cbn [negb bind]; [|reflexivity]. assert (Z0 : (nt =? 0) = false) by (apply Z.eqb_neq; intros ->; cbn in P; lia). rewrite Z0. cbn [negb bind].
  unfold get_tasks, should_redo, t_num. cbn [t_new t_custom t_inds t_tasks length bind].
  destruct (int_ok (nt * tpt)) eqn:IO; [|unfold default_inds, imul; rewrite IO; reflexivity]. unfold imul at 1. rewrite IO. cbn [bind orb].
  assert (Z1 : (Z.of_nat 0 - 1 =? nt * tpt) = false) by (apply Z.eqb_neq; lia). rewrite Z1. cbn [negb].
  destruct (default_inds rnd tf debug N nt tpt); reflexivity.
Qed.

(** Every schedule of the threads: a program that edits a solver, reads and sets its task assignment and solves with any thread options gives what
    it gives when every expansion is computed serially by the solving thread ([ser_run]: il_solve for every solve), provided that the
    divisions made and set are divisions of the knot points. *)
Theorem C80_program : forall (F : Scalar) (CS : Type) (ops : CostOps F CS) n m cb rnd tf debug fuel W m0 os s q t' p',
  Forall (good_uop (il_N s) (divides rnd tf debug (il_N s))) os ->
  par_run ops n m cb rnd debug fuel tf os s t_new (fresh W m0) q t' p' ->
  q = (do (s1, _) <- ser_run ops n m cb rnd tf debug fuel os s t_new ; Ok s1).
Proof.
  intros F CS ops n m cb rnd tf debug fuel W m0 os s q t' p' G R.
  destruct (run_serial ops n m cb rnd (il_N s) tf debug (divides rnd tf debug (il_N s)) (fun _ _ D => proj1 D) (fun _ _ l D => proj2 D l) W fuel os s t_new _ q t' p' R G eq_refl (fresh_good _ _ _) (new_tinv _)) as [E _].
  rewrite <- E. destruct q; reflexivity.
Qed.
(** Such a program has a run with every result (no deadlock), if no solve asks for more threads than the machine runs. *)
Theorem C80_program_runs : forall (F : Scalar) (CS : Type) (ops : CostOps F CS) n m cb rnd tf debug fuel W m0 os s,
  Forall (good_uop (il_N s) (divides rnd tf debug (il_N s))) os -> Forall (small_uop W) os ->
  exists q t' p', par_run ops n m cb rnd debug fuel tf os s t_new (fresh W m0) q t' p'.
Proof.
  intros F CS ops n m cb rnd tf debug fuel W m0 os s G Sm.
  destruct (run_exists ops n m cb rnd (il_N s) tf debug (divides rnd tf debug (il_N s)) (fun _ _ D => proj1 D) (fun _ _ l D => proj2 D l) W fuel os s t_new (fresh W m0) G Sm eq_refl (fresh_good _ _ _) (new_tinv _) (fresh_fits _ _ _)) as (q & t' & p' & R).
  eauto.
Qed.
(** One solve of a new solver: il_solve, or the failure of the default division. *)
Theorem C80_solve : forall (F : Scalar) (CS : Type) (ops : CostOps F CS) n m cb rnd tf debug fuel W m0 nt tpt s q t' p',
  divides rnd tf debug (il_N s) nt tpt -> par_solve ops n m cb rnd debug fuel tf nt tpt s t_new (fresh W m0) q t' p' ->
  q = (do _ <- il_begin ops n debug s ;
       do _ <- (if (nt =? 1) || (Z.of_nat (il_N s) =? 0) then Ok [] else default_inds rnd tf debug (Z.of_nat (il_N s)) nt tpt) ;
       il_solve ops n m cb debug fuel s).
Proof.
  intros F CS ops n m cb rnd tf debug fuel W m0 nt tpt s q t' p' G R.
  destruct (solve_serial ops n m cb rnd (il_N s) tf debug (divides rnd tf debug (il_N s)) (fun _ _ D => proj1 D) (fun _ _ l D => proj2 D l) W fuel nt tpt s t_new _ q t' p' R G eq_refl (fresh_good _ _ _) (new_tinv _)) as [E _].
  unfold ser_solve in E. rewrite (launch_new rnd tf debug (Z.of_nat (il_N s)) nt tpt (proj1 G)) in E. destruct (il_begin ops n debug s); cbn [bind] in *; try (destruct q; cbn [bind] in E; congruence).
  replace (negb (0 <? Z.of_nat (il_N s))) with (Z.of_nat (il_N s) =? 0) in E by (destruct (Z.eqb_spec (Z.of_nat (il_N s)) 0); destruct (Z.ltb_spec 0 (Z.of_nat (il_N s))); try reflexivity; lia).
  destruct ((nt =? 1) || (Z.of_nat (il_N s) =? 0)); cbn [bind] in *.
  - destruct (il_solve ops n m cb debug fuel s); destruct q; cbn [bind] in E; congruence.
  - destruct (default_inds rnd tf debug (Z.of_nat (il_N s)) nt tpt); cbn [bind] in *; destruct (il_solve ops n m cb debug fuel s); destruct q; cbn [bind] in E; congruence.
Qed.
(** The augmented Lagrangian solver: as_solve, or the failure of one of the launches of the inner solver. *)
Theorem C80_al : forall (F : Scalar) n m (rnd : F -> Z) tf debug fuel W m0 nt tpt a q t' p',
  divides rnd tf debug (il_N (as_il a)) nt tpt -> par_al_solve n m rnd debug fuel tf nt tpt a t_new (fresh W m0) q t' p' ->
  q = as_solve n m debug fuel a \/
  exists k, (forall t, launches rnd tf debug (Z.of_nat (il_N (as_il a))) nt tpt k t_new <> Ok t) /\ q = failed (launches rnd tf debug (Z.of_nat (il_N (as_il a))) nt tpt k t_new).
Proof.
  intros F n m rnd tf debug fuel W m0 nt tpt a q t' p' G R.
  exact (proj1 (al_solve_serial n m rnd (il_N (as_il a)) tf debug (divides rnd tf debug (il_N (as_il a))) (fun _ _ D => proj1 D) (fun _ _ l D => proj2 D l) W fuel nt tpt a t_new _ q t' p' R G eq_refl (fresh_good _ _ _) (new_tinv _))).
Qed.
Theorem C80_al_runs : forall (F : Scalar) n m (rnd : F -> Z) tf debug fuel W m0 nt tpt a,
  divides rnd tf debug (il_N (as_il a)) nt tpt -> nt <= Z.of_nat W -> exists q t' p', par_al_solve n m rnd debug fuel tf nt tpt a t_new (fresh W m0) q t' p'.
Proof.
  intros F n m rnd tf debug fuel W m0 nt tpt a G Sm.
  destruct (al_solve_exists n m rnd (il_N (as_il a)) tf debug (divides rnd tf debug (il_N (as_il a))) (fun _ _ D => proj1 D) (fun _ _ l D => proj2 D l) W fuel nt tpt a t_new (fresh W m0) G Sm eq_refl (fresh_good _ _ _) (new_tinv _) (fresh_fits _ _ _)) as (q & t' & p' & R & _). eauto.
Qed.

(** Exact arithmetic: every division is one, so the results are those of il_solve and as_solve whatever the thread options. *)
Lemma exact_divides tf debug N nt tpt : (1 <= N)%nat -> 1 <= nt * tpt -> divides (F:=RS) r_round tf debug N nt tpt.
Proof. intros HN P. split; [exact P|]. intros l E. apply (exact_hd_ok (Z.of_nat N) tf debug nt tpt l); [lia|exact P|exact E]. Qed.
Theorem C80_exact : forall (CS : Type) (ops : CostOps RS CS) n m cb tf debug fuel W m0 nt tpt s q t' p',
  (1 <= il_N s)%nat -> 1 <= nt * tpt < 2 ^ 31 -> (Z.to_nat (nt * tpt) + 1 < tf)%nat ->
  par_solve ops n m cb r_round debug fuel tf nt tpt s t_new (fresh W m0) q t' p' -> q = il_solve ops n m cb debug fuel s.
Proof.
  intros CS ops n m cb tf debug fuel W m0 nt tpt s q t' p' HN P HF R.
  rewrite (C80_solve _ _ _ _ _ _ _ _ _ _ _ _ _ _ _ _ _ _ (exact_divides tf debug (il_N s) nt tpt HN (proj1 P)) R).
  unfold il_solve. destruct (il_begin ops n debug s); cbn [bind]; try reflexivity. destruct ((nt =? 1) || (Z.of_nat (il_N s) =? 0)); cbn [bind]; [reflexivity|].
  rewrite (exact_default tf debug (Z.of_nat (il_N s)) nt tpt); [reflexivity|lia|lia| |lia]. unfold int_ok. apply andb_true_iff. split; [apply Z.leb_le|apply Z.ltb_lt]; lia.
Qed.
Lemma exact_relaunch tf debug N nt tpt : (1 <= N) -> 1 <= nt * tpt < 2 ^ 31 -> (Z.to_nat (nt * tpt) + 1 < tf)%nat ->
  exists t, launch (F:=RS) r_round tf debug N nt tpt t_new = Ok t /\ launch (F:=RS) r_round tf debug N nt tpt t = Ok t.
Proof.
  intros HN P HF. assert (IO : int_ok (nt * tpt) = true) by (unfold int_ok; apply andb_true_iff; split; [apply Z.leb_le|apply Z.ltb_lt]; lia).
  assert (ED := exact_default tf debug N nt tpt HN ltac:(lia) IO ltac:(lia)).
  rewrite (launch_new (F:=RS) r_round tf debug N nt tpt (proj1 P)). destruct (nt =? 1) eqn:E1; cbn [orb].
  - exists t_new. split; [reflexivity|]. rewrite (launch_new (F:=RS) r_round tf debug N nt tpt (proj1 P)), E1. reflexivity.
  - assert (LN : (0 <? N) = true) by (apply Z.ltb_lt; lia). rewrite LN. cbn [negb].
    set (l := removelast (exact_inds N (nt * tpt)) ++ [N + 1]) in *. assert (LL : Z.of_nat (length l) = nt * tpt + 1) by (apply (exact_hd_ok N tf debug nt tpt l); [lia|lia|exact ED]).
    rewrite ED. cbn [bind]. eexists. split; [reflexivity|]. unfold launch. cbn [t_pool t_custom t_inds t_tasks]. rewrite E1, andb_false_r, LN.
    assert (RD : forall c b pl, should_redo nt tpt (mkTasks c b l pl) = Ok false).
    { intros c b pl. unfold should_redo, imul, t_num. rewrite IO. cbn [bind t_custom t_inds]. replace (Z.of_nat (length l) - 1 =? nt * tpt) with true by (symmetry; apply Z.eqb_eq; lia). rewrite orb_true_r. reflexivity. }
    destruct (negb (nt =? (if 1 <? nt then nt else 0))) eqn:E2; cbn [bind].
    + unfold get_tasks. rewrite RD. cbn [bind t_custom t_inds]. reflexivity.
    + rewrite RD. cbn [bind]. reflexivity.
Qed.
Theorem C80_al_exact : forall n m tf debug fuel W m0 nt tpt (a : ALS RS) q t' p',
  (1 <= il_N (as_il a))%nat -> 1 <= nt * tpt < 2 ^ 31 -> (Z.to_nat (nt * tpt) + 1 < tf)%nat ->
  par_al_solve n m r_round debug fuel tf nt tpt a t_new (fresh W m0) q t' p' -> q = as_solve n m debug fuel a.
Proof.
  intros n m tf debug fuel W m0 nt tpt a q t' p' HN P HF R.
  destruct (C80_al _ _ _ _ _ _ _ _ _ _ _ _ _ _ _ (exact_divides tf debug _ nt tpt HN (proj1 P)) R) as [E|(k & K & _)]; [exact E|exfalso].
  destruct (exact_relaunch tf debug (Z.of_nat (il_N (as_il a))) nt tpt ltac:(lia) P HF) as (t & L1 & L2).
  assert (S : forall j, launches (F:=RS) r_round tf debug (Z.of_nat (il_N (as_il a))) nt tpt j t = Ok t) by (induction j as [|j IH]; [reflexivity|cbn [launches]; rewrite L2; exact IH]).
  destruct k as [|k]; [eapply K; reflexivity|]. apply (K t). cbn [launches]. rewrite L1. exact (S k).
Qed.

(** Binary64, debug build, up to 2^18 tasks: the assertion on the division leaves only divisions of all the knot points, so the result is that of
    il_solve or the assertion fails. *)
Lemma float_divides tf N nt tpt : 1 <= Z.of_nat N < 2 ^ 31 -> 1 <= nt * tpt <= 2 ^ 18 -> divides (F:=FS) f_round tf true N nt tpt.
Proof. intros HN P. split; [lia|]. intros l E. exact (float_hd_ok (Z.of_nat N) tf nt tpt l HN P E). Qed.
Theorem C80_float_debug : forall (CS : Type) (ops : CostOps FS CS) n m cb tf fuel W m0 nt tpt s q t' p',
  1 <= Z.of_nat (il_N s) < 2 ^ 31 -> 1 <= nt * tpt <= 2 ^ 18 -> (Z.to_nat (nt * tpt) + 1 < tf)%nat ->
  par_solve ops n m cb f_round true fuel tf nt tpt s t_new (fresh W m0) q t' p' ->
  q = il_solve ops n m cb true fuel s \/ default_inds (F:=FS) f_round tf true (Z.of_nat (il_N s)) nt tpt = Abort /\ q = Abort.
Proof.
  intros CS ops n m cb tf fuel W m0 nt tpt s q t' p' HN P HF R.
  rewrite (C80_solve _ _ _ _ _ _ _ _ _ _ _ _ _ _ _ _ _ _ (float_divides tf (il_N s) nt tpt HN P) R). unfold il_solve.
  destruct (il_begin ops n true s); cbn [bind]; try (left; reflexivity). destruct ((nt =? 1) || (Z.of_nat (il_N s) =? 0)); cbn [bind]; [left; reflexivity|].
  rewrite (float_default tf true (Z.of_nat (il_N s)) nt tpt HN P ltac:(lia)). destruct (true && _); cbn [bind]; [right; split; reflexivity|left; reflexivity].
Qed.
(** Binary64, release build: the result is that of il_solve for every division that would pass the assertion. *)
Theorem C80_float_release : forall (CS : Type) (ops : CostOps FS CS) n m cb tf fuel W m0 nt tpt s q t' p' l,
  1 <= Z.of_nat (il_N s) < 2 ^ 31 -> 1 <= nt * tpt <= 2 ^ 18 -> default_inds (F:=FS) f_round tf true (Z.of_nat (il_N s)) nt tpt = Ok l ->
  par_solve ops n m cb f_round false fuel tf nt tpt s t_new (fresh W m0) q t' p' -> q = il_solve ops n m cb false fuel s.
Proof.
  intros CS ops n m cb tf fuel W m0 nt tpt s q t' p' l HN P D R.
  assert (D2 : default_inds (F:=FS) f_round tf false (Z.of_nat (il_N s)) nt tpt = Ok l).
  { unfold default_inds in *. destruct (imul nt tpt); cbn [bind] in *; try discriminate. destruct (task_loop _ _ _ _ _); cbn [bind] in *; try discriminate. match goal with |- context [match ?l with [] => _ | _ :: _ => _ end] => destruct l as [|x r]; [discriminate|] end.
    revert D. unfold altro_assert. match goal with |- context [negb ?c] => destruct c end; cbn [andb negb bind]; [auto|discriminate]. }
  assert (G : divides (F:=FS) f_round tf false (il_N s) nt tpt) by (split; [lia|]; intros l' E; assert (l' = l) by congruence; subst l'; exact (float_hd_ok (Z.of_nat (il_N s)) tf nt tpt l HN P D)).
  rewrite (C80_solve _ _ _ _ _ _ _ _ _ _ _ _ _ _ _ _ _ _ G R). rewrite D2. unfold il_solve. destruct (il_begin ops n false s); cbn [bind]; try reflexivity. destruct ((nt =? 1) || (Z.of_nat (il_N s) =? 0)); reflexivity.
Qed.

(** ** A concrete problem: seven segments, x' = x + u from x = 1, cost u^2/2 per segment and x^2/2 at the end, all controls zero *)
Notation f := (T FS).
Definition w_dyn : Dyn FS := mkDyn (F:=FS) (fun x u _ _ b i => match i with O => add (x 0%nat) (u 0%nat) | _ => b i end) (fun _ _ _ _ _ => fun i j => one).
Definition w_quad (a c : f) : UCost FS := mkUCost (F:=FS)
  (fun x u => add (mul half (mul a (mul (u 0%nat) (u 0%nat)))) (mul half (mul c (mul (x 0%nat) (x 0%nat)))))
  (fun x u _ => (fun _ => mul c (x 0%nat), fun _ => mul a (u 0%nat)))
  (fun x u _ => (fun _ _ => c, fun _ _ => zero, fun _ _ => a)).
Definition w_cst (v : f) : vec FS := fun _ => v.
Definition w_viol (_ : list (UCost FS)) : f := zero.
Definition w_guess : Traj FS := map (fun k => mkKP (w_cst zero) (w_cst zero) (ofZ (Z.of_nat k)) (if Nat.eqb k 7 then zero else one : f)) (seq 0 8).
Definition w_solver : ILQR FS (UCost FS) :=
  il_set_trajectory w_guess (il_make 7 (w_cst one) (map (fun k => (w_dyn, if Nat.eqb k 7 then w_quad zero one else w_quad one zero)) (seq 0 8))).
Definition w_states (s : ILQR FS (UCost FS)) : list f := match il_Z s with Some Z => map (fun z => z_x z 0%nat) Z | None => [] end.
Definition w_solved (r : res (ILQR FS (UCost FS))) (x7 : f) : bool :=
  match r with Ok s => status_eqb (il_status s) kSolved && SFeqb (last (w_states s) zero) x7 | _ => false end.
(** two solves, with 2 threads and 2 tasks per thread and then with 3 threads from the same guess, and the assignment read in between *)
Definition w_prog : list (uop FS (UCost FS)) := [USolve 2 2; UEdit (il_set_trajectory w_guess); UGetTasks 3 1; USolve 3 1].
Lemma w_good debug : Forall (good_uop (il_N w_solver) (divides (F:=FS) f_round 20 debug (il_N w_solver))) w_prog.
Proof.
  assert (D : forall nt tpt, 1 <= nt * tpt <= 2 ^ 18 -> is_ok (default_inds (F:=FS) f_round 20 true 7 nt tpt) = true -> divides (F:=FS) f_round 20 debug 7 nt tpt).
  { intros nt tpt P K. destruct debug; [apply float_divides; [cbn; lia|exact P]|]. split; [lia|]. intros l E. apply (float_hd_ok 7 20 nt tpt l ltac:(lia) P). 
    destruct (default_inds (F:=FS) f_round 20 true 7 nt tpt) as [l'| | | | |] eqn:E'; try discriminate. f_equal. revert E E'. change (Z.of_nat 7) with 7. unfold default_inds.
    destruct (imul nt tpt); cbn [bind]; try discriminate. destruct (task_loop _ _ _ _ _) as [l0| | | | |]; cbn [bind]; try discriminate. destruct l0; [discriminate|].
    unfold altro_assert. match goal with |- context [negb ?c] => destruct c end; cbn [andb negb bind]; congruence. }
  unfold w_prog. repeat (apply Forall_cons || apply Forall_nil); cbn [good_uop]; try (apply D; [lia|vm_compute; reflexivity]). intros s. reflexivity.
Qed.
Example C80_example : forall debug m0, Forall (good_uop (il_N w_solver) (divides (F:=FS) f_round 20 debug (il_N w_solver))) w_prog /\
  (exists q t' p', par_run ucost_ops 1 1 w_viol f_round debug 5 20 w_prog w_solver t_new (fresh 4 m0) q t' p') /\
  forall q t' p', par_run ucost_ops 1 1 w_viol f_round debug 5 20 w_prog w_solver t_new (fresh 4 m0) q t' p' -> w_solved q (S754_finite false 9007199254740990 (-56)) = true.
Proof.
  intros debug m0. split; [apply w_good|]. split.
  - apply C80_program_runs; [apply w_good|]. unfold w_prog. repeat (apply Forall_cons || apply Forall_nil); cbn [small_uop]; try exact I; lia.
  - intros q t' p' R. rewrite (C80_program _ _ _ _ _ _ _ _ _ _ _ _ _ _ _ _ _ (w_good debug) R). destruct debug; vm_compute; reflexivity.
Qed.

(** * Finding: with 6 threads the binary64 division of 7 segments leaves out the last knot point (C35), a release build does not notice, and the
    solve reports kSolved with the cost at the last knot point left out: it returns the initial guess, on which x = 1 throughout, where the solve with
    one thread ends at x = 1/8.  Every schedule gives this, and there is one. *)
Definition w_inds : list Z := [0; 1; 2; 4; 5; 7].
Definition w_tasks : Tasks := mkTasks false (blocks w_inds) w_inds 6.
Definition w_begun := get_ok w_solver (il_begin ucost_ops 1 false w_solver).
Lemma w_begin : il_begin ucost_ops 1 false w_solver = Ok w_begun.
Proof. apply is_ok_get. vm_compute. reflexivity. Qed.
Lemma w_launch : launch (F:=FS) f_round 20 false (Z.of_nat (il_N w_solver)) 6 1 t_new = Ok w_tasks.
Proof. vm_compute. reflexivity. Qed.
Lemma w_valid : valid_inds (Z.of_nat 6) w_inds.
Proof.
  split; [cbn; lia|]. split; [reflexivity|]. split; [reflexivity|].
  intros [|[|[|[|[|[|i]]]]]] a b A B; cbn in A, B; try discriminate; try (injection A as <-; injection B as <-; lia).
Qed.
Definition w_all_one (s : ILQR FS (UCost FS)) : bool := forallb (fun x => SFeqb x (one : f)) (w_states s).
Definition w_ignored (r : res (ILQR FS (UCost FS))) : bool := w_solved r one && match r with Ok s => w_all_one s && Nat.eqb (length (w_states s)) 8 | _ => false end.
Lemma some_of {A} (P : A -> bool) (o : option A) : match o with Some a => P a | None => false end = true -> exists a, o = Some a /\ P a = true.
Proof. destruct o as [a|]; [|discriminate]. intros H. exists a. split; [reflexivity|exact H]. Qed.
Lemma w_result : exists q0, part_loop ucost_ops 1 1 w_viol 5 6 (Z.to_nat (o_max_inner (il_opts w_begun))) w_begun = Some q0 /\ w_ignored q0 = true.
Proof. apply (some_of w_ignored). vm_compute. reflexivity. Qed.
Section Part.
Context {F : Scalar} {CS : Type} (ops : CostOps F CS) (n m : nat) (cb : list CS -> F) (rnd : F -> Z).
Lemma part_solve tf debug fuel nt tpt (s s1 : ILQR F CS) t1 l M q0 : il_begin ops n debug s = Ok s1 -> launch rnd tf debug (Z.of_nat (il_N s)) nt tpt t_new = Ok t1 ->
  1 < t_pool t1 -> t_tasks t1 = blocks l -> valid_inds (Z.of_nat M) l -> part_loop ops n m cb fuel M (Z.to_nat (o_max_inner (il_opts s1))) s1 = Some q0 ->
  (forall W m0, nt <= Z.of_nat W -> exists t' p', par_solve ops n m cb rnd debug fuel tf nt tpt s t_new (fresh W m0) q0 t' p') /\
  (forall W m0 q t' p', par_solve ops n m cb rnd debug fuel tf nt tpt s t_new (fresh W m0) q t' p' -> q = q0).
Proof.
  intros B L1 T1 T2 V E0. split.
  - intros W m0 HW. destruct (launch_exists (CS:=CS) rnd tf debug W (Z.of_nat (il_N s)) nt tpt t_new t1 (fresh W m0) (fresh_fits _ _ _) HW L1) as (p1 & D & Fi).
    pose proof (does_good debug W _ _ _ (fresh_good debug W m0) (launch_no_add _ _ _ _) D) as P1.
    destruct (part_exists ops n m cb debug W fuel M t1 l T1 T2 V _ s1 p1 q0 P1 Fi E0) as (p2 & Lo).
    exists t1, p2. eapply PS_run; [exact B|exact L1|exact D|exact Lo].
  - intros W m0 q t' p' S. inversion S as [e E NE|s2 e E L NE|s2 t2 p1 q1 p2 E L D Lo].
    + exfalso. rewrite B in E. eapply NE. symmetry. exact E.
    + exfalso. rewrite L1 in L. eapply NE. symmetry. exact L.
    + rewrite B in E. injection E as <-. rewrite L1 in L. injection L as L. subst t2 t' q1 p2.
      pose proof (does_good debug W _ _ _ (fresh_good debug W m0) (launch_no_add _ _ _ _) D) as P1.
      eapply (part_sound ops n m cb debug W fuel M t1 l T1 T2 V); [exact Lo|exact P1|exact E0].
Qed.
End Part.
Theorem C80_division_refuted : exists (s : ILQR FS (UCost FS)) nt tpt l, default_inds (F:=FS) f_round 20 false (Z.of_nat (il_N s)) nt tpt = Ok l /\ 
  ~ divides (F:=FS) f_round 20 false (il_N s) nt tpt /\
  w_solved (il_solve ucost_ops 1 1 w_viol false 5 s) (S754_finite false 9007199254740990 (-56)) = true /\
  (forall W m0, nt <= Z.of_nat W -> exists q t' p', par_solve ucost_ops 1 1 w_viol f_round false 5 20 nt tpt s t_new (fresh W m0) q t' p') /\
  (forall W m0 q t' p', par_solve ucost_ops 1 1 w_viol f_round false 5 20 nt tpt s t_new (fresh W m0) q t' p' -> w_ignored q = true).
Proof.
  destruct w_result as (q0 & E0 & I0). exists w_solver, 6, 1, w_inds. split; [vm_compute; reflexivity|]. split; [|split; [vm_compute; reflexivity|]].
  - intros [_ D]. destruct (D w_inds ltac:(vm_compute; reflexivity)) as (_ & _ & X & _). vm_compute in X. discriminate.
  - destruct (part_solve ucost_ops 1 1 w_viol f_round 20 false 5 6 1 w_solver w_begun w_tasks w_inds 6 q0 w_begin w_launch eq_refl eq_refl w_valid E0) as [A B]. split.
    + intros W m0 HW. exists q0. exact (A W m0 HW).
    + intros W m0 q t' p' S. rewrite (B W m0 q t' p' S). exact I0.
Qed.
Print Assumptions C80_program. Print Assumptions C80_program_runs. Print Assumptions C80_solve. Print Assumptions C80_al. Print Assumptions C80_al_runs. Print Assumptions C80_exact. Print Assumptions C80_al_exact.
Print Assumptions C80_float_debug. Print Assumptions C80_float_release. Print Assumptions C80_example. Print Assumptions C80_division_refuted.
