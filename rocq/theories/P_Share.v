(** C89: the temporary storage of the integrators and parallel expansions. *)
From Coq Require Import List ZArith QArith Bool Lia Arith.
From Verif Require Import Base Lin RLin TrajModel IlqrModel DynModel PoolSpec PoolModel PoolProofs TaskModel TaskSpec ParModel ParProofs ParProofs2 TaskProofs ShareModel ShareProofs.
Import ListNotations.
Local Open Scope Z_scope.

Section C89.
Context {F : Scalar} (n m : nat) (dm : nat -> DM F) (ob : Z -> nat) (N : Z) (Zt : Z -> KP F).
(** the discrete Jacobian of knot point k when the members k1_ .. k4_ of its integrator hold [s] and the caller's matrix holds J *)
Definition djac (k : Z) (s : RK4 F) (J : mat F) : mat F :=
  let d := dm (ob k) in let z := Zt k in
  if dm_rk d then snd (rk4_jac n m (dm_cd d) s (z_x z) (z_u z) (z_t z) (z_h z) J) else euler_jac n m (dm_cd d) (z_x z) (z_u z) (z_t z) (z_h z) J.
(** no RungeKutta4 object is used by two tasks (a task may use it at all its knot points) *)
Definition unshared (tasks : list (Z * Z)) : Prop := forall i i' b b' k k', nth_error tasks i = Some b -> nth_error tasks i' = Some b' -> i <> i' ->
  inb k b = true -> inb k' b' = true -> 0 <= k < N -> 0 <= k' < N -> dm_rk (dm (ob k)) = true -> ob k <> ob k'.
Lemma used_iff k : used N k = true <-> 0 <= k < N.
Proof. unfold used. rewrite andb_true_iff, Z.leb_le, Z.ltb_lt. tauto. Qed.
Lemma unshared_apart tasks : unshared tasks -> apart dm ob N tasks.
Proof. intros U i i' b b' k k' A B C D E G H. apply (U i i' b b'); auto; apply used_iff; assumption. Qed.

(** One thread: every knot point gets its discrete Jacobian, whatever the objects and however they are shared. *)
Theorem C89_serial s k : exists r, sm_jac (sh_serial n m dm ob N Zt s) k = if (0 <=? k) && (k <? N) then djac k r (sm_jac s k) else sm_jac s k.
Proof.
  destruct ((0 <=? k) && (k <? N)) eqn:U.
  - destruct (serial_kp n m dm ob N Zt k s) as (o & E); [apply used_iff; exact U|]. exists (sc_k o). rewrite E. unfold stmts, djac. destruct (dm_rk (dm (ob k))); [apply rk_alone|reflexivity].
  - exists rk_init. apply serial_out. intros K. apply used_iff in K. unfold used in K. congruence.
Qed.
(** Several threads, any valid assignment, any schedule, no RungeKutta4 object in two tasks: all Jacobians are those of the single-threaded loop. *)
Theorem C89_parallel debug W H1 s1 sched H2 s2 inds : solver_run debug W H1 s1 -> (forall id, (id < length (added H1))%nat -> In (EFin id) H1) ->
  valid_inds N inds -> unshared (blocks inds) -> p_exec debug sched s1 = Ok (H2 ++ [EWaited], s2) -> added H2 = sh_tasks n m dm ob N (blocks inds) Zt -> no_timeout H2 ->
  forall k, 0 <= k <= N -> sm_jac (p_mem s2) k = sm_jac (sh_serial n m dm ob N Zt (p_mem s1)) k.
Proof.
  intros R FIN V U E AD NT k K. destruct (valid_cover N inds V) as [CV POS]. apply unshared_apart in U. destruct (unique_block k (blocks inds) (proj1 CV k K)) as (i & b & NB & IB & _).
  pose proof (share_round n m dm ob N Zt debug W H1 s1 sched H2 s2 (blocks inds) i b R FIN E NT AD CV U NB k IB) as [A _].
  assert (LT : fst b < snd b) by (apply andb_true_iff in IB; destruct IB as [I1 I2]; apply Z.leb_le in I1; apply Z.ltb_lt in I2; lia).
  pose proof (serial_agree n m dm ob N Zt (blocks inds) i b CV POS U NB LT (p_mem s1) k IB) as [B _]. rewrite A, B. reflexivity.
Qed.
(** If the continuous dynamics write the whole derivative, they are the discrete Jacobians with fresh integrators. *)
Theorem C89_value debug W H1 s1 sched H2 s2 inds : solver_run debug W H1 s1 -> (forall id, (id < length (added H1))%nat -> In (EFin id) H1) ->
  valid_inds N inds -> unshared (blocks inds) -> p_exec debug sched s1 = Ok (H2 ++ [EWaited], s2) -> added H2 = sh_tasks n m dm ob N (blocks inds) Zt -> no_timeout H2 ->
  (forall o x u t v v' i, (i < n)%nat -> cd_eval (dm_cd (dm o)) x u t v i = cd_eval (dm_cd (dm o)) x u t v' i) ->
  forall k, 0 <= k < N -> sm_jac (p_mem s2) k = djac k rk_init (sm_jac (p_mem s1) k).
Proof.
  intros R FIN V U E AD NT OW k K. rewrite (C89_parallel debug W H1 s1 sched H2 s2 inds R FIN V U E AD NT k) by lia. destruct (C89_serial (p_mem s1) k) as (r & X). rewrite X.
  replace ((0 <=? k) && (k <? N)) with true by (symmetry; apply used_iff; exact K). unfold djac. destruct (dm_rk (dm (ob k))); [|reflexivity].
  assert (ST : forall x u t h, let a := rk_stages n (dm_cd (dm (ob k))) r x u t h in let b := rk_stages n (dm_cd (dm (ob k))) rk_init x u t h in rk_k1 a = rk_k1 b /\ rk_k2 a = rk_k2 b /\ rk_k3 a = rk_k3 b).
  { intros x u t h. unfold rk_stages. cbn [rk_k1 rk_k2 rk_k3].
    assert (E1 : forall y t' v v', vstore n (cd_eval (dm_cd (dm (ob k))) y u t' v) = vstore n (cd_eval (dm_cd (dm (ob k))) y u t' v')) by (intros; apply vstore_ext; intros; apply OW; assumption).
    rewrite (E1 x t (rk_k1 r) (rk_k1 rk_init)). rewrite (E1 _ (t_half t h) (rk_k2 r) (rk_k2 rk_init)). rewrite (E1 _ (t_half t h) (rk_k3 r) (rk_k3 rk_init)). auto. }
  unfold rk4_jac. cbv zeta. cbn [snd]. destruct (ST (z_x (Zt k)) (z_u (Zt k)) (z_t (Zt k)) (z_h (Zt k))) as (S1 & S2 & S3). cbv zeta in S1, S2, S3. rewrite S1, S2, S3. reflexivity.
Qed.
(** Two ways to meet the condition: an object of its own at every knot point (examples/problems/unicycle.cpp:74, triple_integrator.hpp:67), or ExplicitEuler. *)
Theorem C89_own_objects tasks : exact_cover N tasks -> (forall k k', 0 <= k < N -> 0 <= k' < N -> ob k = ob k' -> k = k') -> unshared tasks.
Proof.
  intros [CV _] INJ i i' b b' k k' A B D I I' K K' _ E. apply D. rewrite <- (INJ k k' K K' E) in I'. destruct (unique_block k tasks (CV k ltac:(lia))) as (q & bq & _ & _ & U). rewrite (U i b A I), (U i' b' B I'). reflexivity.
Qed.
Theorem C89_euler tasks : (forall k, 0 <= k < N -> dm_rk (dm (ob k)) = false) -> unshared tasks.
Proof. intros E i i' b b' k k' _ _ _ _ _ K _ RK. rewrite (E k K) in RK. discriminate. Qed.
End C89.

(** A run with two workers and two tasks of 25 statements; worker 0 is interrupted after its first statement by the whole task of worker 1. *)
Section Run.
Context {M : Type} (f g : nat -> M -> M) (m0 : M).
Let mm (o : pop M) n : list (move M) := repeat (Main o false) n.
Let ww w n : list (move M) := repeat (Work w) n.
Definition sh_events : list (pev M) :=
  [ELaunch 2; ELaunched; EAdd 0 (map f (seq 0 25)); EAdded 0; EAdd 1 (map g (seq 0 25)); EAdded 1; EStart 0; EAct 0 0; EStart 1] ++ map (EAct 1) (seq 0 25) ++ [EFin 1] ++ map (EAct 0) (seq 1 24) ++ [EFin 0; EWait].
Definition sh_sched : list (move M) := mm (PLaunch 2) 4 ++ mm (PAdd (map f (seq 0 25))) 10 ++ mm (PAdd (map g (seq 0 25))) 10 ++ ww 0 14 ++ ww 1 60 ++ ww 0 40 ++ mm PWait 4.
Lemma sh_run : exists s, p_exec true sh_sched (p_init 2 m0) = Ok (sh_events ++ [EWaited], s) /\
  p_mem s = fold_left (fun m i => f i m) (seq 1 24) (fold_left (fun m i => g i m) (seq 0 25) (f 0%nat m0)).
Proof. eexists. vm_compute. split; reflexivity. Qed.
Lemma sh_quiet : no_timeout sh_events.
Proof. intros id J. vm_compute in J. repeat destruct J as [J|J]; try discriminate. exact J. Qed.
End Run.
(** Three knot points in blocks {0} and {1, 2}; x' = x^2 + u; states 1 and 2, step 1. *)
Definition sh_cd : CDyn QS := mkCDyn (fun x u _ _ i => add (mul (x i) (x i)) (u i)) (fun x _ _ _ i j => if Nat.eqb j 0 then mul two (x 0%nat) else one).
Definition sh_dm (o : nat) : DM QS := mkDM sh_cd true.
Definition sh_traj (k : Z) : KP QS := mkKP (fun _ => ofZ (k + 1)) (fun _ => zero) zero one.
Definition sh_mem : SMem QS := mkSMem (fun _ => scr_init) (fun _ => mzero).
Definition sh_f (ob : Z -> nat) (k : Z) (i : nat) : SMem QS -> SMem QS := nth i (kp_stmts 1 1 sh_dm ob 2 sh_traj k) (fun s => s).
Lemma sh_valid : valid_inds 2 [0; 1; 3].
Proof. split; [cbn; lia|]. split; [reflexivity|]. split; [reflexivity|]. intros [|[|[|i]]] a b A B; cbn in A, B; try discriminate; injection A as <-; injection B as <-; lia. Qed.
Lemma sh_added ob : added (sh_events (sh_f ob 0) (sh_f ob 1)) = sh_tasks 1 1 sh_dm ob 2 (blocks [0; 1; 3]) sh_traj.
Proof. reflexivity. Qed.
(** FINDING (the limit problem.hpp:171-183 warns of, but SetDynamics(model, k), 155-166, accepts).  Both knot points hold one DiscretizedModel: everything else as
    in C89_value, and the Jacobian of knot point 0 is wrong, whatever its integrator held. *)
Theorem C89_shared_refuted : exists (ob : Z -> nat) sched H2 s2, valid_inds 2 [0; 1; 3] /\ p_exec true sched (p_init 2 sh_mem) = Ok (H2 ++ [EWaited], s2) /\
  added H2 = sh_tasks 1 1 sh_dm ob 2 (blocks [0; 1; 3]) sh_traj /\ no_timeout H2 /\
  (forall o x u t v v' i, (i < 1)%nat -> cd_eval (dm_cd (sh_dm o)) x u t v i = cd_eval (dm_cd (sh_dm o)) x u t v' i) /\
  forall r, ~ (sm_jac (p_mem s2) 0 0%nat 0%nat == djac 1 1 sh_dm ob sh_traj 0 r (sm_jac sh_mem 0) 0%nat 0%nat)%Q.
Proof.
  set (ob := fun _ : Z => 0%nat). destruct (sh_run (sh_f ob 0) (sh_f ob 1) sh_mem) as (s & E & MS). exists ob. eexists. eexists. exists s. split; [exact sh_valid|]. split; [exact E|]. split; [apply sh_added|]. split; [apply sh_quiet|]. split; [reflexivity|].
  intros r. rewrite MS. intros X. apply Qeq_bool_iff in X. revert X. apply not_true_iff_false. vm_compute. reflexivity.
Qed.
(** The same schedule with a model of its own at each knot point: the hypotheses hold, and the Jacobian is the right one. *)
Example C89_example : exists sched H2 s2, p_exec true sched (p_init 2 sh_mem) = Ok (H2 ++ [EWaited], s2) /\ added H2 = sh_tasks 1 1 sh_dm Z.to_nat 2 (blocks [0; 1; 3]) sh_traj /\ no_timeout H2 /\
  valid_inds 2 [0; 1; 3] /\ unshared sh_dm Z.to_nat 2 (blocks [0; 1; 3]) /\ sm_jac (p_mem s2) 0 = djac 1 1 sh_dm Z.to_nat sh_traj 0 rk_init mzero.
Proof.
  destruct (sh_run (sh_f Z.to_nat 0) (sh_f Z.to_nat 1) sh_mem) as (s & E & MS). eexists. eexists. exists s. split; [exact E|]. split; [apply sh_added|]. split; [apply sh_quiet|]. split; [exact sh_valid|].
  assert (U : unshared sh_dm Z.to_nat 2 (blocks [0; 1; 3])) by (apply C89_own_objects; [apply valid_cover; exact sh_valid|intros; lia]). split; [exact U|].
  apply (C89_value 1 1 sh_dm Z.to_nat 2 sh_traj true 2 [] (p_init 2 sh_mem) _ _ s [0; 1; 3]) with (3 := sh_valid) (4 := U) (5 := E); [constructor|intros id J; cbn in J; lia|apply sh_added|apply sh_quiet|reflexivity|lia].
Qed.

Print Assumptions C89_serial. Print Assumptions C89_parallel. Print Assumptions C89_value. Print Assumptions C89_own_objects. Print Assumptions C89_euler. Print Assumptions C89_shared_refuted. Print Assumptions C89_example.
