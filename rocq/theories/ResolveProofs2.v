(** Proofs: solving the same task again with the same solver. *)
From Coq Require Import ZArith String List Bool Lia.
From Verif Require Import Base Lin LogModel StatsModel StatsSpec StatsProofs TrajModel IlqrModel IlqrSpec IlqrFrame IlqrProofs IlqrProofs2 IlqrProofs3 AlProofs AlTotal ResolveSpec ResolveProofs.
Import ListNotations.
Local Open Scope Z_scope.

Section Again.
Context {F : Scalar} {CS : Type} (ops : CostOps F CS) (n m : nat) (cb : list CS -> F).
Lemma solve_x0 debug fuel (s r : ILQR F CS) : il_solve ops n m cb debug fuel s = Ok r -> il_x0_set r = il_x0_set s.
Proof.
  unfold il_solve. destruct (il_begin ops n debug s) as [b| | | | |] eqn:E; try discriminate. cbn [bind]. intros H.
  rewrite <- (x0_begin ops n debug s b E). revert H. generalize (Z.to_nat (o_max_inner (il_opts b))). intros it. revert b E. 
  assert (G : forall it (b : ILQR F CS), il_loop ops n m cb fuel it b = Ok r -> il_x0_set r = il_x0_set b).
  { clear. induction it as [|it IH]; intros b H; cbn [il_loop] in H; [congruence|].
    destruct (il_iteration ops n m cb fuel b) as [[fin b1]| | | | |] eqn:E1; cbn [bind] in H; try discriminate.
    apply (x0_iteration ops n m cb) in E1. destruct fin; [congruence|]. rewrite (IH _ H). exact E1. }
  intros b _ H. eapply G; eauto.
Qed.
Context (Re : forall c x u, snd (co_eval ops c x u) = c) (Rg : forall c x u b, snd (co_grad ops c x u b) = c) (Rh : forall c x u b, snd (co_hess ops c x u b) = c).
Lemma again_task debug fuel Z (s r : ILQR F CS) : il_solve ops n m cb debug fuel s = Ok r -> same_task (il_set_trajectory Z s) (il_set_trajectory Z r).
Proof.
  intros E. destruct (solve_ready ops n m cb (fun a b => a = b) (fun c => eq_refl) (fun a b c (x : a = b) (y : b = c) => eq_trans x y)
    (fun c x u => eq_sym (Re c x u)) (fun c x u b => eq_sym (Rg c x u b)) (fun c x u b => eq_sym (Rh c x u b)) debug fuel s r E) as [_ [A B C D]].
  split; cbn; auto; [apply (solve_x0 debug fuel s r E)|exact (kps_dyns (fun a b : CS => a = b) _ _ D)|].
  clear - D. induction D as [|a b l l' [_ H] D IH]; [reflexivity|]. cbn. now rewrite <- H, IH.
Qed.
Theorem solve_again debug fuel Z (s r r' : ILQR F CS) : il_Z s = Some Z -> il_Zb s = Some (traj_set_zero Z) -> stats_ok (il_stats s) -> 0 < o_max_inner (il_opts s) ->
  st_total (il_stats s) + o_max_inner (il_opts s) <= o_max_total (il_opts s) -> st_total (il_stats r) + o_max_inner (il_opts s) <= o_max_total (il_opts s) ->
  first_step ops n m debug fuel s (st_back "cost" (il_stats s) = st_back "cost" (il_stats r)) ->
  il_solve ops n m cb debug fuel s = Ok r -> il_solve ops n m cb debug fuel (il_set_trajectory Z r) = Ok r' -> same_result r r'.
Proof.
  intros EZ EZb SO MI T T' FS E E'. pose proof (again_task debug fuel Z s r E) as ST.
  assert (SS : il_set_trajectory Z s = s). { unfold il_set_trajectory, il_set_Zb, il_set_Z. cbn. rewrite <- EZb, <- EZ. destruct s; reflexivity. }
  rewrite SS in ST. apply (resolve ops n m cb debug fuel s (il_set_trajectory Z r) r r'); auto. exact (solve_stats_ok ops n m cb debug fuel s r E SO).
Qed.
End Again.
