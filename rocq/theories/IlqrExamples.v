(** Small concrete solver states (rational arithmetic) used by the iLQR examples and refutations. *)
From Coq Require Import ZArith QArith String List Bool.
From Verif Require Import Base Lin ConModel LogModel StatsModel TrajModel IlqrModel IlqrSpec CostInst.
Import ListNotations.

Definition is_ok {A} (r : res A) : bool := match r with Ok _ => true | _ => false end.
Definition get_ok {A} (d : A) (r : res A) : A := match r with Ok a => a | _ => d end.
Lemma is_ok_get {A} (d : A) r : is_ok r = true -> r = Ok (get_ok d r).
Proof. destruct r; easy. Qed.

Lemma is_ok_pair {A} (d : bool * A) b r : is_ok r = true -> fst (get_ok d r) = b -> r = Ok (b, snd (get_ok d r)).
Proof. destruct r as [[b' a]| | | | |]; simpl; intros H E; try discriminate. now subst. Qed.

Lemma solve_two {F CS} (ops : CostOps F CS) n m cb debug fuel (s0 b s1 s2 : ILQR F CS) k : il_begin ops n debug s0 = Ok b ->
  Z.to_nat (o_max_inner (il_opts b)) = S (S k) -> il_iteration ops n m cb fuel b = Ok (false, s1) ->
  il_iteration ops n m cb fuel s1 = Ok (true, s2) -> il_solve ops n m cb debug fuel s0 = Ok s2.
Proof. intros H1 H2 H3 H4. unfold il_solve. rewrite H1. simpl. rewrite H2. simpl. rewrite H3. simpl. rewrite H4. reflexivity. Qed.

Lemma get_traj {F CS} (s : ILQR F CS) : (match il_Z s with Some _ => true | None => false end) = true ->
  il_Z s = Some (match il_Z s with Some Z => Z | None => [] end).
Proof. destruct (il_Z s); easy. Qed.

Notation q := (T QS).
(** one state, one control: x' = x + u *)
Definition ex_dyn : Dyn QS := mkDyn (F:=QS) (fun x u _ _ b i => match i with O => add (x 0%nat) (u 0%nat) | _ => b i end)
  (fun _ _ _ _ _ => fun i j => one).
(** x' = 0 *)
Definition ex_dyn0 : Dyn QS := mkDyn (F:=QS) (fun x u _ _ b i => match i with O => zero | _ => b i end) (fun _ _ _ _ _ => fun i j => zero).
(** cost a u^2 / 2 + c x^2 / 2 whose reported second derivatives in u is [h] *)
Definition ex_quad (a h c : q) : UCost QS := mkUCost (F:=QS)
  (fun x u => add (mul half (mul a (mul (u 0%nat) (u 0%nat)))) (mul half (mul c (mul (x 0%nat) (x 0%nat)))))
  (fun x u _ => (fun _ => mul c (x 0%nat), fun _ => mul a (u 0%nat)))
  (fun x u _ => (fun _ _ => c, fun _ _ => zero, fun _ _ => h)).
Definition cst (v : q) : vec QS := fun _ => v.
Definition no_viol (_ : list (UCost QS)) : q := zero.
(** solver options that differ from the defaults in the regularisation, line search and limits *)
Definition ex_opts (max_total max_inner : Z) (ctol gtol rfac rmax rmin : q) (rfail ls_iters : Z) : Opts QS :=
  mkOpts (F:=QS) max_total 30 max_inner ctol gtol rfac zero rmax rmin rfail true (ofZ 100000000) (ofZ 100000000) ls_iters
    (lit 1 100000000) (ofZ 10) (ofZ 2) (lit 1 10000) (ofZ 100000000) one true 10 kSilent 1 1.
Definition ex_kp (x u : q) : KP QS := mkKP (cst x) (cst u) zero one.
Definition ex_solver (o : Opts QS) (x0 : q) (us : list q) (ks : list (Dyn QS * UCost QS)) : ILQR QS (UCost QS) :=
  il_set_opts (il_set_trajectory (map (ex_kp zero) us ++ [mkKP (cst zero) (cst zero) one zero]) (il_make (length us) (cst x0) ks)) o.

(** linear-quadratic problem: minimise u^2/2 + 3/2 x_1^2, x_1 = 1 + u *)
Definition ex_lq : ILQR QS (UCost QS) :=
  ex_solver (ex_opts 2 10 (lit 1 1000) (lit 1 1000) (lit 16 10) (ofZ 100) zero 5 3) (1%Q : q) [0%Q : q]
    [(ex_dyn, ex_quad (1%Q : q) (1%Q : q) zero); (ex_dyn, ex_quad zero zero (3%Q : q))].
Definition ex_lq_result := get_ok ex_lq (il_solve ucost_ops 1 1 no_viol true 3 ex_lq).
Lemma ex_lq_solves : il_solve ucost_ops 1 1 no_viol true 3 ex_lq = Ok ex_lq_result.
Proof. apply is_ok_get. vm_compute. reflexivity. Qed.
Definition u_at (s : ILQR QS (UCost QS)) (k : nat) : q :=
  match il_Z s with Some Z => match nth_error Z k with Some z => z_u z 0%nat | None => zero end | None => zero end.
Definition x_at (s : ILQR QS (UCost QS)) (k : nat) : q :=
  match il_Z s with Some Z => match nth_error Z k with Some z => z_x z 0%nat | None => zero end | None => zero end.
Example ex_lq_values : il_status ex_lq_result = kSolved /\ st_inner (il_stats ex_lq_result) = 2%Z /\
  u_at ex_lq_result 0 = (-3 # 4)%Q /\ x_at ex_lq_result 1 = (1 # 4)%Q /\ x_at ex_lq_result 0 = 1%Q.
Proof. vm_compute. repeat split. Qed.

(** cost u^2 with second derivative reported as 1/4: the first line search fails, the second succeeds *)
Definition ex_stale : ILQR QS (UCost QS) :=
  ex_solver (ex_opts 300 10 (lit 1 1000) (1%Q : q) (ofZ 2) (ofZ 100) one 5 1) zero [1%Q : q]
    [(ex_dyn, ex_quad (2%Q : q) (1 # 4)%Q zero); (ex_dyn, ex_quad zero zero zero)].
Definition ex_stale_b := get_ok ex_stale (il_begin ucost_ops 1 true ex_stale).
Definition ex_stale_1 := snd (get_ok (true, ex_stale) (il_iteration ucost_ops 1 1 no_viol 2 ex_stale_b)).
Definition ex_stale_2 := snd (get_ok (true, ex_stale) (il_iteration ucost_ops 1 1 no_viol 2 ex_stale_1)).

(** a stage whose control Hessian is -1: no admissible regularisation makes it positive *)
Definition ex_regfail : ILQR QS (UCost QS) :=
  ex_solver (ex_opts 300 10 (lit 1 1000) (lit 1 1000) (ofZ 2) (1 # 2)%Q (1 # 4)%Q 1 3) zero [zero]
    [(ex_dyn, ex_quad (-(1))%Q (-(1))%Q zero); (ex_dyn, ex_quad zero zero zero)].
Definition ex_regfail_b := get_ok ex_regfail (il_begin ucost_ops 1 true ex_regfail).

(** two stages with control Hessians -1 and 1: the first attempt fails at k = 0 after k = 1 succeeded *)
Definition ex_restart : ILQR QS (UCost QS) :=
  ex_solver (ex_opts 300 10 (lit 1 1000) (lit 1 1000) (ofZ 2) (ofZ 100) (5 # 4)%Q 5 3) zero [1%Q : q; 1%Q : q]
    [(ex_dyn0, ex_quad (1%Q : q) (-(1))%Q zero); (ex_dyn0, ex_quad (1%Q : q) (1%Q : q) zero); (ex_dyn0, ex_quad zero zero zero)].
Definition ex_restart_e := match il_Z ex_restart with Some Z => il_update_expansions ucost_ops 1 1 Z ex_restart | None => ex_restart end.
Definition ex_restart_2 := get_ok ex_restart (il_backward_pass 1 1 5 ex_restart_e).

(** the linear-quadratic problem solved a second time from the same guess *)
Definition ex_lq_guess : Traj QS := match il_Z ex_lq with Some Z => Z | None => [] end.
Definition ex_lq_again := il_set_trajectory ex_lq_guess ex_lq_result.
Definition ex_lq_result2 := get_ok ex_lq (il_solve ucost_ops 1 1 no_viol true 3 ex_lq_again).
