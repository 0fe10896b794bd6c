(** Property C59: the backtracking line search. *)
From Coq Require Import ZArith QArith String List Bool Lia.
From Verif Require Import Base Lin RLin ConModel LogModel StatsModel TrajModel IlqrModel IlqrSpec CostInst IlqrFrame IlqrProofs IlqrProofs4 IlqrProofs7 LsSpec IlqrExamples.
Import ListNotations.
Local Open Scope nat_scope.

(** ** C59 *)
(** The forward pass tries the steps 1, 1/g, 1/g^2, ... in this order, at most line_search_max_iterations of them, and takes the
    first that is not turned down.  The trajectory it then stores is the closed-loop simulation u' = u + K (x' - x) + alpha d with
    that step, it passed the acceptance test, and cost, step and ratio are recorded.  If all are turned down nothing changes. *)
Theorem C59_backtracking : forall (F : Scalar) CS (ops : CostOps F CS) n m Inv V, faithful_cost ops Inv V ->
  forall Z (s : ILQR F CS) Zb, il_Z s = Some Z -> il_Zb s = Some Zb ->
  length (il_kps s) = S (il_N s) -> length Z = S (il_N s) -> length Zb = S (il_N s) -> Forall (fun k => Inv (kp_cost k)) (il_kps s) ->
  let s3 := il_forward_pass ops n m Z s in let step := step_size (o_ls_factor (il_opts s)) in
  let J0 := lsum (il_costs s) in let tries := Z.to_nat (o_ls_iters (il_opts s)) in
  (il_Z s3 = Some Z /\ il_stats s3 = il_stats s /\ forall j, j < tries -> turned_down n m V s (times Zb) Z J0 (step j)) \/
  (exists k Z' z, k < tries /\ (forall j, j < k -> turned_down n m V s (times Zb) Z J0 (step j)) /\
     il_Z s3 = Some Z' /\ simulates n m s (times Zb) Z (step k) Z' /\ length Z' = length Z /\
     acceptable (il_opts s) (il_dV0 s) (il_dV1 s) J0 (total_cost V s Z') (step k) z /\
     il_stats s3 = st_logF "z" z (st_logF "alpha" (step k) (st_logF "cost" (total_cost V s Z') (il_stats s)))).
Proof. intros F CS ops n m Inv V HV Z s Zb H1 H2 H3 H4 H5 H6. exact (forward_search ops n m Inv V HV Z s Zb H1 H2 H3 H4 H5 H6). Qed.
(** the first three steps 1, 1/2, 1/4 overshoot the minimum of u^2 (curvature reported eight times too small); 1/8 hits it *)
Definition ex_back : ILQR QS (UCost QS) :=
  ex_solver (ex_opts 300 10 (lit 1 1000) (1%Q : q) (ofZ 2) (ofZ 100) zero 5 6) zero [1%Q : q]
    [(ex_dyn, ex_quad (2%Q : q) (1 # 4)%Q zero); (ex_dyn, ex_quad zero zero zero)].
Definition ex_back_b := get_ok ex_back (il_begin ucost_ops 1 true ex_back).
Definition ex_back_1 := snd (get_ok (true, ex_back) (il_iteration ucost_ops 1 1 no_viol 2 ex_back_b)).
Example C59_example : match il_Z ex_back_1 with Some (z :: _) => z_u z 0 | _ => 7%Q end = 0%Q /\
  st_back2 "alpha" (il_stats ex_back_1) = Ok (1 # 8)%Q /\ st_back2 "z" (il_stats ex_back_1) = Ok (8 # 15)%Q /\ step_size (F:=QS) (2%Q : q) 3 = (1 # 8)%Q.
Proof. vm_compute. repeat split. Qed.

Print Assumptions C59_backtracking.
