(** Concrete augmented-Lagrangian solver states (rational arithmetic). *)
From Coq Require Import ZArith QArith String List Bool.
From Verif Require Import Base Lin ConModel LogModel StatsModel TrajModel IlqrModel IlqrSpec CostInst AlModel IlqrExamples.
Import ListNotations.

Definition al_solver (o : Opts QS) (x0 : q) (us : list q) (ks : list (Dyn QS * (UCost QS * list (Con QS) * list (Con QS)))) : ALS QS :=
  let a := as_make 1 1 (length us) (cst x0) ks in
  mkALS (il_set_opts (il_set_trajectory (map (ex_kp zero) us ++ [mkKP (cst zero) (cst zero) one zero]) (as_il a)) o) (as_status a).
(** constraint a x + b u + c *)
Definition lin_con (a b c : q) : Con QS := mkCon (F:=QS) 1
  (fun x u _ _ => add (add (mul a (x 0%nat)) (mul b (u 0%nat))) c) (fun _ _ _ _ j => match j with O => a | _ => b end) "lin".

(** minimise u^2/2 + 3/2 x_1^2, x_1 = 1 + u, subject to x_1 = 0 *)
Definition ex_al : ALS QS :=
  al_solver (ex_opts 300 10 (lit 1 10000) (lit 1 100) (lit 16 10) (ofZ 100000000) zero 5 20) (1%Q : q) [0%Q : q]
    [(ex_dyn, (ex_quad (1%Q : q) (1%Q : q) zero, [], [])); (ex_dyn, (ex_quad zero zero (3%Q : q), [lin_con one zero zero], []))].
Definition ex_al_result := get_ok ex_al (as_solve 1 1 true 3 ex_al).
Lemma ex_al_solves : as_solve 1 1 true 3 ex_al = Ok ex_al_result.
Proof. apply is_ok_get. vm_compute. reflexivity. Qed.
Definition au_at (a : ALS QS) (k : nat) : q :=
  match il_Z (as_il a) with Some Z => match nth_error Z k with Some z => z_u z 0%nat | None => zero end | None => zero end.
Definition ax_at (a : ALS QS) (k : nat) : q :=
  match il_Z (as_il a) with Some Z => match nth_error Z k with Some z => z_x z 0%nat | None => zero end | None => zero end.

(** cost 100000 (u - 1/1000)^4 + 3/2000 u with its exact derivatives, u <= -1/2000 *)
Definition ex_quart : UCost QS := mkUCost (F:=QS)
  (fun x u => let e := sub (u 0%nat) (lit (F:=QS) 1 1000) in add (mul (ofZ 100000) (mul (mul e e) (mul e e))) (mul (lit (F:=QS) 3 2000) (u 0%nat)))
  (fun x u _ => let e := sub (u 0%nat) (lit (F:=QS) 1 1000) in (fun _ => zero, fun _ => add (mul (ofZ 400000) (mul e (mul e e))) (lit (F:=QS) 3 2000)))
  (fun x u _ => let e := sub (u 0%nat) (lit (F:=QS) 1 1000) in (fun _ _ => zero, fun _ _ => zero, fun _ _ => mul (ofZ 1200000) (mul e e))).
Definition ex_c15 : ALS QS :=
  al_solver (ex_opts 300 100 (lit 1 10000) (lit 1 100) (lit 16 10) (ofZ 100000000) (lit 1 100000000) 5 1) zero [(1 # 1000)%Q : q]
    [(ex_dyn, (ex_quart, [], [lin_con zero one (1 # 2000)%Q])); (ex_dyn, (ex_quad zero zero zero, [], []))].
Definition ex_c15_result := get_ok ex_c15 (as_solve 1 1 true 3 ex_c15).
