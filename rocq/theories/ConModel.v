(** Cones, constraint values and the augmented-Lagrangian cost.
    altro/constraints/constraint.hpp, altro/constraints/constraint_values.hpp,
    altro/augmented_lagrangian/al_cost.hpp, and the constraint part of
    altro/augmented_lagrangian/al_solver.hpp. Definitions only. *)
From Coq Require Import String ZArith List Bool.
From Verif Require Import Base Lin.
Import ListNotations.
Local Open Scope list_scope.

(** constraint.hpp:28-50 ZeroCone (= Equality), 65-87 IdentityCone, 98-123 NegativeOrthant (= Inequality). *)
Inductive cone := ZeroCone | IdentityCone | NegativeOrthant.
Definition Equality := ZeroCone.
Definition Inequality := NegativeOrthant.

(** constraint.hpp:31, 68, 101: the [DualCone] aliases. *)
Definition dual_cone (K : cone) : cone :=
  match K with
  | ZeroCone => IdentityCone
  | IdentityCone => ZeroCone
  | NegativeOrthant => NegativeOrthant
  end.

(** constraint.hpp:205-213 (class Constraint) GetConstraintType. *)
Definition constraint_type_name (K : cone) : string :=
  match K with
  | ZeroCone => "Equality Constraint"
  | NegativeOrthant => "Inequality Constraint"
  | IdentityCone => "Undefined Constraint Type"
  end%string.

Section Con.
Context {F : Scalar}.

(** ZeroCone::Projection 33-37, IdentityCone::Projection 70-73, NegativeOrthant::Projection 103-108
    ([std::min(0.0, x(i))]).  The output does not depend on the output buffer. *)
Definition cone_proj (K : cone) (p : nat) (x : vec F) : vec F :=
  match K with
  | ZeroCone => vstore p vzero
  | IdentityCone => vstore p x
  | NegativeOrthant => vstore p (fun i => smin zero (x i))
  end.

(** ZeroCone::Jacobian 38-41, IdentityCone::Jacobian 74-78, NegativeOrthant::Jacobian 109-114.
    NegativeOrthant::Jacobian writes ONLY the diagonal: the other entries keep the old buffer. *)
Definition cone_jac (K : cone) (p : nat) (x : vec F) (old : mat F) : mat F :=
  match K with
  | ZeroCone => mstore p p mzero
  | IdentityCone => mstore p p mident
  | NegativeOrthant =>
      mstore p p (fun i j => if Nat.eqb i j then (if ltb zero (x i) then zero else one) else old i j)
  end.

(** Hessian of the projection: 42-48, 79-85, 115-121. *)
Definition cone_hess (K : cone) (p : nat) (x b : vec F) (old : mat F) : mat F := mstore p p mzero.

(** A user constraint (constraint.hpp:169-216, FunctionBase): [con_eval]/[con_jac] receive the old
    contents of the output buffer and return the new contents.
    Simplification: constraint objects are stateless. *)
Record Con := mkCon {
  con_dim : nat;
  con_eval : vec F -> vec F -> vec F -> vec F;      (** x u c_old *)
  con_jac : vec F -> vec F -> mat F -> mat F;       (** x u jac_old, p x (n+m) *)
  con_label : string
}.

(** constraint_values.hpp:258-274.  [hess_] is never used.  [lambda_proj_], [c_proj_], [jac_proj_] are
    always overwritten before being read, so they are not part of the state; [proj_jac_] is, because
    NegativeOrthant::Jacobian does not overwrite it. *)
Record CV := mkCV {
  cv_n : nat; cv_m : nat; cv_type : cone; cv_con : Con;
  cv_c : vec F; cv_lam : vec F; cv_pen : vec F; cv_jac : mat F; cv_pjac : mat F; cv_scal : F
}.
Definition cv_p (v : CV) : nat := con_dim (cv_con v).

(** constraint_values.hpp:39-51, penalty_scaling_ = 10 (line 30, 273). *)
Definition cv_make (n m : nat) (K : cone) (con : Con) : CV :=
  mkCV n m K con (vstore (con_dim con) vzero) (vstore (con_dim con) vzero)
       (vstore (con_dim con) (fun _ => one)) (mstore (con_dim con) (n + m) mzero)
       (mstore (con_dim con) (con_dim con) mzero) (ofZ 10).

Definition set_c (v : CV) c := mkCV (cv_n v) (cv_m v) (cv_type v) (cv_con v) c (cv_lam v) (cv_pen v) (cv_jac v) (cv_pjac v) (cv_scal v).
Definition set_lam (v : CV) l := mkCV (cv_n v) (cv_m v) (cv_type v) (cv_con v) (cv_c v) l (cv_pen v) (cv_jac v) (cv_pjac v) (cv_scal v).
Definition set_pen (v : CV) r := mkCV (cv_n v) (cv_m v) (cv_type v) (cv_con v) (cv_c v) (cv_lam v) r (cv_jac v) (cv_pjac v) (cv_scal v).
Definition set_jac (v : CV) j := mkCV (cv_n v) (cv_m v) (cv_type v) (cv_con v) (cv_c v) (cv_lam v) (cv_pen v) j (cv_pjac v) (cv_scal v).
Definition set_pjac (v : CV) j := mkCV (cv_n v) (cv_m v) (cv_type v) (cv_con v) (cv_c v) (cv_lam v) (cv_pen v) (cv_jac v) j (cv_scal v).
Definition set_scal (v : CV) s := mkCV (cv_n v) (cv_m v) (cv_type v) (cv_con v) (cv_c v) (cv_lam v) (cv_pen v) (cv_jac v) (cv_pjac v) s.

(** constraint_values.hpp:63-67 GetViolation *)
Definition cv_violation (v : CV) : vec F :=
  vstore (cv_p v) (vsub (cv_c v) (cone_proj (cv_type v) (cv_p v) (cv_c v))).

(** constraint_values.hpp:79-82 SetPenalty, with its debug assertion *)
Definition cv_set_penalty (debug : bool) (rho : F) (v : CV) : res CV :=
  do _ <- altro_assert debug (leb zero rho);
  Ok (set_pen v (vstore (cv_p v) (fun _ => rho))).
(** constraint_values.hpp:84-87 SetPenaltyScaling *)
Definition cv_set_scaling (debug : bool) (phi : F) (v : CV) : res CV :=
  do _ <- altro_assert debug (leb one phi);
  Ok (set_scal v phi).

(** con_->Evaluate(x, u, c_) *)
Definition cv_eval_c (v : CV) (x u : vec F) : CV :=
  set_c v (vstore (cv_p v) (con_eval (cv_con v) x u (cv_c v))).
(** con_->Jacobian(x, u, jac_) *)
Definition cv_eval_jac (v : CV) (x u : vec F) : CV :=
  set_jac v (mstore (cv_p v) (cv_n v + cv_m v) (con_jac (cv_con v) x u (cv_jac v))).
(** constraint_values.hpp:249-252 CalcExpansion *)
Definition cv_calc_expansion (v : CV) (x u : vec F) : CV := cv_eval_jac (cv_eval_c v x u) x u.

(** [lambda_ - rho * c_] with rho = penalty_(0) *)
Definition cv_shift (v : CV) : vec F :=
  vstore (cv_p v) (fun i => sub (cv_lam v i) (mul (cv_pen v 0) (cv_c v i))).

(** constraint_values.hpp:111-119 AugLag.
    [penalty_(0)] is out of range for a constraint of dimension 0: see [cv_auglag_checked]. *)
Definition cv_auglag (v : CV) (x u : vec F) : F * CV :=
  let rho := cv_pen v 0 in
  let v1 := cv_eval_c v x u in
  let lp := cone_proj (dual_cone (cv_type v)) (cv_p v) (cv_shift v1) in
  let J := sub (sqnorm (cv_p v) lp) (sqnorm (cv_p v) (cv_lam v)) in
  (div J (mul two rho), v1).
(** Reading element 0 of an empty Eigen vector is out of range. *)
Definition cv_auglag_checked (v : CV) (x u : vec F) : res (F * CV) :=
  if Nat.eqb (cv_p v) 0 then UB else Ok (cv_auglag v x u).

(** proj_jac_ * jac_ restricted to the p x (n+m) storage *)
Definition cv_pj (v : CV) : mat F :=
  mstore (cv_p v) (cv_n v + cv_m v) (mm (cv_p v) (cv_pjac v) (cv_jac v)).

(** constraint_values.hpp:131-143 AugLagGradient; topLeftCorner(p,n) / topRightCorner(p,m) *)
Definition cv_grad_core (v : CV) (x u : vec F) : CV :=
  let v2 := cv_eval_jac (cv_eval_c v x u) x u in
  set_pjac v2 (cone_jac (dual_cone (cv_type v2)) (cv_p v2) (cv_shift v2) (cv_pjac v2)).
Definition cv_gradient (v : CV) (x u : vec F) : (vec F * vec F) * CV :=
  let v3 := cv_grad_core v x u in
  let lp := cone_proj (dual_cone (cv_type v3)) (cv_p v3) (cv_shift v3) in
  let pj := cv_pj v3 in
  ((vstore (cv_n v3) (fun j => sumn (cv_p v3) (fun i => mul (opp (pj i j)) (lp i))),
    vstore (cv_m v3) (fun j => sumn (cv_p v3) (fun i => mul (opp (pj i (cv_n v3 + j))) (lp i)))), v3).

(** constraint_values.hpp:156-177 AugLagHessian; throws after writing when [full_newton]. *)
Definition cv_hessian_core (v : CV) (x u : vec F) : (mat F * mat F * mat F) * CV :=
  let v3 := cv_grad_core v x u in
  let rho := cv_pen v 0 in
  let pj := cv_pj v3 in
  let n := cv_n v3 in let m := cv_m v3 in let p := cv_p v3 in
  let blk a b := fun i j => sumn p (fun l => mul (mul rho (pj l (a + i))) (pj l (b + j))) in
  ((mstore n n (blk 0 0), mstore n m (blk 0 n), mstore m m (blk n n)), v3).
Definition cv_hessian (full_newton : bool) (v : CV) (x u : vec F) : res ((mat F * mat F * mat F) * CV) :=
  if full_newton then Throw else Ok (cv_hessian_core v x u).

(** constraint_values.hpp:192-194 UpdateDuals; the argument expression is evaluated into a temporary
    (Eigen::Ref<const VectorXd> of an expression) before lambda_ is written. *)
Definition cv_update_duals (v : CV) : CV :=
  set_lam v (cone_proj (dual_cone (cv_type v)) (cv_p v)
               (vstore (cv_p v) (fun i => sub (cv_lam v i) (mul (cv_pen v i) (cv_c v i))))).
(** constraint_values.hpp:202-207 UpdatePenalties *)
Definition cv_update_penalties (v : CV) : CV :=
  set_pen v (vstore (cv_p v) (fun i => mul (cv_pen v i) (cv_scal v))).
(** constraint_values.hpp:215-220 MaxViolation<Infinity> *)
Definition cv_max_violation (v : CV) : F := linf (cv_p v) (cv_violation v).
(** constraint_values.hpp:227 MaxPenalty *)
Definition cv_max_penalty (v : CV) : F := maxcoeff (cv_p v) (cv_pen v).
(** constraint_values.hpp:254-256 *)
Definition cv_reset_duals (v : CV) : CV := set_lam v (vstore (cv_p v) vzero).

(** A user cost function (problem/costfunction.hpp:52-60): Evaluate / Gradient / Hessian, the last two
    receiving the old contents of the output buffers.  Simplification: stateless. *)
Record UCost := mkUCost {
  uc_eval : vec F -> vec F -> F;
  uc_grad : vec F -> vec F -> vec F * vec F -> vec F * vec F;
  uc_hess : vec F -> vec F -> mat F * mat F * mat F -> mat F * mat F * mat F
}.

(** al_cost.hpp:416-438.  costfun_ is non-null for every ALCost built from a Problem (line 55, 115);
    the null case is not modelled.  The *_tmp_ buffers are always written before being read.
    full_newton_ is the constant false (line 425). *)
Record ALCost := mkALCost {
  al_n : nat; al_m : nat; al_cost : UCost; al_eq : list CV; al_ineq : list CV
}.

(** al_cost.hpp:53-61, 136-160, 394-402: one fresh ConstraintValues per constraint, in order. *)
Definition al_make (n m : nat) (cost : UCost) (eqs ineqs : list Con) : ALCost :=
  mkALCost n m cost (map (cv_make n m Equality) eqs) (map (cv_make n m Inequality) ineqs).

Definition al_cvs (a : ALCost) : list CV := al_eq a ++ al_ineq a.
Definition al_set (a : ALCost) (e i : list CV) : ALCost := mkALCost (al_n a) (al_m a) (al_cost a) e i.
Definition al_map (f : CV -> CV) (a : ALCost) : ALCost := al_set a (map f (al_eq a)) (map f (al_ineq a)).

(** al_cost.hpp:79-88 NumConstraints *)
Definition al_num_constraints (a : ALCost) : nat :=
  fold_left (fun p v => p + cv_p v) (al_ineq a) (fold_left (fun p v => p + cv_p v) (al_eq a) 0).

(** al_cost.hpp:264-274 Evaluate *)
Fixpoint al_eval_loop (J : F) (l : list CV) (x u : vec F) : F * list CV :=
  match l with
  | [] => (J, [])
  | v :: r =>
      let (jv, v') := cv_auglag v x u in
      let (J', r') := al_eval_loop (add J jv) r x u in
      (J', v' :: r')
  end.
Definition al_eval (a : ALCost) (x u : vec F) : F * ALCost :=
  let J := uc_eval (al_cost a) x u in
  let (J1, e) := al_eval_loop J (al_eq a) x u in
  let (J2, i) := al_eval_loop J1 (al_ineq a) x u in
  (J2, al_set a e i).

(** al_cost.hpp:276-290 Gradient *)
Fixpoint al_grad_loop (n m : nat) (g : vec F * vec F) (l : list CV) (x u : vec F) : (vec F * vec F) * list CV :=
  match l with
  | [] => (g, [])
  | v :: r =>
      let (gv, v') := cv_gradient v x u in
      let g' := (vstore n (vadd (fst g) (fst gv)), vstore m (vadd (snd g) (snd gv))) in
      let (g'', r') := al_grad_loop n m g' r x u in
      (g'', v' :: r')
  end.
Definition al_gradient (a : ALCost) (x u : vec F) (old : vec F * vec F) : (vec F * vec F) * ALCost :=
  let g0 := uc_grad (al_cost a) x u old in
  let (g1, e) := al_grad_loop (al_n a) (al_m a) g0 (al_eq a) x u in
  let (g2, i) := al_grad_loop (al_n a) (al_m a) g1 (al_ineq a) x u in
  (g2, al_set a e i).

(** al_cost.hpp:292-308 Hessian (full_newton_ = false) *)
Fixpoint al_hess_loop (n m : nat) (h : mat F * mat F * mat F) (l : list CV) (x u : vec F)
  : (mat F * mat F * mat F) * list CV :=
  match l with
  | [] => (h, [])
  | v :: r =>
      let (hv, v') := cv_hessian_core v x u in
      let '(hxx, hxu, huu) := h in
      let '(vxx, vxu, vuu) := hv in
      let h' := (mstore n n (madd hxx vxx), mstore n m (madd hxu vxu), mstore m m (madd huu vuu)) in
      let (h'', r') := al_hess_loop n m h' r x u in
      (h'', v' :: r')
  end.
Definition al_hessian (a : ALCost) (x u : vec F) (old : mat F * mat F * mat F)
  : (mat F * mat F * mat F) * ALCost :=
  let h0 := uc_hess (al_cost a) x u old in
  let (h1, e) := al_hess_loop (al_n a) (al_m a) h0 (al_eq a) x u in
  let (h2, i) := al_hess_loop (al_n a) (al_m a) h1 (al_ineq a) x u in
  (h2, al_set a e i).

(** al_cost.hpp:314-321, 327-334, 372-379 *)
Definition al_update_duals (a : ALCost) : ALCost := al_map cv_update_duals a.
Definition al_update_penalties (a : ALCost) : ALCost := al_map cv_update_penalties a.
Definition al_reset_duals (a : ALCost) : ALCost := al_map cv_reset_duals a.

(** al_cost.hpp:343-353 MaxViolation<Infinity> *)
Definition al_max_violation (a : ALCost) : F :=
  let e := llinf (map cv_max_violation (al_eq a)) in
  let i := llinf (map cv_max_violation (al_ineq a)) in
  smax (sabs e) (sabs i).
(** al_cost.hpp:361-370 MaxPenalty *)
Definition al_max_penalty (a : ALCost) : F :=
  fold_left (fun r v => smax r (cv_max_penalty v)) (al_ineq a)
    (fold_left (fun r v => smax r (cv_max_penalty v)) (al_eq a) zero).

(** al_cost.hpp:171-195 SetPenalty<ConType>(rho, i) and SetPenalty<ConType>(rho); 206-231 for the scaling. *)
Definition al_list (K : cone) (a : ALCost) : list CV :=
  match K with ZeroCone => al_eq a | NegativeOrthant => al_ineq a | IdentityCone => [] end.
Definition al_set_list (K : cone) (a : ALCost) (l : list CV) : ALCost :=
  match K with
  | ZeroCone => al_set a l (al_ineq a)
  | NegativeOrthant => al_set a (al_eq a) l
  | IdentityCone => a
  end.
Definition al_upd_at (debug : bool) (f : CV -> res CV) (K : cone) (i : Z) (a : ALCost) : res ALCost :=
  let l := al_list K a in
  do _ <- altro_assert debug ((0 <=? i)%Z && (i <? Z.of_nat (length l))%Z);
  if (i <? 0)%Z then Throw                          (* vector::at *)
  else match nth_error l (Z.to_nat i) with
       | None => Throw                              (* vector::at *)
       | Some v => do v' <- f v; Ok (al_set_list K a (upd (Z.to_nat i) (fun _ => v') l))
       end.
Definition al_set_penalty_at (debug : bool) (K : cone) (rho : F) (i : Z) (a : ALCost) : res ALCost :=
  al_upd_at debug (cv_set_penalty debug rho) K i a.
Definition al_set_scaling_at (debug : bool) (K : cone) (phi : F) (i : Z) (a : ALCost) : res ALCost :=
  al_upd_at debug (cv_set_scaling debug phi) K i a.
Fixpoint for_res {A} (is : list nat) (f : nat -> A -> res A) (a : A) : res A :=
  match is with
  | [] => Ok a
  | i :: r => do a' <- f i a; for_res r f a'
  end.
Definition al_set_penalty (debug : bool) (K : cone) (rho : F) (a : ALCost) : res ALCost :=
  for_res (seq 0 (length (al_list K a))) (fun i => al_set_penalty_at debug K rho (Z.of_nat i)) a.
Definition al_set_scaling (debug : bool) (K : cone) (phi : F) (a : ALCost) : res ALCost :=
  for_res (seq 0 (length (al_list K a))) (fun i => al_set_scaling_at debug K phi (Z.of_nat i)) a.

(** ConstraintInfo (constraint.hpp:135-142): label, knot point index, violation vector (with its
    length), type name. *)
Record CInfo := mkCInfo { ci_label : string; ci_index : nat; ci_dim : nat; ci_viol : vec F; ci_type : string }.
(** constraint_values.hpp:69-71 *)
Definition cv_info (v : CV) : CInfo :=
  mkCInfo (con_label (cv_con v)) 0 (cv_p v) (cv_violation v) (constraint_type_name (cv_type v)).
(** al_cost.hpp:98-105 *)
Definition al_info (a : ALCost) (acc : list CInfo) : list CInfo :=
  (acc ++ map cv_info (al_eq a)) ++ map cv_info (al_ineq a).

(** * The part of AugmentedLagrangianiLQR (al_solver.hpp) acting on the vector [costs_] *)
(** al_solver.hpp:272-277, 280-285 *)
Definition als_set_penalty (debug : bool) (rho : F) (l : list ALCost) : res (list ALCost) :=
  let fix go l := match l with
    | [] => Ok []
    | a :: r => do a1 <- al_set_penalty debug Equality rho a;
                do a2 <- al_set_penalty debug Inequality rho a1;
                do r' <- go r; Ok (a2 :: r')
    end in go l.
Definition als_set_scaling (debug : bool) (phi : F) (l : list ALCost) : res (list ALCost) :=
  let fix go l := match l with
    | [] => Ok []
    | a :: r => do a1 <- al_set_scaling debug Equality phi a;
                do a2 <- al_set_scaling debug Inequality phi a1;
                do r' <- go r; Ok (a2 :: r')
    end in go l.
(** al_solver.hpp:417-424 GetMaxViolation *)
Definition als_max_violation (l : list ALCost) : F := llinf (map al_max_violation l).
(** al_solver.hpp:427-434 GetMaxPenalty *)
Definition als_max_penalty (l : list ALCost) : F :=
  fold_left (fun r a => smax r (al_max_penalty a)) l zero.
(** al_solver.hpp:262-269 NumConstraints *)
Definition als_num_constraints (l : list ALCost) : nat :=
  fold_left (fun c a => c + al_num_constraints a) l 0.

(** al_solver.hpp:86-104 GetConstraintInfo.  The index-fixing loop at 91-94 rewrites the indices of the
    entries appended for knot point [k]. *)
Definition ci_set_index (k : nat) (i : CInfo) : CInfo :=
  mkCInfo (ci_label i) k (ci_dim i) (ci_viol i) (ci_type i).
Fixpoint als_info_loop (k : nat) (i_last : nat) (l : list ALCost) (acc : list CInfo) : list CInfo :=
  match l with
  | [] => acc
  | a :: r =>
      let acc1 := al_info a acc in
      let acc2 := firstn i_last acc1 ++ map (ci_set_index k) (skipn i_last acc1) in
      als_info_loop (S k) (length acc2) r acc2
  end.
Definition ci_comp (a b : CInfo) : bool :=
  ltb (linf (ci_dim b) (ci_viol b)) (linf (ci_dim a) (ci_viol a)).   (* info1 > info2 *)
(** std::sort is modelled by insertion sort with the C++ comparator; std::sort is not stable, so only
    order-up-to-ties facts are meaningful. *)
Fixpoint ci_insert (a : CInfo) (l : list CInfo) : list CInfo :=
  match l with
  | [] => [a]
  | b :: r => if ci_comp b a then b :: ci_insert a r else a :: b :: r
  end.
Definition ci_sort (l : list CInfo) : list CInfo := fold_right ci_insert [] l.
Definition als_info (should_sort : bool) (l : list ALCost) : list CInfo :=
  let i := als_info_loop 0 0 l [] in
  if should_sort then ci_sort i else i.

End Con.
Arguments Con F : clear implicits.
Arguments CV F : clear implicits.
Arguments UCost F : clear implicits.
Arguments ALCost F : clear implicits.
Arguments CInfo F : clear implicits.
