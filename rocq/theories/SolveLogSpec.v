(** What a solve writes to the log: the calls on the statistics object, in order. *)
From Coq Require Import ZArith String List Bool.
From Verif Require Import Base Lin LogModel StatsModel StatsSpec TrajModel IlqrModel ConModel CostInst AlModel.
Import ListNotations.
Local Open Scope Z_scope.

Section Spec.
Context {F : Scalar}.
(** one iteration of the inner solver: regularisation, accepted step (cost, step length, ratio of actual and expected decrease), decrease, violation,
    gradient and total iteration count *)
Record IterRec := mkIR { ir_reg : F; ir_step : option (F * F * F); ir_dJ : F; ir_viol : F; ir_total : Z; ir_grad : F }.
Definition logF (t : string) (x : F) : slop F := SlOp (StLogF t x).
Definition logZ (t : string) (z : Z) : slop F := SlOp (StLogZ t z).
Definition inner_calls (verbose : Z) (r : IterRec) : list (slop F) :=
  logF "reg" (ir_reg r) ::
  match ir_step r with Some (J, a, z) => [logF "cost" J; logF "alpha" a; logF "z" z] | None => [] end ++
  [logF "dJ" (ir_dJ r); logF "viol" (ir_viol r); logZ "iters" (ir_total r); logF "grad" (ir_grad r); SlOp StNew] ++
  (if kInner <=? verbose then [SlPrint] else []).
(** a whole inner solve: the verbosity of the options is put in force, then the iterations *)
Definition solve_calls (verbose : Z) (rs : list IterRec) : list (slop F) := SlVerb verbose :: flat_map (inner_calls verbose) rs.
(** one iteration of the outer solver: its inner solve, violation, penalty and number; a row below the inner level, otherwise a new header unless
    it was the last one *)
Record OuterRec := mkOR { or_inner : list IterRec; or_viol : F; or_pen : F; or_number : Z; or_last : bool }.
Definition outer_calls (verbose : Z) (r : OuterRec) : list (slop F) :=
  solve_calls verbose (or_inner r) ++ [logF "viol" (or_viol r); logF "pen" (or_pen r); logZ "iter_al" (or_number r)] ++
  (if kInner <=? verbose then (if or_last r then [] else [SlHeader]) else [SlPrint]).
Definition al_calls (o : Opts F) (v0 p0 : F) (rs : list OuterRec) : list (slop F) :=
  [SlOp (StReset o); logZ "iter_al" 0; logF "viol" v0; logF "pen" p0] ++ flat_map (outer_calls (o_verbose o)) rs.
(** the same log, recordings and console output; the counters are not part of it *)
Definition same_log (a b : Stats F) : Prop := st_log b = st_log a /\ st_ser b = st_ser a /\ st_len b = st_len a /\ st_out b = st_out a.
(** the statistics object [st] is what the calls [ops] make of a new one *)
Definition history (debug : bool) (ops : list (slop F)) (st : Stats F) : Prop := exists st0, sl_run debug ops st_new = Ok st0 /\ same_log st0 st.
Definition is_data (l : line F) : bool := match l with LData _ => true | _ => false end.
(** number of table rows on the console *)
Definition rows (out : list (line F)) : nat := length (filter is_data out).
(** rows printed by a list of calls from level [l] on: one per print at a positive level *)
Fixpoint row_count (l : Z) (ops : list (slop F)) : nat :=
  match ops with
  | [] => 0
  | SlVerb l' :: r => row_count l' r
  | SlOp (StReset o) :: r => row_count (o_verbose o) r
  | SlPrint :: r => (if (1 <=? l)%Z then 1 else 0) + row_count l r
  | _ :: r => row_count l r
  end%nat.
(** actual decrease over the decrease predicted by [dV0], [dV1] for step length [a]; -1 when none is predicted *)
Definition ratio (dV0 dV1 J0 J a : F) : F :=
  let e := mul (opp a) (add dV0 (mul a dV1)) in if ltb zero e then div (sub J0 J) e else opp one.
End Spec.
(** the record [r] of the iteration that led from [s] to [s1]: regularisation of the backward pass, before it is decreased; cost, step length and
    ratio of the accepted candidate; decrease, violation, iteration number and gradient of the state after the iteration *)
Definition describes {F : Scalar} {CS} (ops : CostOps F CS) n m (cb : list CS -> F) fuel (s s1 : ILQR F CS) (r : IterRec) : Prop :=
  (exists Z q s2, il_Z s = Some Z /\ il_backward_pass n m fuel (il_update_expansions ops n m Z s) = Ok s2 /\ s2 = il_decrease_reg q /\ ir_reg r = il_rho q /\
    match ir_step r with
    | Some (J, a, z) => J = lsum (il_costs s1) /\ z = ratio (il_dV0 s2) (il_dV1 s2) (lsum (il_costs s2)) J a /\
        exists (ks : list (KPF F CS)) Zb Z1, map (fun k => (kp_dyn k, kp_K k, kp_d k)) ks = map (fun k => (kp_dyn k, kp_K k, kp_d k)) (il_kps s2) /\
          roll_closed n m (il_opts s) a (vstore n (il_x0 s2)) ks Z Zb = (None, Z1) /\ il_Z s1 = Some Z1
    | None => il_Z s1 = Some Z
    end) /\
  st_back "dJ" (il_stats s1) = Ok (ir_dJ r) /\ ir_viol r = cb (map kp_cost (il_kps s1)) /\ ir_total r = st_total (il_stats s1) /\
  ir_grad r = div (lsum (il_grad s1)) (ofZ (Z.of_nat (length (il_grad s1)))).
(** consecutive iterations and their records *)
Inductive iterations {F : Scalar} {CS} (ops : CostOps F CS) n m cb fuel : ILQR F CS -> list IterRec -> ILQR F CS -> Prop :=
| its_nil s : iterations ops n m cb fuel s [] s
| its_cons s fin s1 r rs s' : il_iteration ops n m cb fuel s = Ok (fin, s1) -> describes ops n m cb fuel s s1 r ->
    iterations ops n m cb fuel s1 rs s' -> iterations ops n m cb fuel s (r :: rs) s'.
(** the record [r] of an outer iteration from [s]: the records of its inner solve, and the violation and penalty after the update of the multipliers *)
Definition describes_outer {F : Scalar} n m debug fuel (s : ILQR F (ALCost F)) (r : OuterRec) : Prop :=
  exists b s1, il_begin al_ops n debug s = Ok b /\ iterations al_ops n m als_max_violation fuel b (or_inner r) s1 /\
    il_solve al_ops n m als_max_violation debug fuel s = Ok s1 /\
    or_viol r = als_max_violation (il_costobjs (il_map_costobjs al_update_duals s1)) /\ or_pen r = als_max_penalty (il_costobjs (il_map_costobjs al_update_duals s1)).
Inductive outers {F : Scalar} n m debug fuel : ILQR F (ALCost F) -> list OuterRec -> ILQR F (ALCost F) -> Prop :=
| outs_nil s : outers n m debug fuel s [] s
| outs_cons s d s1 r rs s' : as_iteration n m debug fuel s = Ok (d, s1) -> describes_outer n m debug fuel s r -> or_last r = (match d with Some _ => true | None => false end) ->
    outers n m debug fuel s1 rs s' -> outers n m debug fuel s (r :: rs) s'.
Arguments IterRec F : clear implicits. Arguments OuterRec F : clear implicits.
