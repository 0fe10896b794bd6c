(** Model of altro/ilqr: cost_expansion.hpp, dynamics_expansion.hpp, knot_point_function_type.hpp, ilqr.hpp.

    Simplifications: state and control dimensions n, m are the same at every knot point; the stopwatch calls
    are omitted; UpdateExpansions is the single-threaded branch (the multi-threaded branch is modelled in
    TaskModel.v and proved equal); user callbacks neither throw nor modify the solver. *)
From Coq Require Import ZArith String List Bool.
From Verif Require Import Base Lin LogModel StatsModel TrajModel.
Import ListNotations.

Section Ilqr.
Context {F : Scalar}.

(** problem/costfunction.hpp Evaluate/Gradient/Hessian.  A cost object may have internal state (ALCost does). *)
Record CostOps (CS : Type) := mkCostOps {
  co_eval : CS -> vec F -> vec F -> F * CS;
  co_grad : CS -> vec F -> vec F -> vec F * vec F -> (vec F * vec F) * CS;
  co_hess : CS -> vec F -> vec F -> mat F * mat F * mat F -> (mat F * mat F * mat F) * CS }.
Arguments co_eval {CS}. Arguments co_grad {CS}. Arguments co_hess {CS}.
(** problem/dynamics.hpp DiscreteDynamics: Evaluate writes xnext, Jacobian writes jac (both in-out) *)
Record Dyn := mkDyn {
  dy_eval : vec F -> vec F -> F -> F -> vec F -> vec F;
  dy_jac : vec F -> vec F -> F -> F -> mat F -> mat F }.

(** cost_expansion.hpp:136-141 *)
Record Exp := mkExp { e_xx : mat F; e_xu : mat F; e_uu : mat F; e_x : vec F; e_u : vec F }.
Definition exp_zero : Exp := mkExp mzero mzero mzero vzero vzero.

Context {CS : Type} (ops : CostOps CS).

(** knot_point_function_type.hpp:285-301 *)
Record KPF := mkKPF {
  kp_dyn : Dyn; kp_cost : CS;
  kp_ce : Exp; kp_jac : mat F; kp_q : Exp; kp_qr : Exp;
  kp_K : mat F; kp_d : vec F; kp_S : mat F; kp_s : vec F; kp_dv0 : F; kp_dv1 : F }.
(** knot_point_function_type.hpp:43-62, 269-276 constructor and Init *)
Definition kpf_make (dyn : Dyn) (c : CS) : KPF :=
  mkKPF dyn c exp_zero mzero exp_zero exp_zero mzero vzero mzero vzero zero zero.
Definition kpf_set_cost (c : CS) (k : KPF) : KPF :=
  mkKPF (kp_dyn k) c (kp_ce k) (kp_jac k) (kp_q k) (kp_qr k) (kp_K k) (kp_d k) (kp_S k) (kp_s k) (kp_dv0 k) (kp_dv1 k).

Context (n m : nat).

(** knot_point_function_type.hpp:80-83 Cost *)
Definition kpf_cost (k : KPF) (x u : vec F) : F * KPF :=
  let (J, c) := co_eval ops (kp_cost k) x u in (J, kpf_set_cost c k).
(** knot_point_function_type.hpp:94-98 Dynamics: the result lands in state storage *)
Definition kpf_dynamics (k : KPF) (x u : vec F) (t h : F) (xnext : vec F) : vec F :=
  vstore n (dy_eval (kp_dyn k) x u t h xnext).
(** knot_point_function_type.hpp:106-111 CalcCostExpansion; cost_expansion.hpp:118-133 *)
Definition kpf_cost_expansion (x u : vec F) (k : KPF) : KPF :=
  let (g, c1) := co_grad ops (kp_cost k) x u (vzero, vzero) in
  let '(h, c2) := co_hess ops c1 x u (mzero, mzero, mzero) in
  let '(hxx, hxu, huu) := h in
  mkKPF (kp_dyn k) c2
    (mkExp (mstore n n hxx) (mstore n m hxu) (mstore m m huu) (vstore n (fst g)) (vstore m (snd g)))
    (kp_jac k) (kp_q k) (kp_qr k) (kp_K k) (kp_d k) (kp_S k) (kp_s k) (kp_dv0 k) (kp_dv1 k).
(** knot_point_function_type.hpp:121-128; dynamics_expansion.hpp:42-47, 63 *)
Definition kpf_dyn_expansion (x u : vec F) (t h : F) (k : KPF) : KPF :=
  mkKPF (kp_dyn k) (kp_cost k) (kp_ce k) (mstore n (n + m) (dy_jac (kp_dyn k) x u t h mzero))
    (kp_q k) (kp_qr k) (kp_K k) (kp_d k) (kp_S k) (kp_s k) (kp_dv0 k) (kp_dv1 k).
(** dynamics_expansion.hpp:26-33 GetA, GetB *)
Definition kpf_A (k : KPF) : mat F := kp_jac k.
Definition kpf_B (k : KPF) : mat F := fun i j => kp_jac k i (n + j)%nat.
(** knot_point_function_type.hpp:135-138 CalcTerminalCostToGo *)
Definition kpf_terminal (k : KPF) : KPF :=
  mkKPF (kp_dyn k) (kp_cost k) (kp_ce k) (kp_jac k) (kp_q k) (kp_qr k) (kp_K k) (kp_d k)
    (e_xx (kp_ce k)) (e_x (kp_ce k)) (kp_dv0 k) (kp_dv1 k).
(** knot_point_function_type.hpp:149-164 CalcActionValueExpansion.  Products associate left: (A' S) A. *)
Definition kpf_action_value (S : mat F) (s : vec F) (k : KPF) : KPF :=
  let A := kpf_A k in let B := kpf_B k in let ce := kp_ce k in
  let AtS := mstore n n (mm n (mtr A) S) in
  let BtS := mstore m n (mm n (mtr B) S) in
  let q := mkExp
    (mstore n n (madd (e_xx ce) (mm n AtS A)))
    (mstore n m (madd (e_xu ce) (mm n AtS B)))
    (mstore m m (madd (e_uu ce) (mm n BtS B)))
    (vstore n (vadd (e_x ce) (mv n (mtr A) s)))
    (vstore m (vadd (e_u ce) (mv n (mtr B) s))) in
  mkKPF (kp_dyn k) (kp_cost k) ce (kp_jac k) q (kp_qr k) (kp_K k) (kp_d k) (kp_S k) (kp_s k) (kp_dv0 k) (kp_dv1 k).
(** knot_point_function_type.hpp:175-186 RegularizeActionValue *)
Definition kpf_regularize (rho : F) (k : KPF) : KPF :=
  let q := kp_q k in
  let qr := mkExp (e_xx q) (e_xu q) (mstore m m (madd (e_uu q) (mscale rho mident))) (e_x q) (e_u q) in
  mkKPF (kp_dyn k) (kp_cost k) (kp_ce k) (kp_jac k) q qr (kp_K k) (kp_d k) (kp_S k) (kp_s k) (kp_dv0 k) (kp_dv1 k).
(** knot_point_function_type.hpp:197-211 CalcGains; [None]: info() != Success, gains untouched *)
Definition kpf_gains (k : KPF) : option KPF :=
  let qr := kp_qr k in
  match llt m (e_uu qr) with
  | None => None
  | Some L =>
      let cols := map (fun j => llt_solve m L (fun i => e_xu qr j i)) (seq 0 n) in
      let K := mstore m n (fun i j => opp (nth j cols vzero i)) in
      let dsol := llt_solve m L (e_u qr) in
      let d := vstore m (fun i => opp (dsol i)) in
      Some (mkKPF (kp_dyn k) (kp_cost k) (kp_ce k) (kp_jac k) (kp_q k) qr K d (kp_S k) (kp_s k) (kp_dv0 k) (kp_dv1 k))
  end.
(** knot_point_function_type.hpp:220-230 CalcCostToGo *)
Definition kpf_ctg (k : KPF) : KPF :=
  let K := kp_K k in let d := kp_d k in let q := kp_q k in
  let KtQuu := mstore n m (mm m (mtr K) (e_uu q)) in
  let s := vstore n (vadd (vadd (vadd (e_x q) (mv m KtQuu d)) (mv m (mtr K) (e_u q))) (mv m (e_xu q) d)) in
  let S := mstore n n (madd (madd (madd (e_xx q) (mm m KtQuu K)) (mm m (mtr K) (mtr (e_xu q)))) (mm m (e_xu q) K)) in
  let dv0 := dot m d (e_u q) in
  let dv1 := mul half (dot m d (vstore m (mv m (e_uu q) d))) in
  mkKPF (kp_dyn k) (kp_cost k) (kp_ce k) (kp_jac k) q (kp_qr k) K d S s dv0 dv1.

(** ilqr.hpp:788-816 data members.  Z_/Zbar_ are null pointers until set. *)
Record ILQR := mkILQR {
  il_N : nat; il_x0 : vec F; il_x0_set : bool;
  il_kps : list KPF; il_Z : option (Traj F); il_Zb : option (Traj F);
  il_status : status; il_costs : list F; il_grad : list F;
  il_rho : F; il_drho : F; il_dV0 : F; il_dV1 : F;
  il_stats : Stats F; il_opts : Opts F }.
Definition il_set_kps (s : ILQR) (kps : list KPF) : ILQR :=
  mkILQR (il_N s) (il_x0 s) (il_x0_set s) kps (il_Z s) (il_Zb s) (il_status s) (il_costs s) (il_grad s)
    (il_rho s) (il_drho s) (il_dV0 s) (il_dV1 s) (il_stats s) (il_opts s).
Definition il_set_Z (s : ILQR) (Z : option (Traj F)) : ILQR :=
  mkILQR (il_N s) (il_x0 s) (il_x0_set s) (il_kps s) Z (il_Zb s) (il_status s) (il_costs s) (il_grad s)
    (il_rho s) (il_drho s) (il_dV0 s) (il_dV1 s) (il_stats s) (il_opts s).
Definition il_set_Zb (s : ILQR) (Zb : option (Traj F)) : ILQR :=
  mkILQR (il_N s) (il_x0 s) (il_x0_set s) (il_kps s) (il_Z s) Zb (il_status s) (il_costs s) (il_grad s)
    (il_rho s) (il_drho s) (il_dV0 s) (il_dV1 s) (il_stats s) (il_opts s).
Definition il_set_status (s : ILQR) (st : status) : ILQR :=
  mkILQR (il_N s) (il_x0 s) (il_x0_set s) (il_kps s) (il_Z s) (il_Zb s) st (il_costs s) (il_grad s)
    (il_rho s) (il_drho s) (il_dV0 s) (il_dV1 s) (il_stats s) (il_opts s).
Definition il_set_costs (s : ILQR) (cs : list F) (kps : list KPF) : ILQR :=
  mkILQR (il_N s) (il_x0 s) (il_x0_set s) kps (il_Z s) (il_Zb s) (il_status s) cs (il_grad s)
    (il_rho s) (il_drho s) (il_dV0 s) (il_dV1 s) (il_stats s) (il_opts s).
Definition il_set_reg (s : ILQR) (rho drho : F) : ILQR :=
  mkILQR (il_N s) (il_x0 s) (il_x0_set s) (il_kps s) (il_Z s) (il_Zb s) (il_status s) (il_costs s) (il_grad s)
    rho drho (il_dV0 s) (il_dV1 s) (il_stats s) (il_opts s).
Definition il_set_dV (s : ILQR) (v0 v1 : F) : ILQR :=
  mkILQR (il_N s) (il_x0 s) (il_x0_set s) (il_kps s) (il_Z s) (il_Zb s) (il_status s) (il_costs s) (il_grad s)
    (il_rho s) (il_drho s) v0 v1 (il_stats s) (il_opts s).
Definition il_set_stats (s : ILQR) (st : Stats F) : ILQR :=
  mkILQR (il_N s) (il_x0 s) (il_x0_set s) (il_kps s) (il_Z s) (il_Zb s) (il_status s) (il_costs s) (il_grad s)
    (il_rho s) (il_drho s) (il_dV0 s) (il_dV1 s) st (il_opts s).
Definition il_set_grad (s : ILQR) (g : list F) : ILQR :=
  mkILQR (il_N s) (il_x0 s) (il_x0_set s) (il_kps s) (il_Z s) (il_Zb s) (il_status s) (il_costs s) g
    (il_rho s) (il_drho s) (il_dV0 s) (il_dV1 s) (il_stats s) (il_opts s).
Definition il_set_opts (s : ILQR) (o : Opts F) : ILQR :=
  mkILQR (il_N s) (il_x0 s) (il_x0_set s) (il_kps s) (il_Z s) (il_Zb s) (il_status s) (il_costs s) (il_grad s)
    (il_rho s) (il_drho s) (il_dV0 s) (il_dV1 s) (il_stats s) o.

(** ilqr.hpp:679-690 ResetInternalVariables (thread launch in TaskModel.v) *)
Definition il_reset_internal (s : ILQR) : ILQR :=
  mkILQR (il_N s) (il_x0 s) (il_x0_set s) (il_kps s) (il_Z s) (il_Zb s) kUnsolved
    (repeat zero (S (il_N s))) (repeat zero (il_N s))
    (o_reg_initial (il_opts s)) zero zero zero (il_stats s) (il_opts s).
(** ilqr.hpp:49-53, 97-133: construction from a problem with N segments: N+1 knot-point functions *)
Definition il_make (N : nat) (x0 : vec F) (ks : list (Dyn * CS)) : ILQR :=
  il_reset_internal
    (mkILQR N x0 true (map (fun p => kpf_make (fst p) (snd p)) ks) None None kUnsolved [] [] zero zero zero zero
       st_new opts_default).
(** ilqr.hpp:231-235 SetTrajectory; 216-220 MakeTrajectory (does not touch Zbar_) *)
Definition il_set_trajectory (Z : Traj F) (s : ILQR) : ILQR :=
  il_set_Zb (il_set_Z s (Some Z)) (Some (traj_set_zero Z)).
Definition il_make_trajectory (dt : F) (s : ILQR) : ILQR :=
  il_set_Z s (Some (traj_set_uniform_step dt (traj_zero (il_N s)))).

(** ilqr.hpp:770-775, 781-786 *)
Definition il_increase_reg (s : ILQR) : ILQR :=
  let o := il_opts s in
  let drho := smax (mul (il_drho s) (o_reg_factor o)) (o_reg_factor o) in
  let rho := smin (smax (mul (il_rho s) drho) (o_reg_min o)) (o_reg_max o) in
  il_set_reg s rho drho.
Definition il_decrease_reg (s : ILQR) : ILQR :=
  let o := il_opts s in
  let drho := smin (div (il_drho s) (o_reg_factor o)) (div one (o_reg_factor o)) in
  let rho := smin (smax (mul (il_rho s) drho) (o_reg_min o)) (o_reg_max o) in
  il_set_reg s rho drho.

(** ilqr.hpp:758-763 CalcIndividualCosts over the knot points of Z *)
Fixpoint calc_costs (kps : list KPF) (Z : Traj F) : list F * list KPF :=
  match kps, Z with
  | k :: kps', z :: Z' =>
      let (J, k') := kpf_cost k (z_x z) (z_u z) in
      let (Js, ks) := calc_costs kps' Z' in
      (J :: Js, k' :: ks)
  | _, _ => ([], kps)
  end.
(** ilqr.hpp:330-334 Cost(Z) *)
Definition il_cost (Z : Traj F) (s : ILQR) : F * ILQR :=
  let (Js, ks) := calc_costs (il_kps s) Z in (lsum Js, il_set_costs s Js ks).

(** ilqr.hpp:670-677 UpdateExpansionsBlock for one knot point and for all *)
Definition expand_kp (z : KP F) (k : KPF) : F * KPF :=
  kpf_cost (kpf_dyn_expansion (z_x z) (z_u z) (z_t z) (z_h z) (kpf_cost_expansion (z_x z) (z_u z) k)) (z_x z) (z_u z).
Fixpoint expand_all (kps : list KPF) (Z : Traj F) : list F * list KPF :=
  match kps, Z with
  | k :: kps', z :: Z' =>
      let (J, k') := expand_kp z k in
      let (Js, ks) := expand_all kps' Z' in
      (J :: Js, k' :: ks)
  | _, _ => ([], kps)
  end.
(** ilqr.hpp:350-366 UpdateExpansions *)
Definition il_update_expansions (Z : Traj F) (s : ILQR) : ILQR :=
  let (Js, ks) := expand_all (il_kps s) Z in il_set_costs s Js ks.

(** ilqr.hpp:404-438: one sweep k = N-1 .. 0 over the first N knot points, starting from the terminal
    cost-to-go (S, s) and the running deltaV.  Returns success, the updated knot points, the cost-to-go of
    the first one and deltaV. *)
Record Sweep := mkSweep { sw_ok : bool; sw_kps : list KPF; sw_S : mat F; sw_s : vec F; sw_v0 : F; sw_v1 : F }.
Fixpoint bp_sweep (rho : F) (kps : list KPF) (S : mat F) (s : vec F) (v0 v1 : F) : Sweep :=
  match kps with
  | [] => mkSweep true [] S s v0 v1
  | k :: r =>
      let w := bp_sweep rho r S s v0 v1 in
      if sw_ok w then
        let k1 := kpf_regularize rho (kpf_action_value (sw_S w) (sw_s w) k) in
        match kpf_gains k1 with
        | None => mkSweep false (k1 :: sw_kps w) (sw_S w) (sw_s w) (sw_v0 w) (sw_v1 w)
        | Some k2 =>
            let k3 := kpf_ctg k2 in
            mkSweep true (k3 :: sw_kps w) (kp_S k3) (kp_s k3) (add (sw_v0 w) (kp_dv0 k3)) (add (sw_v1 w) (kp_dv1 k3))
        end
      else mkSweep false (k :: sw_kps w) (sw_S w) (sw_s w) (sw_v0 w) (sw_v1 w)
  end.
(** ilqr.hpp:402-440: the retry loop.  [kN] is the terminal knot point (its cost-to-go is fixed).  [cnt] is
    max_reg_count.  N = 0 never sets repeat_backwardpass to false: the loop spins forever (Fuel). *)
Fixpoint bp_loop (fuel : nat) (kN : KPF) (cnt : Z) (s : ILQR) : res ILQR :=
  match fuel with
  | O => Fuel
  | S f =>
      let w := bp_sweep (il_rho s) (firstn (il_N s) (il_kps s)) (kp_S kN) (kp_s kN) (il_dV0 s) (il_dV1 s) in
      let s1 := il_set_dV (il_set_kps s (sw_kps w ++ [kN])) (sw_v0 w) (sw_v1 w) in
      if sw_ok w then
        match il_N s with
        | O => bp_loop f kN cnt s1
        | _ => Ok s1
        end
      else
        let s2 := il_increase_reg s1 in
        let cnt' := if leb (o_reg_max (il_opts s2)) (il_rho s2) then (cnt + 1)%Z else cnt in
        if (o_reg_fail (il_opts s2) <=? cnt')%Z
        then Ok (il_set_status s2 kBackwardPassRegularizationFailed)
        else bp_loop f kN cnt' s2
  end.
(** ilqr.hpp:385-445 BackwardPass *)
Definition il_backward_pass (fuel : nat) (s : ILQR) : res ILQR :=
  match nth_error (il_kps s) (il_N s) with
  | None => UB
  | Some k0 =>
      let kN := kpf_terminal k0 in
      let s1 := il_set_dV (il_set_kps s (firstn (il_N s) (il_kps s) ++ [kN])) zero zero in
      do s2 <- bp_loop fuel kN 0 s1 ;
      let s3 := il_set_stats s2 (st_logF "reg" (il_rho s2) (il_stats s2)) in
      Ok (il_decrease_reg s3)
  end.

(** ilqr.hpp:453-459 Rollout *)
Fixpoint roll (x : vec F) (kps : list KPF) (Z : Traj F) : Traj F :=
  match Z with
  | [] => []
  | z :: Z' =>
      let z1 := kp_set_x x z in
      match kps, Z' with
      | k :: kps', z' :: _ => z1 :: roll (kpf_dynamics k x (z_u z1) (z_t z1) (z_h z1) (z_x z')) kps' Z'
      | _, _ => z1 :: Z'
      end
  end.
Definition il_rollout (Z : Traj F) (s : ILQR) : Traj F := roll (vstore n (il_x0 s)) (il_kps s) Z.

(** ilqr.hpp:468-499 RolloutClosedLoop: [None] = ran to the end, [Some st] = stopped with that status *)
Fixpoint roll_closed (o : Opts F) (alpha : F) (x : vec F) (kps : list KPF) (Z Zb : Traj F)
  : option status * Traj F :=
  match Zb with
  | [] => (None, [])
  | zb :: Zb' =>
      let zb1 := kp_set_x x zb in
      match kps, Z, Zb' with
      | k :: kps', z :: Z', zb' :: Zb'' =>
          let dx := vstore n (vsub x (z_x z)) in
          let u := vstore m (vadd (vadd (z_u z) (mv n (kp_K k) dx)) (fun i => mul (kp_d k i) alpha)) in
          let zb2 := kp_set_u u zb1 in
          let xn := kpf_dynamics k x u (z_t zb2) (z_h zb2) (z_x zb') in
          if o_check_bounds o && ltb (o_state_max o) (norm n xn)
          then (Some kStateLimit, zb2 :: kp_set_x xn zb' :: Zb'')
          else if o_check_bounds o && ltb (o_control_max o) (norm m u)
          then (Some kControlLimit, zb2 :: kp_set_x xn zb' :: Zb'')
          else let (st, r) := roll_closed o alpha xn kps' Z' Zb' in (st, zb2 :: r)
      | _, _, _ => (None, zb1 :: Zb')
      end
  end.
Definition il_rollout_closed (alpha : F) (Z Zb : Traj F) (s : ILQR) : bool * ILQR :=
  let (st, Zb') := roll_closed (il_opts s) alpha (vstore n (il_x0 s)) (il_kps s) Z Zb in
  match st with
  | Some e => (false, il_set_status (il_set_Zb s (Some Zb')) e)
  | None => (true, il_set_status (il_set_Zb s (Some Zb')) kUnsolved)
  end.

(** ilqr.hpp:526-546: the line-search loop; returns success and the last J *)
Fixpoint line_search (iters : nat) (J0 alpha : F) (Z : Traj F) (s : ILQR) : bool * F * ILQR :=
  match iters with
  | O => (false, J0, s)
  | S it =>
      let o := il_opts s in
      let Zb := match il_Zb s with Some Zb => Zb | None => [] end in
      let (ok, s1) := il_rollout_closed alpha Z Zb s in
      if ok then
        let Zb1 := match il_Zb s1 with Some Zb => Zb | None => [] end in
        let (J, s2) := il_cost Zb1 s1 in
        let expected := mul (opp alpha) (add (il_dV0 s2) (mul alpha (il_dV1 s2))) in
        let z := if ltb zero expected then div (sub J0 J) expected else opp one in
        if leb (o_ls_lb o) z && leb z (o_ls_ub o) && ltb J J0 then
          (true, J, il_set_stats s2 (st_logF "z" z (st_logF "alpha" alpha (st_logF "cost" J (il_stats s2)))))
        else line_search it J0 (div alpha (o_ls_factor o)) Z s2
      else line_search it J0 (div alpha (o_ls_factor o)) Z s1
  end.
(** ilqr.hpp:512-558 ForwardPass *)
Definition il_forward_pass (Z : Traj F) (s : ILQR) : ILQR :=
  let J0 := lsum (il_costs s) in
  let '(ok, J, s1) := line_search (Z.to_nat (o_ls_iters (il_opts s))) J0 one Z s in
  let '(J', s2) := if ok then (J, il_set_Z s1 (il_Zb s1)) else (J0, il_increase_reg s1) in
  if ltb J0 J' then il_set_status s2 kCostIncrease else s2.

(** ilqr.hpp:662-668 NormalizedFeedforwardGain *)
Fixpoint ff_gains (N : nat) (kps : list KPF) (Z : Traj F) : list F :=
  match N, kps, Z with
  | S N', k :: kps', z :: Z' =>
      maxcoeff m (fun i => div (sabs (kp_d k i)) (add (sabs (z_u z i)) one)) :: ff_gains N' kps' Z'
  | _, _, _ => []
  end.
Definition il_ff_gain (Z : Traj F) (s : ILQR) : F * ILQR :=
  let g := ff_gains (il_N s) (il_kps s) Z in
  (div (lsum g) (ofZ (Z.of_nat (length g))), il_set_grad s g).

(** ilqr.hpp:568-587 UpdateConvergenceStatistics.  [cb] is the max-violation callback, a function of the
    cost objects. *)
Context (cb : list CS -> F).
Definition il_update_stats (Z : Traj F) (s : ILQR) : res ILQR :=
  let (dgrad, s1) := il_ff_gain Z s in
  let st := il_stats s1 in
  do dJ <- (if (st_inner st =? 0)%Z
            then do c <- st_back "cost" st ; Ok (sub (st_initial_cost st) c)
            else do c1 <- st_back2 "cost" st ; do c0 <- st_back "cost" st ; Ok (sub c1 c0)) ;
  let st1 := st_set_counts st (st_initial_cost st) (st_inner st + 1)%Z (st_outer st) (st_total st + 1)%Z in
  let st2 := st_logF "dJ" dJ st1 in
  let st3 := st_logF "viol" (cb (map kp_cost (il_kps s1))) st2 in
  let st4 := st_logZ "iters" (st_total st3) st3 in
  let st5 := st_logF "grad" dgrad st4 in
  Ok (il_set_stats s1 (st_new_iteration st5)).

(** ilqr.hpp:597-619 IsDone *)
Definition il_is_done (s : ILQR) : res (bool * ILQR) :=
  let st := il_stats s in let o := il_opts s in
  do dJ <- st_back "dJ" st ;
  do g <- st_back "grad" st ;
  if ltb dJ (o_cost_tol o) && ltb g (o_grad_tol o) then Ok (true, il_set_status s kSolved)
  else if (o_max_inner o <=? st_inner st)%Z then Ok (true, il_set_status s kMaxInnerIterations)
  else if (o_max_total o <=? st_total st)%Z then Ok (true, il_set_status s kMaxIterations)
  else if negb (status_eqb (il_status s) kUnsolved) then Ok (true, s)
  else Ok (false, s).

(** one iteration of the loop in Solve, ilqr.hpp:300-313 *)
Definition il_get_Z (s : ILQR) : res (Traj F) := match il_Z s with Some Z => Ok Z | None => UB end.
Definition il_iteration (fuel : nat) (s : ILQR) : res (bool * ILQR) :=
  do Z <- il_get_Z s ;
  let s1 := il_update_expansions Z s in
  do s2 <- il_backward_pass fuel s1 ;
  let s3 := il_forward_pass Z s2 in
  do Z' <- il_get_Z s3 ;
  do s4 <- il_update_stats Z' s3 ;
  do s5 <- (if (kInner <=? lg_level (st_log (il_stats s4)))%Z
            then do st <- st_print_last (il_stats s4) ; Ok (il_set_stats s4 st)
            else Ok s4) ;
  il_is_done s5.
Fixpoint il_loop (fuel : nat) (iters : nat) (s : ILQR) : res ILQR :=
  match iters with
  | O => Ok s
  | S it => do (fin, s') <- il_iteration fuel s ; if fin then Ok s' else il_loop fuel it s'
  end.
(** ilqr.hpp:629-645 SolveSetup: Zbar_ takes the times and steps of Z_ (not the terminal step) *)
Fixpoint copy_times (Z Zb : Traj F) : Traj F :=
  match Z, Zb with
  | [z], zb :: r => mkKP (z_x zb) (z_u zb) (z_t z) (z_h zb) :: r
  | z :: Z', zb :: Zb' => mkKP (z_x zb) (z_u zb) (z_t z) (z_h z) :: copy_times Z' Zb'
  | _, _ => Zb
  end.
Definition il_solve_setup (s : ILQR) : res ILQR :=
  let st := il_stats s in
  let st1 := st_set_verbosity (o_verbose (il_opts s)) (st_set_counts st (st_initial_cost st) 0 (st_outer st) (st_total st)) in
  let s1 := il_set_stats s st1 in
  match il_Z s1, il_Zb s1 with
  | Some Z, Some Zb => Ok (il_reset_internal (il_set_Zb s1 (Some (copy_times Z Zb))))
  | Some _, None => UB
  | None, _ => Ok (il_reset_internal s1)
  end.
(** ilqr.hpp:284-316 Solve.  Null dereferences are UB when assertions are off.  A trajectory or a knot-point
    list of the wrong length is treated as UB in release builds (a longer one would only be used in part). *)
Definition il_sized (s : ILQR) : bool :=
  Nat.eqb (length (il_kps s)) (S (il_N s)) &&
  match il_Z s, il_Zb s with
  | Some Z, Some Zb => Nat.eqb (length Z) (S (il_N s)) && Nat.eqb (length Zb) (S (il_N s))
  | _, _ => false
  end.
(** ilqr.hpp:285-298: everything before the loop *)
Definition il_begin (debug : bool) (s : ILQR) : res ILQR :=
  do _ <- altro_assert debug (il_x0_set s) ;
  do _ <- altro_assert debug (match il_Z s with Some _ => true | None => false end) ;
  do _ <- altro_assert debug (match il_Z s with Some Z => (traj_N Z =? Z.of_nat (il_N s))%Z | None => false end) ;
  do s1 <- il_solve_setup s ;
  do _ <- (if il_sized s1 then Ok tt else UB) ;
  do Z <- il_get_Z s1 ;
  let Z1 := il_rollout Z s1 in
  let s2 := il_set_Z s1 (Some Z1) in
  let (J, s3) := il_cost Z1 s2 in
  let st := il_stats s3 in
  Ok (il_set_stats s3 (st_set_counts st J (st_inner st) (st_outer st) (st_total st))).
Definition il_solve (debug : bool) (fuel : nat) (s : ILQR) : res ILQR :=
  do s4 <- il_begin debug s ;
  il_loop fuel (Z.to_nat (o_max_inner (il_opts s4))) s4.
End Ilqr.

Arguments CostOps F CS : clear implicits. Arguments Dyn F : clear implicits. Arguments Exp F : clear implicits.
Arguments KPF F CS : clear implicits. Arguments ILQR F CS : clear implicits. Arguments Sweep F CS : clear implicits.
Arguments mkCostOps {F CS}. Arguments co_eval {F CS}. Arguments co_grad {F CS}. Arguments co_hess {F CS}.
