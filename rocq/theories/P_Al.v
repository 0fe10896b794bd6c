(** Property theorems: augmented-Lagrangian solver loop (C13-C15; C02, C09 and C17 for whole solves).

    [map fst (st_ser st) = series_titles] holds of every solver: the statistics object is created with exactly
    these eight series and no operation changes their names (stats_ok of C37/C42). *)
From Coq Require Import ZArith QArith Reals String List Bool Lia Lra Floats.SpecFloat.
From Verif Require Import Base Lin RLin ConModel ConSpec ConProofs ConProofs5 LogModel StatsModel StatsSpec StatsProofs TrajModel IlqrModel IlqrSpec
  IlqrFrame IlqrProofs IlqrProofs2 IlqrProofs3 IlqrProofs4 IlqrProofs5 IlqrProofs6 CostInst IlqrExamples AlModel AlProofs AlProofs2 AlProofs3 AlProofs4 AlExamples.
Import ListNotations.
Local Open Scope Z_scope.

(** ** C13 *)
(** [last_inner]: [s1] is the solver at the end of the last inner solve.  V and P are the recorded violation and
    penalty, which are those of the constraint objects. *)
Theorem C13_status : forall (F : Scalar) n m debug fuel (a a' : ALS F),
  as_solve n m debug fuel a = Ok a' -> 1 <= o_max_outer (il_opts (as_il a)) ->
  map fst (st_ser (il_stats (as_il a))) = series_titles ->
  let o := il_opts (as_il a) in let st := il_stats (as_il a') in
  exists s s1 V P, last_inner n m debug fuel a a' s s1 /\
    st_back "viol" st = Ok V /\ V = als_max_violation (as_costs a') /\
    st_back "pen" st = Ok P /\ P = als_max_penalty (as_costs a') /\
    ((il_status s1 <> kSolved /\ as_status a' = il_status s1) \/
     (il_status s1 = kSolved /\
      ((ltb V (o_con_tol o) = true /\ as_status a' = kSolved) \/
       (ltb V (o_con_tol o) = false /\
        ((ltb (o_max_pen o) P = true /\ as_status a' = kMaxPenalty) \/
         (ltb (o_max_pen o) P = false /\
          ((st_outer st = o_max_outer o /\ as_status a' = kMaxOuterIterations) \/
           (st_outer st < o_max_outer o /\ o_max_total o <= st_total st /\ as_status a' = kMaxIterations)))))))).
Proof.
  intros F n m debug fuel a a' H Ho Ht. cbv zeta.
  destruct (as_status_spec n m debug fuel a a' H Ho Ht) as (s & s1 & V & P & L & HV & EV & HP & EP & _ & _ & _ & _ & Hle & _ & E). cbv zeta in E.
  pose proof (as_opts n m debug fuel a a' H Ho Ht) as Eo.
  exists s, s1, V, P. split; [exact L|]. split; [exact HV|]. split; [exact EV|]. split; [exact HP|]. split; [exact EP|].
  destruct (status_eqb (il_status s1) kSolved) eqn:Es; cbn [negb] in E.
  - assert (Es' : il_status s1 = kSolved) by (destruct (il_status s1); try discriminate Es; reflexivity). right. split; [exact Es'|].
    destruct (ltb V (o_con_tol (il_opts (as_il a)))) eqn:E1; [left; auto|]. right. split; [reflexivity|].
    destruct (ltb (o_max_pen (il_opts (as_il a))) P) eqn:E2; [left; auto|]. right. split; [reflexivity|].
    destruct (Z.leb_spec (o_max_outer (il_opts (as_il a))) (st_outer (il_stats (as_il a')))) as [E3|E3]; [left; split; [lia|exact E]|].
    right. split; [exact E3|]. split; [|exact E].
    rewrite <- Eo in *. exact (as_status_total n m debug fuel a a' s s1 V P L HV HP Es' E1 E2 E3).
  - left. split; [|exact E]. intros E'. rewrite E' in Es. discriminate.
Qed.
(** the last inner solve that counts as converged meets both tolerances *)
Theorem C13_solved_converged : forall (F : Scalar) n m debug fuel (a a' : ALS F),
  lt_order F -> as_solve n m debug fuel a = Ok a' -> 1 <= o_max_outer (il_opts (as_il a)) -> 1 <= o_max_inner (il_opts (as_il a)) ->
  map fst (st_ser (il_stats (as_il a))) = series_titles -> as_status a' = kSolved ->
  ltb (als_max_violation (as_costs a')) (o_con_tol (il_opts (as_il a))) = true /\
  exists s s1 dJ g, last_inner n m debug fuel a a' s s1 /\ il_status s1 = kSolved /\
    st_back "dJ" (il_stats s1) = Ok dJ /\ st_back "grad" (il_stats s1) = Ok g /\
    ltb dJ (o_cost_tol (il_opts (as_il a))) = true /\ ltb g (o_grad_tol (il_opts (as_il a))) = true.
Proof.
  intros F n m debug fuel a a' (L1 & L2 & L3) H Ho Hi Ht Hs.
  destruct (as_status_spec n m debug fuel a a' H Ho Ht) as (s & s1 & V & P & L & HV & EV & HP & EP & _ & _ & Eo & _ & Hle & _ & E). cbv zeta in E.
  rewrite Hs in E. pose proof L as (b & j & _ & _ & Hsol & _).
  assert (Es : il_status s1 = kSolved /\ ltb V (o_con_tol (il_opts (as_il a))) = true).
  { destruct (il_status s1); try discriminate E. cbn [status_eqb negb] in E. split; [reflexivity|].
    destruct (ltb V _); [reflexivity|]. destruct (ltb _ P); [discriminate|]. destruct (_ <=? _); discriminate. }
  destruct Es as [Es Ev]. split; [rewrite <- EV; exact Ev|].
  rewrite <- Eo in Hi. destruct (solve_status al_ops n m als_max_violation debug fuel s s1 L1 L2 Hsol Hi) as (_ & _ & dJ & g & C & D & G). cbv zeta in G.
  exists s, s1, dJ, g. split; [exact L|]. split; [exact Es|]. split; [exact C|]. split; [exact D|]. rewrite <- Eo. apply andb_true_iff.
  destruct G as [[_ G]|(_ & [[G _]|[[G _]|[G|[G|[G _]]]]])]; [exact G|congruence..].
Qed.
Theorem C13_never_unsolved : forall (F : Scalar) n m debug fuel (a a' : ALS F),
  lt_order F -> as_solve n m debug fuel a = Ok a' -> 1 <= o_max_outer (il_opts (as_il a)) -> 1 <= o_max_inner (il_opts (as_il a)) ->
  map fst (st_ser (il_stats (as_il a))) = series_titles ->
  as_status a' <> kUnsolved /\ as_status a' <> kCostIncrease.
Proof.
  intros F n m debug fuel a a' (L1 & L2 & L3) H Ho Hi Ht.
  destruct (as_status_spec n m debug fuel a a' H Ho Ht) as (s & s1 & V & P & L & _ & _ & _ & _ & _ & _ & Eo & _ & _ & _ & E). cbv zeta in E.
  pose proof L as (b & j & _ & _ & Hsol & _).
  rewrite <- Eo in Hi. destruct (solve_status al_ops n m als_max_violation debug fuel s s1 L1 L2 Hsol Hi) as (_ & _ & dJ & g & C & D & G). cbv zeta in G.
  assert (Hn : il_status s1 <> kUnsolved /\ il_status s1 <> kCostIncrease) by (destruct G as [[G _]|(_ & [[G _]|[[G _]|[G|[G|[G _]]]]])]; rewrite G; split; discriminate).
  rewrite E. destruct (negb _); [exact Hn|]. destruct (ltb V _); [split; discriminate|]. destruct (ltb _ P); [split; discriminate|].
  destruct (_ <=? _); split; discriminate.
Qed.
(** with no outer iteration allowed the status of the previous solve is kept *)
Theorem C13_no_outer_iteration : forall (F : Scalar) n m debug fuel (a a' : ALS F),
  as_solve n m debug fuel a = Ok a' -> o_max_outer (il_opts (as_il a)) <= 0 -> as_status a' = as_status a.
Proof.
  intros F n m debug fuel a a' H Hm. unfold as_solve in H. destruct (as_init debug (as_il a)) as [b| | | | |] eqn:Eb; try discriminate. cbn [bind] in H.
  destruct (init_spec _ _ _ Eb) as ([Q _ _ _] & _). rewrite Q in H.
  replace (Z.to_nat (o_max_outer (il_opts (as_il a)))) with 0%nat in H by lia. inversion H; subst. reflexivity.
Qed.
Example C13_example : as_solve 1 1 true 3 ex_al = Ok ex_al_result /\ as_status ex_al_result = kSolved /\
  o_max_outer (il_opts (as_il ex_al)) = 30 /\ o_max_inner (il_opts (as_il ex_al)) = 10 /\
  map fst (st_ser (il_stats (as_il ex_al))) = series_titles.
Proof. split; [apply ex_al_solves|]. vm_compute. auto. Qed.
Print Assumptions C13_status.
Print Assumptions C13_solved_converged.
Print Assumptions C13_never_unsolved.
Print Assumptions C13_no_outer_iteration.

(** ** C14 *)
Theorem C14_limits : forall (F : Scalar) n m debug fuel (a a' : ALS F),
  as_solve n m debug fuel a = Ok a' -> map fst (st_ser (il_stats (as_il a))) = series_titles ->
  let o := il_opts (as_il a) in let st := il_stats (as_il a') in
  0 <= st_outer st <= Z.max 0 (o_max_outer o) /\
  (1 <= o_max_outer o -> 1 <= st_outer st) /\
  (1 <= o_max_total o -> 0 <= st_total st <= o_max_total o).
Proof. exact @as_limits. Qed.
(** every inner solve; the total is the sum of the inner counts *)
Theorem C14_inner_limit : forall (F : Scalar) n m debug fuel (a : ALS F) b j s s1,
  as_init debug (as_il a) = Ok b -> map fst (st_ser (il_stats (as_il a))) = series_titles ->
  as_reach n m debug fuel b j s -> il_solve al_ops n m als_max_violation debug fuel s = Ok s1 ->
  let o := il_opts (as_il a) in
  0 <= st_inner (il_stats s1) <= Z.max 0 (o_max_inner o) /\ st_total (il_stats s1) = st_total (il_stats s) + st_inner (il_stats s1).
Proof. exact @as_inner_limit. Qed.
(** the solve is exactly a run of outer iterations: j of them that continued, and one that ended it *)
Theorem C14_outer_count : forall (F : Scalar) n m debug fuel (a a' : ALS F),
  as_solve n m debug fuel a = Ok a' -> 1 <= o_max_outer (il_opts (as_il a)) ->
  map fst (st_ser (il_stats (as_il a))) = series_titles ->
  exists b j s, as_init debug (as_il a) = Ok b /\ as_reach n m debug fuel b j s /\
    as_iteration n m debug fuel s = Ok (Some (as_status a'), as_il a') /\
    st_outer (il_stats (as_il a')) = Z.of_nat j + 1 /\ Z.of_nat j + 1 <= o_max_outer (il_opts (as_il a)).
Proof.
  intros F n m debug fuel a a' H Ho Ht.
  destruct (as_status_spec n m debug fuel a a' H Ho Ht) as (s & s1 & V & P & (b & j & Hb & Hr & Hs & Hi) & _ & _ & _ & _ & _ & _ & _ & _ & Hle & _).
  exists b, j, s. split; [exact Hb|]. split; [exact Hr|]. split; [exact Hi|].
  destruct (init_spec _ _ _ Hb) as (P0 & _ & _ & _ & Ho0 & Hto & _ & Hok).
  destruct (reach_outer n m debug fuel b j s Hr Ho0 Hto (Hok Ht)) as (_ & R2 & _).
  destruct (as_iter_spec n m debug fuel s _ _ Hi) as (s1' & s4 & S4).
  pose proof (ou_end _ _ _ _ _ _ _ _ _ S4) as E'. cbn in E'. subst s4. pose proof (ou_outer _ _ _ _ _ _ _ _ _ S4) as E.
  destruct (solve_bounds al_ops n m als_max_violation debug fuel s s1' (ou_solve _ _ _ _ _ _ _ _ _ S4)) as (_ & _ & B3 & _). lia.
Qed.
Example C14_example : st_outer (il_stats (as_il ex_al_result)) = 4 /\ st_total (il_stats (as_il ex_al_result)) = 17 /\
  o_max_total (il_opts (as_il ex_al)) = 300.
Proof. vm_compute. auto. Qed.
Print Assumptions C14_limits.
Print Assumptions C14_inner_limit.
Print Assumptions C14_outer_count.

(** ** C15 *)
(** Holds when the last inner iteration accepted a new trajectory ([t]: the solver before that iteration). Missing:
    iterations whose line search failed, for which it is false, see below. *)
Theorem C15_certified_if_moved_partial : forall n m debug fuel (a a' : ALS RS),
  as_solve n m debug fuel a = Ok a' ->
  1 <= o_max_outer (il_opts (as_il a)) -> 1 <= o_max_inner (il_opts (as_il a)) ->
  map fst (st_ser (il_stats (as_il a))) = series_titles -> (0 < o_con_tol (il_opts (as_il a)))%R ->
  (forall c, In c (as_costs a) -> al_writes c) -> as_status a' = kSolved ->
  exists t s1, il_iteration al_ops n m als_max_violation fuel t = Ok (true, s1) /\ il_Z (as_il a') = il_Z s1 /\
  (il_Z (as_il a') <> il_Z t ->
   exists Z, il_Z (as_il a') = Some Z /\
   forall k c z v i b, nth_error (as_costs a) k = Some c -> nth_error Z k = Some z -> In v (al_cvs c) -> (i < cv_p v)%nat ->
     comp_within (cv_type v) (o_con_tol (il_opts (as_il a))) (con_eval (cv_con v) (z_x z) (z_u z) b i)).
Proof. exact solved_certified. Qed.
(** Finding: the line search of the only iteration fails, the stored constraint values are those of the rejected
    candidate, and 'solved' is reported for a trajectory that violates u <= -1/2000 by 3/2000 (tolerance 1/10000).
    The derivatives given to the solver are exact. *)
Theorem C15_solved_infeasible_refuted : exists (a a' : ALS QS) c v z,
  as_solve 1 1 true 3 a = Ok a' /\ as_status a' = kSolved /\
  st_back "viol" (il_stats (as_il a')) = Ok 0%Q /\
  nth_error (as_costs a') 0 = Some c /\ In v (al_ineq c) /\ cv_type v = NegativeOrthant /\
  (exists Z, il_Z (as_il a') = Some Z /\ nth_error Z 0 = Some z) /\
  con_eval (cv_con v) (z_x z) (z_u z) vzero 0%nat = (3 # 2000)%Q /\ o_con_tol (il_opts (as_il a)) = (1 # 10000)%Q.
Proof.
  pose (cs := as_costs ex_c15_result).
  pose (c := nth 0 cs (al_make 1 1 ex_quart [] [])).
  pose (v := nth 0 (al_ineq c) (cv_make 1 1 NegativeOrthant (lin_con zero zero zero))).
  pose (zz := match il_Z (as_il ex_c15_result) with Some Z => nth 0 Z (ex_kp zero zero) | None => ex_kp zero zero end).
  exists ex_c15, ex_c15_result, c, v, zz.
  assert (Hl : length cs = 2%nat) by (vm_compute; reflexivity).
  assert (Hi : length (al_ineq c) = 1%nat) by (vm_compute; reflexivity).
  split; [apply is_ok_get; vm_compute; reflexivity|]. split; [vm_compute; reflexivity|]. split; [vm_compute; reflexivity|].
  split; [apply nth_error_nth'; fold cs; rewrite Hl; auto|]. split; [apply nth_In; rewrite Hi; auto|].
  split; [vm_compute; reflexivity|]. split.
  - exists (match il_Z (as_il ex_c15_result) with Some Z => Z | None => [] end). split.
    + apply get_traj. vm_compute. reflexivity.
    + assert (Hz : (0 < length (match il_Z (as_il ex_c15_result) with Some Z => Z | None => [] end))%nat) by (vm_compute; auto).
      unfold zz. revert Hz. destruct (il_Z (as_il ex_c15_result)) as [Z|]; [|simpl; lia]. intros Hz. now apply nth_error_nth'.
  - split; vm_compute; reflexivity.
Qed.
Print Assumptions C15_certified_if_moved_partial.
Print Assumptions C15_solved_infeasible_refuted.

(** ** C17 for the whole augmented-Lagrangian solve *)
Theorem C17_al_solve : forall (F : Scalar) n m debug fuel (a a' : ALS F),
  as_solve n m debug fuel a = Ok a' -> 1 <= o_max_outer (il_opts (as_il a)) ->
  map fst (st_ser (il_stats (as_il a))) = series_titles ->
  exists Z Z', il_Z (as_il a) = Some Z /\ il_Z (as_il a') = Some Z' /\ length Z' = S (il_N (as_il a)) /\
    dyn_feasible n (il_x0 (as_il a)) (map kp_dyn (il_kps (as_il a))) Z' /\
    map z_t Z' = map z_t Z /\ removelast (map z_h Z') = removelast (map z_h Z).
Proof. exact @as_feasible. Qed.
Example C17_al_example : ax_at ex_al_result 0 = 1%Q /\ Qeq (ax_at ex_al_result 1) (1 + au_at ex_al_result 0).
Proof. split; vm_compute; reflexivity. Qed.
Print Assumptions C17_al_solve.

(** ** C02 for the whole augmented-Lagrangian solve: multipliers start admissible and stay so *)
Theorem C02_al_solve_real : forall n m debug fuel (a a' : ALS RS),
  as_solve n m debug fuel a = Ok a' ->
  (forall c v, In c (as_costs a) -> In v (al_ineq c) -> cv_type v = NegativeOrthant /\ forall i, (i < cv_p v)%nat -> (cv_lam v i <= 0)%R) ->
  forall c v i, In c (as_costs a') -> In v (al_ineq c) -> (i < cv_p v)%nat -> (cv_lam v i <= 0)%R.
Proof.
  intros n m debug fuel a a' H Hd c v i Hc Hv Hi. apply Rleb_true.
  refine (solve_duals (F:=RS) n m debug fuel a a' _ _ H _ c v i Hc Hv Hi).
  - apply Rleb_true. apply Rle_refl.
  - intros x Hx. apply Rleb_true. apply Rltb_true in Hx. now left.
  - intros c0 v0 A B. destruct (Hd c0 v0 A B) as [T0 D0]. split; [exact T0|]. intros _ j Hj. apply Rleb_true. now apply D0.
Qed.
Theorem C02_al_solve_float : forall n m debug fuel (a a' : ALS FS),
  as_solve n m debug fuel a = Ok a' ->
  (forall c v, In c (as_costs a) -> In v (al_ineq c) -> cv_type v = NegativeOrthant /\ forall i, (i < cv_p v)%nat -> SFleb (cv_lam v i) (S754_zero false) = true) ->
  forall c v i, In c (as_costs a') -> In v (al_ineq c) -> (i < cv_p v)%nat -> SFleb (cv_lam v i) (S754_zero false) = true.
Proof.
  intros n m debug fuel a a' H Hd c v i Hc Hv Hi.
  refine (solve_duals (F:=FS) n m debug fuel a a' _ _ H _ c v i Hc Hv Hi).
  - reflexivity.
  - intros x Hx. unfold FS, leb, ltb, SFltb, SFleb in *. destruct (SFcompare x _) as [[]|]; congruence.
  - intros c0 v0 A B. destruct (Hd c0 v0 A B) as [T0 D0]. split; [exact T0|]. intros _ j Hj. now apply D0.
Qed.
Example C02_al_example : forall c v, In c (as_costs ex_c15) -> In v (al_ineq c) -> cv_type v = NegativeOrthant.
Proof. intros c v Hc Hv. repeat (destruct Hc as [<-|Hc]; [repeat (destruct Hv as [<-|Hv]; [reflexivity|]); easy|]). easy. Qed.
Print Assumptions C02_al_solve_real.
Print Assumptions C02_al_solve_float.

(** ** C09 for the whole augmented-Lagrangian solve: penalties follow the schedule *)
(** [pen_after j rho phi] is rho multiplied j times by phi; a solve with k outer iterations performs k-1 updates *)
Theorem C09_al_solve : forall (F : Scalar) n m debug fuel (a a' : ALS F),
  as_solve n m debug fuel a = Ok a' -> 1 <= o_max_outer (il_opts (as_il a)) ->
  map fst (st_ser (il_stats (as_il a))) = series_titles ->
  ltb zero (o_init_pen (il_opts (as_il a))) = true -> leb zero (o_init_pen (il_opts (as_il a))) = true ->
  forall c v i, In c (as_costs a') -> In v (al_cvs c) -> (i < cv_p v)%nat ->
    cv_pen v i = pen_after (Z.to_nat (st_outer (il_stats (as_il a')) - 1)) (o_init_pen (il_opts (as_il a))) (cv_scal v).
Proof. intros F n m debug fuel a a' H1 H2 H3 H4 H5. exact (solve_pens n m debug fuel a a' H1 H2 H3 H4 H5). Qed.
(** Dual and penalty updates and resets act on the constraint terms only: dynamics, expansions, gains and value functions of the knot
    points and everything else the inner solver holds stay as they are. *)
Theorem C09_updates_frame : forall (F : Scalar) (f : ALCost F -> ALCost F) (s : ILQR F (ALCost F)), let s' := il_map_costobjs f s in
  il_costobjs s' = map f (il_costobjs s) /\
  Forall2 (fun k k' => kp_cost k' = f (kp_cost k) /\ kp_dyn k' = kp_dyn k /\ kp_ce k' = kp_ce k /\ kp_jac k' = kp_jac k /\ kp_q k' = kp_q k /\ kp_qr k' = kp_qr k /\ kp_K k' = kp_K k /\ kp_d k' = kp_d k /\
     kp_S k' = kp_S k /\ kp_s k' = kp_s k /\ kp_dv0 k' = kp_dv0 k /\ kp_dv1 k' = kp_dv1 k) (il_kps s) (il_kps s') /\
  il_N s' = il_N s /\ il_x0 s' = il_x0 s /\ il_x0_set s' = il_x0_set s /\ il_Z s' = il_Z s /\ il_Zb s' = il_Zb s /\ il_status s' = il_status s /\ il_costs s' = il_costs s /\
  il_grad s' = il_grad s /\ il_rho s' = il_rho s /\ il_drho s' = il_drho s /\ il_dV0 s' = il_dV0 s /\ il_dV1 s' = il_dV1 s /\ il_stats s' = il_stats s /\ il_opts s' = il_opts s.
Proof.
  intros F f s s'. split; [|split; [|repeat split]].
  - unfold s', il_map_costobjs, il_set_costobjs, il_costobjs. cbn [il_kps il_set_kps]. rewrite map_map. induction (il_kps s) as [|k l IH]; [reflexivity|]. cbn [map kps_set_costs kpf_set_cost kp_cost]. f_equal. exact IH.
  - unfold s', il_map_costobjs, il_set_costobjs, il_costobjs. cbn [il_kps il_set_kps]. rewrite map_map. induction (il_kps s) as [|k l IH]; [constructor|]. cbn [map kps_set_costs kpf_set_cost kp_cost]. constructor; [repeat split|exact IH].
Qed.
Example C09_al_example : als_max_penalty (as_costs ex_al_result) = pen_after (F:=QS) 3 one (ofZ 10).
Proof. vm_compute. reflexivity. Qed.
Print Assumptions C09_al_solve. Print Assumptions C09_updates_frame.
