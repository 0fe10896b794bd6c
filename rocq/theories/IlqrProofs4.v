(** iLQR: cost decrease, meaning of the statuses (any arithmetic). *)
From Coq Require Import ZArith String List Bool Lia.
From Verif Require Import Base Lin RLin LogModel StatsModel StatsProofs TrajModel IlqrModel IlqrSpec IlqrFrame IlqrProofs IlqrProofs2 IlqrProofs3.
Import ListNotations.

(** ** runs *)
Section Runs.
Context {F : Scalar} {CS : Type} (ops : CostOps F CS) (n m : nat) (cb : list CS -> F).
Notation ILQR := (ILQR F CS).
Let Rtop : CS -> CS -> Prop := fun _ _ => True.
Notation it_spec := (iteration_spec ops n m cb Rtop (fun _ => I) (fun _ _ _ _ _ => I) (fun _ _ _ => I) (fun _ _ _ _ => I) (fun _ _ _ _ => I)).
Notation it_rec := (iteration_record ops n m cb Rtop (fun _ => I) (fun _ _ _ _ _ => I) (fun _ _ _ => I) (fun _ _ _ _ => I) (fun _ _ _ _ => I)).
Notation beg := (begin_spec ops n Rtop (fun _ => I) (fun _ _ _ => I)).

Lemma iter_ready fuel (s : ILQR) fin s' : il_ready s -> il_iteration ops n m cb fuel s = Ok (fin, s') -> il_ready s'.
Proof. intros Hr E. destruct (it_spec _ _ _ _ Hr E) as (Z & s2 & s3 & _ & _ & H & _). exact H. Qed.
Lemma iter_counts fuel (s : ILQR) fin s' : il_ready s -> il_iteration ops n m cb fuel s = Ok (fin, s') ->
  st_inner (il_stats s') = (st_inner (il_stats s) + 1)%Z /\ st_total (il_stats s') = (st_total (il_stats s) + 1)%Z /\
  st_outer (il_stats s') = st_outer (il_stats s) /\ st_initial_cost (il_stats s') = st_initial_cost (il_stats s) /\ il_opts s' = il_opts s /\ il_N s' = il_N s.
Proof.
  intros Hr E. destruct (it_spec _ _ _ _ Hr E) as (Z & s2 & s3 & Hio & _). destruct Hio.
  destruct it_frame2, it_frame, it_frame23. repeat split; congruence.
Qed.
Lemma reach_ready fuel b j (s : ILQR) : il_ready b -> reach ops n m cb fuel b j s ->
  il_ready s /\ st_inner (il_stats s) = (st_inner (il_stats b) + Z.of_nat j)%Z /\
  st_total (il_stats s) = (st_total (il_stats b) + Z.of_nat j)%Z /\
  st_outer (il_stats s) = st_outer (il_stats b) /\
  st_initial_cost (il_stats s) = st_initial_cost (il_stats b) /\ il_opts s = il_opts b /\ il_N s = il_N b.
Proof.
  intros Hb. induction 1 as [|j s s' H IH E].
  - repeat split; auto; try lia; apply Hb.
  - destruct IH as (I1 & I2 & I3 & I4 & I5 & I6 & I7). destruct (iter_counts _ _ _ _ I1 E) as (C1 & C2 & C3 & C4 & C5 & C6).
    split; [eapply iter_ready; eauto|]. repeat split; try congruence; lia.
Qed.

(** a solve is a run of iterations, the last one finishing it *)
Lemma loop_reach fuel : forall iters b s', (0 < iters)%nat -> il_ready b -> il_loop ops n m cb fuel iters b = Ok s' ->
  exists j s fin, reach ops n m cb fuel b j s /\ il_iteration ops n m cb fuel s = Ok (fin, s') /\ (j < iters)%nat /\ (fin = false -> S j = iters).
Proof.
  induction iters as [|it IH]; intros b s' Hi Hr E; [lia|]. cbn [il_loop] in E.
  destruct (il_iteration ops n m cb fuel b) as [[fin s1]| | | | |] eqn:E1; cbn [bind] in E; try discriminate.
  destruct fin.
  - inversion E; subst. exists 0%nat, b, true. split; [constructor|]. split; [exact E1|]. split; [lia|discriminate].
  - destruct it as [|it].
    + cbn [il_loop] in E. inversion E; subst. exists 0%nat, b, false. split; [constructor|]. split; [exact E1|]. split; [lia|auto].
    + destruct (IH s1 s' ltac:(lia) (iter_ready _ _ _ _ Hr E1) E) as (j & s & fin & H1 & H2 & H3 & H4).
      exists (S j), s, fin. split; [|split; [exact H2|split; [lia|intros Hf; specialize (H4 Hf); lia]]].
      clear - H1 E1. induction H1; [econstructor; [constructor|exact E1]|]. econstructor; eauto.
Qed.
Lemma solve_run debug fuel (s0 s' : ILQR) : il_solve ops n m cb debug fuel s0 = Ok s' -> (1 <= o_max_inner (il_opts s0))%Z ->
  exists b j s, il_begin ops n debug s0 = Ok b /\ reach ops n m cb fuel b j s /\
    il_iteration ops n m cb fuel s = Ok (true, s') /\ (Z.of_nat j < o_max_inner (il_opts s0))%Z /\
    st_inner (il_stats s') = (Z.of_nat j + 1)%Z /\ il_ready b /\ il_ready s /\ st_inner (il_stats b) = 0%Z /\
    st_total (il_stats b) = st_total (il_stats s0) /\ il_status b = kUnsolved /\ il_opts s = il_opts s0.
Proof.
  intros E Hm. destruct (solve_start ops n m cb Rtop (fun _ => I) (fun _ _ _ => I) _ _ _ _ E) as (b & Z & Z1 & EB & Hst & El).
  pose proof (so_ready _ _ _ _ _ _ _ _ Hst) as Hr. pose proof (so_inner _ _ _ _ _ _ _ _ Hst) as Hi.
  pose proof (so_frame _ _ _ _ _ _ _ _ Hst) as Hf.
  destruct (loop_reach fuel (Z.to_nat (o_max_inner (il_opts s0))) b s' ltac:(lia) Hr El) as (j & s & fin & H1 & H2 & H3 & H4).
  destruct (reach_ready _ _ _ _ Hr H1) as (R1 & R2 & R3 & R4 & R5 & R6 & R7).
  destruct (iter_counts _ _ _ _ R1 H2) as (C1 & C2 & C3 & C4 & C5 & C6).
  assert (Ho : il_opts s = il_opts s0) by (destruct Hf; congruence).
  assert (fin = true).
  { destruct fin; auto. exfalso. specialize (H4 eq_refl).
    destruct (it_spec _ _ _ _ R1 H2) as (Za & s2 & s3 & Hio & _ & _ & Z' & s4 & s5 & bb & _ & _ & _ & ED).
    destruct (is_done_spec s5 false s' ED) as (D1 & dJ & g & _ & _ & D).
    assert (Hs : st_inner (il_stats s') = st_inner (il_stats s5) /\ il_opts s' = il_opts s5) by (rewrite D1; split; reflexivity).
    destruct Hs as [Hs1 Hs2]. cbv zeta in D. decompose [and or] D; try discriminate. rewrite <- Hs1, <- Hs2 in *.
    rewrite C5, Ho in *. lia. }
  subst fin. exists b, j, s. split; [exact EB|]. split; [exact H1|]. split; [exact H2|]. split; [lia|]. split; [lia|].
  split; [exact Hr|]. split; [exact R1|]. split; [exact Hi|]. split; [apply Hst|]. split; [apply Hst|exact Ho].
Qed.

(** the status after an iteration, from a state whose status is kUnsolved *)
Lemma iter_status fuel (s : ILQR) fin s' : il_ready s -> il_status s = kUnsolved ->
  il_iteration ops n m cb fuel s = Ok (fin, s') ->
  exists dJ g, st_back "dJ" (il_stats s') = Ok dJ /\ st_back "grad" (il_stats s') = Ok g /\
  let o := il_opts s in let st := il_stats s' in
  let conv := ltb dJ (o_cost_tol o) && ltb g (o_grad_tol o) in
  (fin = false -> il_status s' = kUnsolved) /\
  (fin = true -> 
    (il_status s' = kSolved /\ conv = true) \/
    (il_status s' = kMaxInnerIterations /\ conv = false /\ (o_max_inner o <= st_inner st)%Z) \/
    (il_status s' = kMaxIterations /\ conv = false /\ (st_inner st < o_max_inner o)%Z /\ (o_max_total o <= st_total st)%Z) \/
    (exists Z s2, il_Z s = Some Z /\ il_backward_pass n m fuel (il_update_expansions ops n m Z s) = Ok s2 /\
       il_status s' = il_status (il_forward_pass ops n m Z s2) /\ il_status s' <> kUnsolved /\ conv = false)).
Proof.
  intros Hr Hun E.
  assert (Hfu : exists Z s2, il_Z s = Some Z /\ il_backward_pass n m fuel (il_update_expansions ops n m Z s) = Ok s2 /\
     exists Z' s4 s5 (b:bool), il_Z (il_forward_pass ops n m Z s2) = Some Z' /\ il_update_stats m cb Z' (il_forward_pass ops n m Z s2) = Ok s4 /\
      (if b then do st <- st_print_last (il_stats s4) ; Ok (il_set_stats s4 st) else Ok s4) = Ok s5 /\
      il_is_done s5 = Ok (fin, s')).
  { pose proof E as E'. unfold il_iteration in E'. unfold il_get_Z in E'.
    destruct (il_Z s) as [Z|]; cbn [bind] in E'; [|discriminate].
    destruct (il_backward_pass n m fuel (il_update_expansions ops n m Z s)) as [s2| | | | |] eqn:EB; cbn [bind] in E'; try discriminate.
    exists Z, s2. split; [reflexivity|]. split; [exact EB|].
    destruct (il_Z (il_forward_pass ops n m Z s2)) as [Z'|]; cbn [bind] in E'; [|discriminate].
    destruct (il_update_stats m cb Z' (il_forward_pass ops n m Z s2)) as [s4| | | | |] eqn:EU; cbn [bind] in E'; try discriminate.
    set (bb := (kInner <=? lg_level (st_log (il_stats s4)))%Z) in *.
    destruct (if bb then do st <- st_print_last (il_stats s4); Ok (il_set_stats s4 st) else Ok s4) as [s5| | | | |] eqn:EP; cbn [bind] in E'; try discriminate.
    exists Z', s4, s5, bb. repeat split; auto. }
  destruct Hfu as (Z & s2 & HZ & EB & Z' & s4 & s5 & bb & HZ' & EU & EP & ED).
  destruct (is_done_spec s5 fin s' ED) as (D1 & dJ & g & D2 & D3 & D).
  assert (Hs : il_stats s' = il_stats s5 /\ il_opts s' = il_opts s5) by (rewrite D1; split; reflexivity).
  destruct Hs as [Hs1 Hs2]. destruct (iter_counts _ _ _ _ Hr E) as (C1 & C2 & C3 & C4 & C5 & C6).
  exists dJ, g. rewrite Hs1. split; [exact D2|]. split; [exact D3|]. cbv zeta in *. rewrite <- C5, Hs2.
  destruct (update_stats_spec m cb Rtop (fun _ => I) Z' _ s4 EU) as (_ & _ & _ & U4 & _).
  destruct (print_spec Rtop (fun _ => I) bb s4 s5 EP) as (_ & _ & _ & P4 & _).
  split.
  - intros ->. decompose [and or] D; try discriminate. assumption.
  - intros ->. decompose [and or] D; try discriminate; auto 10.
    right; right; right. exists Z, s2. repeat split; auto; congruence.
Qed.
Lemma reach_unsolved fuel b j (s : ILQR) : il_ready b -> il_status b = kUnsolved -> reach ops n m cb fuel b j s -> il_status s = kUnsolved.
Proof.
  intros Hb Hu. induction 1 as [|j s s' H IH E]; auto.
  destruct (iter_status _ _ _ _ (proj1 (reach_ready _ _ _ _ Hb H)) IH E) as (dJ & g & _ & _ & A & _). apply A; auto.
Qed.

(** exhaustive meaning of the final status *)
Theorem solve_status debug fuel (s0 s' : ILQR) : 
  (forall a : F, ltb a a = false) -> (forall a b : F, ltb a b = true -> ltb b a = false) ->
  il_solve ops n m cb debug fuel s0 = Ok s' -> (1 <= o_max_inner (il_opts s0))%Z ->
  (1 <= st_inner (il_stats s') <= o_max_inner (il_opts s0))%Z /\
  st_total (il_stats s') = (st_total (il_stats s0) + st_inner (il_stats s'))%Z /\
  exists dJ g, st_back "dJ" (il_stats s') = Ok dJ /\ st_back "grad" (il_stats s') = Ok g /\
  let o := il_opts s0 in let st := il_stats s' in
  let conv := ltb dJ (o_cost_tol o) && ltb g (o_grad_tol o) in
    (il_status s' = kSolved /\ conv = true) \/
    (conv = false /\ 
     ((il_status s' = kMaxInnerIterations /\ st_inner st = o_max_inner o) \/
      (il_status s' = kMaxIterations /\ (st_inner st < o_max_inner o)%Z /\ (o_max_total o <= st_total st)%Z) \/
      il_status s' = kStateLimit \/ il_status s' = kControlLimit \/
      (il_status s' = kBackwardPassRegularizationFailed /\ (o_ls_iters o <= 0)%Z))).
Proof.
  intros Hirr Has E Hm.
  destruct (solve_run _ _ _ _ E Hm) as (b & j & s & EB & H1 & H2 & H3 & H4 & H5 & H6 & H7 & H8 & H9 & H10).
  destruct (reach_ready _ _ _ _ H5 H1) as (R1 & R2 & R3 & R4 & R5 & R6 & R7).
  destruct (iter_counts _ _ _ _ H6 H2) as (C1 & C2 & C3 & C4 & C5 & C6).
  pose proof (reach_unsolved _ _ _ _ H5 H9 H1) as Hun.
  split; [lia|]. split; [lia|].
  destruct (iter_status _ _ _ _ H6 Hun H2) as (dJ & g & A1 & A2 & _ & A3). exists dJ, g. split; [exact A1|]. split; [exact A2|].
  cbv zeta in *. rewrite H10 in *. specialize (A3 eq_refl). destruct A3 as [A3|[A3|[A3|A3]]].
  - left. exact A3.
  - right. destruct A3 as (B1 & B2 & B3). split; [exact B2|]. left. split; [exact B1|]. lia.
  - right. destruct A3 as (B1 & B2 & B3 & B4). split; [exact B2|]. auto.
  - right. destruct A3 as (Z & s2 & B1 & B2 & B3 & B4 & B5). split; [exact B5|].
    pose proof H6 as (L1 & _ & (Zb & L3 & L4)).
    destruct (frame_update_expansions ops n m Rtop (fun _ => I) (fun _ _ _ _ _ => I) (fun _ _ _ => I) (fun _ _ _ _ => I) (fun _ _ _ _ => I) Z s) as (U1 & [U2 U3] & U4 & U5).
    assert (Hk1 : length (il_kps (il_update_expansions ops n m Z s)) = S (il_N (il_update_expansions ops n m Z s))).
    { destruct U1 as [Q1 _ _ Q4]. rewrite Q1, <- (kps_len Rtop _ _ Q4). exact L1. }
    destruct (frame_backward n m Rtop (fun _ => I) (fun _ _ _ _ _ => I) fuel _ s2 Hk1 B2) as (F1 & [F2 F3] & F4 & F5 & F6 & F7).
    assert (HZb : il_Zb s2 = Some Zb) by congruence.
    pose proof (forward_status ops n m Rtop (fun _ => I) (fun _ _ _ _ _ => I) (fun _ _ _ => I) Z s2 Zb HZb Hirr Has) as Hfs.
    cbv zeta in Hfs. rewrite <- B3 in Hfs.
    assert (Ho2 : il_opts s2 = il_opts s0) by (destruct F1, U1; congruence). rewrite Ho2 in Hfs.
    destruct Hfs as [[Hfs Hls]|[Hfs|[Hfs|Hfs]]]; auto; try congruence.
    destruct F7 as [F7|F7]; [congruence|]. right; right; right; right. split; [congruence|exact Hls].
Qed.

(** the recorded gain is the average normalised feedforward gain of the final gains and controls *)
Lemma ff_gains_map N (kps : list (KPF F CS)) Z : length kps = S N -> length Z = S N ->
  forall d u, (forall k kp, nth_error kps k = Some kp -> kp_d kp = d k) -> (forall k z, nth_error Z k = Some z -> z_u z = u k) ->
  ff_gains m N kps Z = map (fun k => maxcoeff m (fun i => div (sabs (d k i)) (add (sabs (u k i)) one))) (seq 0 N).
Proof.
  revert kps Z. induction N as [|N IH]; intros kps Z H1 H2 d u Hd Hu; [reflexivity|].
  destruct kps as [|kp kps]; [discriminate|]. destruct Z as [|z Z]; [discriminate|]. cbn [ff_gains seq map].
  rewrite (Hd 0%nat kp eq_refl), (Hu 0%nat z eq_refl). f_equal.
  rewrite <- seq_shift, map_map. apply (IH kps Z ltac:(simpl in H1; lia) ltac:(simpl in H2; lia) (fun k => d (S k)) (fun k => u (S k))).
  - intros k kp' Hk. apply (Hd (S k)). exact Hk.
  - intros k z' Hk. apply (Hu (S k)). exact Hk.
Qed.
Definition gain_at (s : ILQR) (k : nat) : vec F := match nth_error (il_kps s) k with Some kp => kp_d kp | None => vzero end.
Definition ctrl_at (Z : Traj F) (k : nat) : vec F := match nth_error Z k with Some z => z_u z | None => vzero end.
Lemma ff_gain_avg (s : ILQR) Z : length (il_kps s) = S (il_N s) -> length Z = S (il_N s) ->
  fst (il_ff_gain m Z s) = avg_gain m (il_N s) (gain_at s) (ctrl_at Z).
Proof.
  intros H1 H2. unfold il_ff_gain, avg_gain. cbn [fst].
  rewrite (ff_gains_map (il_N s) (il_kps s) Z H1 H2 (gain_at s) (ctrl_at Z)).
  - rewrite map_length, seq_length. reflexivity.
  - intros k kp Hk. unfold gain_at. now rewrite Hk.
  - intros k z Hk. unfold ctrl_at. now rewrite Hk.
Qed.
End Runs.

(** ** costs *)
Section Costs.
Context {F : Scalar} {CS : Type} (ops : CostOps F CS) (n m : nat) (cb : list CS -> F).
Context (Inv : CS -> Prop) (V : CS -> vec F -> vec F -> F) (HV : faithful_cost ops Inv V).
Notation ILQR := (ILQR F CS).
Definition Rv (c c' : CS) : Prop := Inv c -> Inv c' /\ V c' = V c.
Lemma Rv_refl c : Rv c c. Proof. intros H; auto. Qed.
Lemma Rv_trans a b c : Rv a b -> Rv b c -> Rv a c.
Proof. intros H1 H2 H. destruct (H1 H) as [A B]. destruct (H2 A) as [C D]. split; auto; congruence. Qed.
Lemma Rv_e c x u : Rv c (snd (co_eval ops c x u)). Proof. intros H. now apply (fc_eval _ _ _ HV). Qed.
Lemma Rv_g c x u b : Rv c (snd (co_grad ops c x u b)). Proof. intros H. now apply (fc_grad _ _ _ HV). Qed.
Lemma Rv_h c x u b : Rv c (snd (co_hess ops c x u b)). Proof. intros H. now apply (fc_hess _ _ _ HV). Qed.

Definition inv_kps (kps : list (KPF F CS)) : Prop := Forall (fun k => Inv (kp_cost k)) kps.
Definition vals (kps : list (KPF F CS)) : list (vec F -> vec F -> F) := map (fun k => V (kp_cost k)) kps.
Lemma sim_vals a b : kps_sim Rv a b -> inv_kps a -> inv_kps b /\ vals b = vals a.
Proof.
  induction 1 as [|k k' l l' [H1 H2] H IH]; intros Hi; [split; [constructor|auto]|].
  inversion Hi; subst. destruct (H2 H4) as [A B]. destruct (IH H5) as [C D]. split; [constructor; auto|]. simpl. congruence.
Qed.
Lemma calc_costs_val kps : forall Z, inv_kps kps -> lsum (fst (calc_costs ops kps Z)) = traj_cost (vals kps) Z.
Proof.
  induction kps as [|k kps IH]; intros [|z Z] Hi; simpl; auto. inversion Hi; subst. unfold kpf_cost.
  pose proof (fc_value _ _ _ HV (kp_cost k) (z_x z) (z_u z) H1) as E.
  destruct (co_eval ops (kp_cost k) (z_x z) (z_u z)) as [J c]. simpl in E. specialize (IH Z H2).
  destruct (calc_costs ops kps Z) as [Js ks]. simpl in *. congruence.
Qed.
Lemma expand_all_val kps : forall Z, inv_kps kps -> lsum (fst (expand_all ops n m kps Z)) = traj_cost (vals kps) Z.
Proof.
  induction kps as [|k kps IH]; intros [|z Z] Hi; simpl; auto. inversion Hi; subst. unfold expand_kp, kpf_cost.
  pose proof (sim_cost_exp ops n m Rv Rv_trans Rv_g Rv_h (z_x z) (z_u z) k) as [_ Hs]. 
  set (k1 := kpf_cost_expansion ops n m (z_x z) (z_u z) k) in *. destruct (Hs H1) as [A B].
  change (kp_cost (kpf_dyn_expansion n m (z_x z) (z_u z) (z_t z) (z_h z) k1)) with (kp_cost k1).
  pose proof (fc_value _ _ _ HV (kp_cost k1) (z_x z) (z_u z) A) as E.
  destruct (co_eval ops (kp_cost k1) (z_x z) (z_u z)) as [J c]. simpl in E. specialize (IH Z H2).
  destruct (expand_all ops n m kps Z) as [Js ks]. simpl in *. congruence.
Qed.

(** the trajectory's cost, under the cost functions of the state *)
Definition J_of (s : ILQR) (Z : Traj F) : F := traj_cost (vals (il_kps s)) Z.
Lemma frame_vals s s' : frame Rv s s' -> inv_kps (il_kps s) -> inv_kps (il_kps s') /\ vals (il_kps s') = vals (il_kps s).
Proof. intros [_ _ _ H]. now apply sim_vals. Qed.

Lemma iter_cost fuel s fin s' g : il_ready s -> inv_kps (il_kps s) -> il_iteration ops n m cb fuel s = Ok (fin, s') ->
  st_series (il_stats s) g -> boundary (st_inner (il_stats s)) g ->
  exists Z Z' g', il_Z s = Some Z /\ il_Z s' = Some Z' /\
    inv_kps (il_kps s') /\ vals (il_kps s') = vals (il_kps s) /\
    st_series (il_stats s') g' /\ (2 <= st_len (il_stats s'))%nat /\ boundary (st_inner (il_stats s')) g' /\
    last_of g' "grad" = fst (il_ff_gain m Z' s') /\ last_of g' "viol" = cb (map kp_cost (il_kps s')) /\
    last_of g' "dJ" = sub (if (st_inner (il_stats s) =? 0)%Z then st_initial_cost (il_stats s) else last_of g "cost") (last_of g' "cost") /\
    ((ltb (J_of s Z') (J_of s Z) = true /\ last_of g' "cost" = J_of s Z') \/
     (Z' = Z /\ last_of g' "cost" = last_of g "cost")).
Proof.
  intros Hr Hi E Hg Hb.
  destruct (iteration_record ops n m cb Rv Rv_refl Rv_trans Rv_e Rv_g Rv_h fuel s fin s' g Hr E Hg Hb)
    as (Z & Z' & s2 & s3 & g' & Jn & Hio & HZ' & G1 & G2 & (l & G3) & G4 & G5 & G6 & G7 & G8).
  pose proof Hio as [I1 I2 I3 I4 I5 I6 I7 I8 I9 I10 I11 I12 I13 I14 I15 _ _ _ _].
  destruct (frame_vals _ _ I5 Hi) as [V1 V2]. destruct (frame_vals _ _ I7 V1) as [V3 V4]. destruct (frame_vals _ _ I6 V3) as [V5 V6].
  exists Z, Z', g'. split; [exact I1|]. split; [exact HZ'|]. split; [exact V5|]. split; [congruence|].
  split; [exact G1|]. split; [exact G2|]. split; [right; exists l, Jn; exact G3|]. split; [exact G5|]. split; [exact G6|].
  split; [rewrite G7, G4; reflexivity|].
  destruct G8 as [(A1 & A2 & A3)|(A1 & A2 & A3)].
  - left. destruct A1 as (s1 & J & Hs & B1 & B2 & B3 & B4 & B5 & _).
    destruct Hs as (alpha & ks & Zc & Zd & z & P1 & P2 & P2a & P2b & P3 & P4 & P5 & P5b & P6 & P7 & P8 & P9 & P10).
    destruct (sim_vals _ _ P1 V1) as [W1 W2].
    assert (HJ : Jn = J_of s Z').
    { rewrite A2, I15, B4, P5, (calc_costs_val _ _ W1). unfold J_of. rewrite W2, V2. f_equal.
      assert (Some Zd = Some Z') by congruence. now inversion H. }
    split; [|congruence]. rewrite <- HJ. rewrite I10, (expand_all_val _ _ Hi) in A3. exact A3.
  - right. split; [exact A3|]. congruence.
Qed.

(** invariant of a run: with [Z1], [J1] the trajectory and cost after the initial rollout *)
Lemma reach_cost fuel b Z1 g0 j s : il_ready b -> inv_kps (il_kps b) -> il_Z b = Some Z1 -> st_inner (il_stats b) = 0%Z ->
  st_series (il_stats b) g0 ->
  (forall x y z : F, ltb x y = true -> ltb y z = true -> ltb x z = true) ->
  reach ops n m cb fuel b j s ->
  exists Z g, il_Z s = Some Z /\ inv_kps (il_kps s) /\ vals (il_kps s) = vals (il_kps b) /\
    st_series (il_stats s) g /\ boundary (st_inner (il_stats s)) g /\ ((1 <= j)%nat -> (2 <= st_len (il_stats s))%nat) /\
    ((Z = Z1 /\ last_of g "cost" = last_of g0 "cost") \/
     (ltb (J_of b Z) (J_of b Z1) = true /\ last_of g "cost" = J_of b Z)).
Proof.
  intros Hr Hi HZ Hin Hg Htr. induction 1 as [|j s s' H IH E].
  - exists Z1, g0. split; [exact HZ|]. split; [exact Hi|]. split; [reflexivity|]. split; [exact Hg|]. split; [left; exact Hin|]. split; [lia|left; auto].
  - destruct IH as (Z & g & A1 & A2 & A3 & A4 & A5 & A6 & A7).
    destruct (reach_ready ops n m cb fuel b j s Hr H) as (R1 & _).
    destruct (iter_cost fuel s false s' g R1 A2 E A4 A5) as (Z0 & Z' & g' & B1 & B2 & B3 & B4 & B5 & B6 & B7 & B8 & B9 & B10 & B11).
    rewrite A1 in B1. inversion B1; subst Z0. exists Z', g'. split; [exact B2|]. split; [exact B3|]. split; [congruence|].
    split; [exact B5|]. split; [exact B7|]. split; [intros _; exact B6|].
    unfold J_of in *. rewrite A3 in B11. destruct B11 as [[C1 C2]|[C1 C2]].
    + right. split; [|exact C2]. destruct A7 as [[-> _]|[D1 D2]]; [exact C1|]. eapply Htr; eauto.
    + subst Z'. destruct A7 as [[D1 D2]|[D1 D2]]; [left; split; congruence|right; split; congruence].
Qed.

Theorem solve_cost debug fuel s0 s' g0 :
  (forall x y z : F, ltb x y = true -> ltb y z = true -> ltb x z = true) ->
  inv_kps (il_kps s0) -> st_series (il_stats s0) g0 -> il_solve ops n m cb debug fuel s0 = Ok s' ->
  exists Z Z', il_Z s0 = Some Z /\ il_Z s' = Some Z' /\
    let Z1 := roll n (vstore n (il_x0 s0)) (il_kps s0) Z in
    st_initial_cost (il_stats s') = J_of s0 Z1 /\
    (Z' = Z1 \/ ltb (J_of s0 Z') (J_of s0 Z1) = true).
Proof.
  intros Htr Hi Hg E.
  destruct (solve_start ops n m cb Rv Rv_refl Rv_e _ _ _ _ E) as (b & Z & Z1 & EB & Hst & El).
  destruct Hst as [S1 S2 S3 S4 [S5 S5'] S6 S7 S8 S9 S10 S11 S12 S13 [S14 S14'] S15 S16 S17 S18 S19 S20].
  destruct (frame_vals _ _ S4 Hi) as [V1 V2].
  assert (Hg' : st_series (il_stats b) g0) by (eapply ser_ext; eauto).
  assert (HJ1 : lsum (il_costs b) = J_of s0 Z1) by (rewrite S15; apply calc_costs_val; exact Hi).
  exists Z. destruct (Z.to_nat (o_max_inner (il_opts s0))) as [|it] eqn:Eit.
  - cbn [il_loop] in El. inversion El; subst s'. exists Z1. split; [exact S1|]. split; [exact S5|]. cbv zeta. rewrite <- S5'.
    split; [congruence|left; reflexivity].
  - destruct (loop_reach ops n m cb fuel (S it) b s' ltac:(lia) S3 El) as (j & s & fin & H1 & H2 & H3 & H4).
    destruct (reach_cost fuel b Z1 g0 j s S3 V1 S5 S11 Hg' Htr H1) as (Zs & g & A1 & A2 & A3 & A4 & A5 & A6 & A7).
    destruct (reach_ready ops n m cb fuel b j s S3 H1) as (R1 & R2 & R3 & R4 & R5 & R6 & R7).
    destruct (iter_cost fuel s fin s' g R1 A2 H2 A4 A5) as (Z0 & Z' & g' & B1 & B2 & B3 & B4 & B5 & B6 & B7 & B8 & B9 & B10 & B11).
    rewrite A1 in B1. inversion B1; subst Z0.
    destruct (iter_counts ops n m cb fuel s fin s' R1 H2) as (C1 & C2 & C3 & C4 & C5 & C6).
    exists Z'. split; [exact S1|]. split; [exact B2|]. cbv zeta. rewrite <- S5'. split; [congruence|].
    unfold J_of in *. rewrite A3, V2 in *. destruct B11 as [[D1 D2]|[D1 D2]].
    + right. destruct A7 as [[-> _]|[D3 D4]]; [exact D1|]. eapply Htr; eauto.
    + subst Z'. destruct A7 as [[D3 _]|[D3 _]]; auto.
Qed.

(** the recorded decrease *)
Theorem run_decrease debug fuel s0 b g0 j s fin s' Z Z' :
  (forall x : F, ltb x x = false) -> (forall x y z : F, ltb x y = true -> ltb y z = true -> ltb x z = true) ->
  inv_kps (il_kps s0) -> st_series (il_stats s0) g0 -> il_begin ops n debug s0 = Ok b ->
  reach ops n m cb fuel b j s -> il_iteration ops n m cb fuel s = Ok (fin, s') ->
  il_Z s = Some Z -> il_Z s' = Some Z' -> Z' <> Z ->
  (j = 0%nat \/ il_Z s <> il_Z b) ->
  st_back "dJ" (il_stats s') = Ok (sub (J_of s0 Z) (J_of s0 Z')) /\ ltb (J_of s0 Z') (J_of s0 Z) = true /\
  st_back "cost" (il_stats s') = Ok (J_of s0 Z').
Proof.
  intros Hirr Htr Hi Hg EB H1 H2 HZ HZ' Hne Hc.
  destruct (begin_spec ops n Rv Rv_refl Rv_e _ _ _ EB) as (Z0 & Z1 & Hst).
  destruct Hst as [S1 S2 S3 S4 [S5 S5'] S6 S7 S8 S9 S10 S11 S12 S13 [S14 S14'] S15 S16 S17 S18 S19 S20].
  destruct (frame_vals _ _ S4 Hi) as [V1 V2].
  assert (Hg' : st_series (il_stats b) g0) by (eapply ser_ext; eauto).
  assert (HJ1 : lsum (il_costs b) = J_of s0 Z1) by (rewrite S15; apply calc_costs_val; exact Hi).
  destruct (reach_cost fuel b Z1 g0 j s S3 V1 S5 S11 Hg' Htr H1) as (Zs & g & A1 & A2 & A3 & A4 & A5 & A6 & A7).
  assert (Zs = Z) by congruence. subst Zs.
  destruct (reach_ready ops n m cb fuel b j s S3 H1) as (R1 & R2 & R3 & R4 & R5 & R6 & R7).
  destruct (iter_cost fuel s fin s' g R1 A2 H2 A4 A5) as (Za & Zb & g' & B1 & B2 & B3 & B4 & B5 & B6 & B7 & B8 & B9 & B10 & B11).
  assert (Za = Z) by congruence. assert (Zb = Z') by congruence. subst Za Zb.
  unfold J_of in *. rewrite A3, V2 in *. destruct B11 as [[D1 D2]|[D1 D2]]; [|easy].
  rewrite (ser_back _ _ _ B5 (proj1 (proj2 In_titles)) ltac:(lia)). fold (last_of g' "dJ"). rewrite B10.
  rewrite (ser_back _ _ _ B5 (proj1 In_titles) ltac:(lia)). fold (last_of g' "cost"). rewrite D2.
  split; [|split; [exact D1|reflexivity]]. do 2 f_equal.
  destruct j as [|j].
  - inversion H1; subst s. rewrite S11. cbn [Z.eqb]. rewrite S17, HJ1.
    assert (Z1 = Z) by congruence. now subst.
  - destruct (Z.eqb_spec (st_inner (il_stats s)) 0) as [E|E]; [lia|].
    destruct Hc as [Hc|Hc]; [lia|]. destruct A7 as [[D3 _]|[D3 D4]]; [|exact D4]. exfalso. apply Hc. congruence.
Qed.
End Costs.
