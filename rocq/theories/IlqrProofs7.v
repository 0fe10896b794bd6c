(** The backtracking line search. *)
From Coq Require Import ZArith String List Bool Lia.
From Verif Require Import Base Lin RLin LogModel StatsModel TrajModel IlqrModel IlqrSpec IlqrFrame IlqrProofs IlqrProofs2 IlqrProofs3 IlqrProofs4 LsSpec.
Import ListNotations.

Section LS.
Context {F : Scalar} {CS : Type} (ops : CostOps F CS) (n m : nat).
Notation ILQR := (ILQR F CS).

Lemma law_nil alpha (kps : list (KPF F CS)) Z a : obeys_law n m alpha kps Z [a].
Proof. intros k kp z z' z'' _ _ _ H. destruct k; discriminate. Qed.
Lemma law_cons alpha kp (kps : list (KPF F CS)) z Z (z' : KP F) Z' :
  (forall i, i < m -> z_u z' i = add (add (z_u z i) (dot n (kp_K kp i) (fun j => sub (z_x z' j) (z_x z j)))) (mul (kp_d kp i) alpha)) ->
  obeys_law n m alpha kps Z Z' -> obeys_law n m alpha (kp :: kps) (z :: Z) (z' :: Z').
Proof.
  intros H1 H2 [|k] kp' a b c E1 E2 E3 E4.
  - injection E1 as <-. injection E2 as <-. injection E3 as <-. exact H1.
  - exact (H2 k kp' a b c E1 E2 E3 E4).
Qed.
Lemma law_val alpha (kp : KPF F CS) (z zb : KP F) x :
  let u := vstore m (vadd (vadd (z_u z) (mv n (kp_K kp) (vstore n (vsub x (z_x z))))) (fun i => mul (kp_d kp i) alpha)) in
  let zb2 := kp_set_u u (kp_set_x x zb) in
  forall i, i < m -> z_u zb2 i = add (add (z_u z i) (dot n (kp_K kp i) (fun j => sub (z_x zb2 j) (z_x z j)))) (mul (kp_d kp i) alpha).
Proof.
  intros u zb2 i Hi. subst zb2 u. cbn [z_u z_x kp_set_u kp_set_x]. rewrite vstore_lt by auto. unfold vadd, mv. f_equal. f_equal.
  apply dot_ext; auto. intros j Hj. rewrite vstore_lt by auto. reflexivity.
Qed.
Lemma roll_closed_law o alpha (kps : list (KPF F CS)) : forall x Z Zb r, roll_closed n m o alpha x kps Z Zb = (None, r) ->
  (length Zb <= S (length kps))%nat -> length Z = length Zb -> obeys_law n m alpha kps Z r.
Proof.
  induction kps as [|k kps IH]; intros x Z Zb r E HL HZ.
  - intros k kp z z' z'' H. destruct k; discriminate.
  - destruct Zb as [|zb Zb]; [inversion E; subst; intros [|j] ? ? ? ? ? ? H; discriminate|].
    destruct Z as [|z Z]; [discriminate|]. destruct Zb as [|zb' Zb]; [inversion E; subst; apply law_nil|].
    cbn [roll_closed] in E. set (u := vstore m _) in *. set (zb2 := kp_set_u u (kp_set_x x zb)) in *.
    set (xn := kpf_dynamics n k x u _ _ _) in *.
    destruct (o_check_bounds o && ltb (o_state_max o) (norm n xn)); [discriminate|].
    destruct (o_check_bounds o && ltb (o_control_max o) (norm m u)); [discriminate|].
    destruct (roll_closed n m o alpha xn kps Z (zb' :: Zb)) as [st rr] eqn:Er. inversion E; subst; clear E.
    apply law_cons; [apply law_val|]. eapply IH; [exact Er| |]; cbn [length] in *; lia.
Qed.
Lemma roll_closed_prefix o alpha (kps : list (KPF F CS)) : forall x Z Zb r e, roll_closed n m o alpha x kps Z Zb = (Some e, r) -> length Z = length Zb ->
  o_check_bounds o = true /\ exists p z z', (length (p ++ [z; z']) <= length Z)%nat /\
    times (p ++ [z; z']) = firstn (length (p ++ [z; z'])) (times Zb) /\
    head_x x (p ++ [z; z']) /\ follows n (map kp_dyn kps) (p ++ [z; z']) /\ obeys_law n m alpha kps Z (p ++ [z; z']) /\
    (ltb (o_state_max o) (norm n (z_x z')) = true \/ ltb (o_control_max o) (norm m (z_u z)) = true).
Proof.
  induction kps as [|k kps IH]; intros x Z Zb r e E HZ.
  - destruct Zb as [|zb [|zb' Zb]]; simpl in *; inversion E.
  - destruct Zb as [|zb Zb]; [discriminate|]. destruct Z as [|z Z]; [discriminate|].
    destruct Zb as [|zb' Zb]; [discriminate|]. cbn [roll_closed] in E.
    set (u := vstore m _) in *. set (zb2 := kp_set_u u (kp_set_x x zb)) in *.
    set (xn := kpf_dynamics n k x u _ _ _) in *. cbn [length] in HZ.
    assert (Hbase : o_check_bounds o = true -> ltb (o_state_max o) (norm n xn) = true \/ ltb (o_control_max o) (norm m u) = true ->
      exists p z0 z', (length (p ++ [z0; z']) <= length (z :: Z))%nat /\
        times (p ++ [z0; z']) = firstn (length (p ++ [z0; z'])) (times (zb :: zb' :: Zb)) /\
        head_x x (p ++ [z0; z']) /\ follows n (map kp_dyn (k :: kps)) (p ++ [z0; z']) /\ obeys_law n m alpha (k :: kps) (z :: Z) (p ++ [z0; z']) /\
        (ltb (o_state_max o) (norm n (z_x z')) = true \/ ltb (o_control_max o) (norm m (z_u z0)) = true)).
    { intros _ H. exists [], zb2, (kp_set_x xn zb'). cbn [app length]. split; [lia|]. split; [reflexivity|]. split; [reflexivity|].
      split; [|split; [|exact H]].
      - cbn [map follows]. split; [exists (z_x zb'); reflexivity|]. destruct (map kp_dyn kps); exact I.
      - apply law_cons; [apply law_val|apply law_nil]. }
    destruct (o_check_bounds o && ltb (o_state_max o) (norm n xn)) eqn:Eb1.
    { apply andb_prop in Eb1. split; [apply Eb1|]. apply Hbase; [apply Eb1|left; apply Eb1]. }
    destruct (o_check_bounds o && ltb (o_control_max o) (norm m u)) eqn:Eb2.
    { apply andb_prop in Eb2. split; [apply Eb2|]. apply Hbase; [apply Eb2|right; apply Eb2]. }
    clear Hbase. destruct (roll_closed n m o alpha xn kps Z (zb' :: Zb)) as [st rr] eqn:Er. inversion E; subst; clear E.
    destruct (IH _ _ _ _ _ Er ltac:(cbn [length]; lia)) as (H1 & p & a & b & H2 & H3 & H4 & H5 & H6 & H7). split; [exact H1|].
    exists (zb2 :: p), a, b. cbn [app length]. split; [lia|]. split; [cbn [times map firstn]; unfold times in H3; rewrite H3; reflexivity|].
    split; [reflexivity|]. split; [|split; [|exact H7]].
    + cbn [map follows]. destruct (p ++ [a; b]) as [|c q] eqn:Ep; [destruct p; discriminate|]. split; [|exact H5].
      cbn [head_x] in H4. exists (z_x zb'). rewrite H4. reflexivity.
    + apply law_cons; [apply law_val|exact H6].
Qed.

Lemma accepted_acceptable (o : Opts F) dV0 dV1 J0 J alpha : let e := mul (opp alpha) (add dV0 (mul alpha dV1)) in
  let z := if ltb zero e then div (sub J0 J) e else opp one in
  (leb (o_ls_lb o) z && leb z (o_ls_ub o) && ltb J J0 = true -> acceptable o dV0 dV1 J0 J alpha z) /\
  (leb (o_ls_lb o) z && leb z (o_ls_ub o) && ltb J J0 = false -> forall z', ~ acceptable o dV0 dV1 J0 J alpha z').
Proof.
  intros e z. split.
  - intros H. apply andb_prop in H. destruct H as [H H3]. apply andb_prop in H. destruct H as [H1 H2].
    unfold acceptable. fold e. split; [|split; [|auto]]; intros E; unfold z; rewrite E; reflexivity.
  - intros H z' (A & B & C & D & G). fold e in A, B.
    assert (z' = z). { unfold z. destruct (ltb zero e) eqn:E; auto. } subst z'. rewrite C, D, G in H. discriminate.
Qed.

Context (Inv : CS -> Prop) (V : CS -> vec F -> vec F -> F) (HV : faithful_cost ops Inv V).
(** what stays fixed while steps are tried *)
Record ls_same (s s1 : ILQR) (ts : list (F * F)) : Prop := {
  sm_opts : il_opts s1 = il_opts s; sm_x0 : il_x0 s1 = il_x0 s; sm_dV : il_dV0 s1 = il_dV0 s /\ il_dV1 s1 = il_dV1 s;
  sm_dyn : map kp_dyn (il_kps s1) = map kp_dyn (il_kps s); sm_K : map kp_K (il_kps s1) = map kp_K (il_kps s);
  sm_d : map kp_d (il_kps s1) = map kp_d (il_kps s); sm_inv : inv_kps Inv (il_kps s1); sm_vals : vals V (il_kps s1) = vals V (il_kps s);
  sm_Zb : exists Zb, il_Zb s1 = Some Zb /\ times Zb = ts; sm_Z : il_Z s1 = il_Z s; sm_stats : il_stats s1 = il_stats s }.
Lemma map_nth {A B} (f : A -> B) l l' k a : map f l' = map f l -> nth_error l k = Some a -> exists b, nth_error l' k = Some b /\ f b = f a.
Proof.
  intros E H. assert (G : nth_error (map f l') k = Some (f a)) by (rewrite E; now apply map_nth_error).
  rewrite nth_error_map in G. destruct (nth_error l' k) as [b|]; [|discriminate]. exists b. split; [reflexivity|]. injection G as ->. reflexivity.
Qed.
Lemma law_same alpha (kps kps' : list (KPF F CS)) Z Z' : map kp_K kps' = map kp_K kps -> map kp_d kps' = map kp_d kps ->
  obeys_law n m alpha kps' Z Z' -> obeys_law n m alpha kps Z Z'.
Proof.
  intros H1 H2 H k kp z z' z'' E1 E2 E3 E4 i Hi.
  destruct (map_nth kp_K kps kps' k kp H1 E1) as (b & Eb & HK). destruct (map_nth kp_d kps kps' k kp H2 E1) as (b' & Eb' & Hd).
  rewrite Eb in Eb'. injection Eb' as <-. rewrite <- HK, <- Hd. eapply H; eauto.
Qed.
Lemma simulates_same s s1 ts Z alpha Z' : ls_same s s1 ts -> simulates n m s1 ts Z alpha Z' -> simulates n m s ts Z alpha Z'.
Proof.
  intros [A1 A2 A3 A4 A5 A6 A7 A8 A9 A10 A11] [B1 B2 B3]. split; [exact B1| |eapply law_same; eauto]. rewrite <- A2, <- A4. exact B2.
Qed.
Lemma turned_same s s1 ts Z J0 alpha : ls_same s s1 ts -> turned_down n m V s1 ts Z J0 alpha -> turned_down n m V s ts Z J0 alpha.
Proof.
  intros HS. pose proof HS as [A1 A2 [A3 A3'] A4 A5 A6 A7 A8 A9 A10 A11]. unfold turned_down. rewrite A1, A3, A3'.
  intros [(Z' & B1 & B2 & B3)|(B0 & Z' & z & z' & B1 & B2)].
  - left. exists Z'. split; [eapply simulates_same; eauto|]. split; [exact B2|]. intros zz. specialize (B3 zz). unfold total_cost in *.
    unfold vals in A8. rewrite A8 in B3. exact B3.
  - right. split; [exact B0|]. exists Z', z, z'. split; [eapply simulates_same; eauto|exact B2].
Qed.

(** one more step tried and turned down *)
Lemma line_search_trace iters : forall i J0 Z s0 s ts ok J s1,
  ls_same s0 s ts -> length (il_kps s0) = S (il_N s0) -> length Z = S (il_N s0) -> length ts = S (il_N s0) ->
  (forall j, j < i -> turned_down n m V s0 ts Z J0 (step_size (o_ls_factor (il_opts s0)) j)) ->
  line_search ops n m iters J0 (step_size (o_ls_factor (il_opts s0)) i) Z s = (ok, J, s1) ->
  (ok = false /\ il_Z s1 = il_Z s0 /\ il_stats s1 = il_stats s0 /\ (forall j, j < i + iters -> turned_down n m V s0 ts Z J0 (step_size (o_ls_factor (il_opts s0)) j))) \/
  (ok = true /\ exists k Z' z, i <= k < i + iters /\ (forall j, j < k -> turned_down n m V s0 ts Z J0 (step_size (o_ls_factor (il_opts s0)) j)) /\
     il_Zb s1 = Some Z' /\ simulates n m s0 ts Z (step_size (o_ls_factor (il_opts s0)) k) Z' /\ length Z' = length Z /\
     acceptable (il_opts s0) (il_dV0 s0) (il_dV1 s0) J0 (total_cost V s0 Z') (step_size (o_ls_factor (il_opts s0)) k) z /\ J = total_cost V s0 Z' /\
     il_stats s1 = st_log3 J (step_size (o_ls_factor (il_opts s0)) k) z (il_stats s0)).
Proof.
  induction iters as [|it IH]; intros i J0 Z s0 s ts ok J s1 HS Hk HZ Hts Hprev E.
  - cbn [line_search] in E. inversion E; subst. left. rewrite Nat.add_0_r. split; [reflexivity|]. split; [apply HS|]. split; [apply HS|exact Hprev].
  - cbn [line_search] in E. pose proof HS as [A1 A2 [A3 A3'] A4 A5 A6 A7 A8 (Zb & A9 & A9') A10 A11]. rewrite A9 in E.
    set (g := o_ls_factor (il_opts s0)) in *. set (alpha := step_size g i) in *.
    assert (HlZb : length Zb = S (il_N s0)). { rewrite <- A9' in Hts. unfold times in Hts. rewrite map_length in Hts. exact Hts. }
    assert (Hlk : length (il_kps s) = S (il_N s0)). { rewrite <- (map_length kp_dyn), A4, map_length. exact Hk. }
    assert (Hdyn : map kp_dyn (il_kps s) = map kp_dyn (il_kps s0)) by exact A4.
    unfold il_rollout_closed in E.
    pose proof (roll_closed_len n m (il_opts s) alpha (il_kps s) (vstore n (il_x0 s)) Z Zb) as HL.
    destruct (roll_closed n m (il_opts s) alpha (vstore n (il_x0 s)) (il_kps s) Z Zb) as [[e|] Zb1] eqn:ER.
    + (* stopped *)
      assert (HS' : ls_same s0 (il_set_status (il_set_Zb s (Some Zb1)) e) ts).
      { split; cbn; auto. exists Zb1. split; [reflexivity|]. rewrite <- A9'. exact (proj2 HL). }
      assert (Htd : turned_down n m V s0 ts Z J0 alpha).
      { apply (turned_same s0 s ts Z J0 alpha HS). right.
        destruct (roll_closed_prefix (il_opts s) alpha (il_kps s) (vstore n (il_x0 s)) Z Zb Zb1 e ER ltac:(lia)) as (H1 & p & a & b & H2 & H3 & H4 & H5 & H6 & H7).
        split; [exact H1|]. exists p, a, b. split; [|split; [exact H2|exact H7]]. split; [rewrite <- A9'; exact H3| |exact H6].
        apply follows_feasible; [exact H4|exact H5]. }
      change (div alpha (o_ls_factor (il_opts s))) with (div alpha (o_ls_factor (il_opts s))) in E. rewrite A1 in E. fold g in E.
      apply (IH (S i) J0 Z s0 _ ts ok J s1 HS' Hk HZ Hts) in E.
      2:{ intros j Hj. destruct (Nat.eq_dec j i) as [->|]; [exact Htd|apply Hprev; lia]. }
      destruct E as [(B1 & B2 & B3 & B4)|(B1 & k & Z' & z & B2 & B3)].
      * left. split; [exact B1|]. split; [exact B2|]. split; [exact B3|]. intros j Hj. apply B4. lia.
      * right. split; [exact B1|]. exists k, Z', z. split; [lia|exact B3].
    + cbn [il_Zb il_set_status il_set_Zb] in E.
      assert (Hsim : simulates n m s0 ts Z alpha Zb1).
      { apply (simulates_same s0 s ts Z alpha Zb1 HS).
        destruct (roll_closed_spec n m (il_opts s) alpha (il_kps s) (vstore n (il_x0 s)) Z Zb Zb1 ltac:(lia) ltac:(lia) ER) as (H1 & H2 & _).
        split; [|apply follows_feasible; [exact H1|exact H2]|exact (roll_closed_law (il_opts s) alpha (il_kps s) (vstore n (il_x0 s)) Z Zb Zb1 ER ltac:(lia) ltac:(lia))].
        destruct HL as [HL1 HL2]. cbn [snd] in HL1, HL2. rewrite HL1, HL2, A9', HlZb, <- Hts. symmetry. apply firstn_all. }
      assert (HlZ1 : length Zb1 = length Z). { destruct HL as [HL1 _]. cbn [snd] in HL1. lia. }
      unfold il_cost in E. cbn [il_kps il_set_status il_set_Zb] in E.
      pose proof (calc_costs_val ops Inv V HV (il_kps s) Zb1 A7) as HJ.
      destruct (calc_costs_gains ops (il_kps s) Zb1) as [HK Hd].
      pose proof (sim_calc_costs ops (Rv Inv V) (Rv_refl Inv V) (Rv_e ops Inv V HV) (il_kps s) Zb1) as Hks.
      destruct (sim_vals Inv V _ _ Hks A7) as [HI HVs]. pose proof (kps_dyns _ _ _ Hks) as Hdy.
      destruct (calc_costs ops (il_kps s) Zb1) as [Js ks] eqn:EC. cbn [fst snd] in *.
      match type of E with (if leb _ (if _ then div (sub _ _) ?e else _) && _ && _ then (_, _, il_set_stats ?ss _) else _) = _ => set (s2 := ss) in * end.
      assert (HS' : ls_same s0 s2 ts).
      { unfold s2. split; cbn; auto; try congruence; [unfold vals in *; congruence|]. exists Zb1. split; [reflexivity|]. destruct HL as [_ HL2]. cbn [snd] in HL2. congruence. }
      assert (EJ : lsum Js = total_cost V s0 Zb1) by (rewrite HJ, A8; reflexivity).
      assert (D0 : il_dV0 s2 = il_dV0 s0) by (rewrite <- A3; reflexivity). assert (D1 : il_dV1 s2 = il_dV1 s0) by (rewrite <- A3'; reflexivity).
      assert (D2 : il_stats s2 = il_stats s0) by (rewrite <- A11; reflexivity). assert (D3 : il_Zb s2 = Some Zb1) by reflexivity.
      rewrite D0, D1, EJ, A1 in E. fold g in E.
      pose proof (accepted_acceptable (il_opts s0) (il_dV0 s0) (il_dV1 s0) J0 (total_cost V s0 Zb1) alpha) as [HA HA']. cbv zeta in HA, HA'.
      match type of E with (if ?c then _ else _) = _ => destruct c eqn:Ec end.
      * inversion E; subst ok J s1; clear E. right. split; [reflexivity|]. eexists i, Zb1, _. split; [lia|]. split; [exact Hprev|].
        split; [exact D3|]. split; [exact Hsim|]. split; [exact HlZ1|]. split; [exact (HA eq_refl)|]. split; [reflexivity|].
        unfold st_log3. rewrite <- D2. reflexivity.
      * apply (IH (S i) J0 Z s0 _ ts ok J s1 HS' Hk HZ Hts) in E.
        2:{ intros j Hj. destruct (Nat.eq_dec j i) as [->|]; [|apply Hprev; lia]. left. exists Zb1. split; [exact Hsim|]. split; [exact HlZ1|exact (HA' eq_refl)]. }
        destruct E as [(B1 & B2 & B3 & B4)|(B1 & k & Z' & z & B2 & B3)].
        -- left. split; [exact B1|]. split; [exact B2|]. split; [exact B3|]. intros j Hj. apply B4. lia.
        -- right. split; [exact B1|]. exists k, Z', z. split; [lia|exact B3].
Qed.

Lemma forward_search Z s Zb : il_Z s = Some Z -> il_Zb s = Some Zb -> length (il_kps s) = S (il_N s) -> length Z = S (il_N s) -> length Zb = S (il_N s) ->
  inv_kps Inv (il_kps s) ->
  let s3 := il_forward_pass ops n m Z s in let g := o_ls_factor (il_opts s) in let J0 := lsum (il_costs s) in let N := Z.to_nat (o_ls_iters (il_opts s)) in
  (il_Z s3 = Some Z /\ il_stats s3 = il_stats s /\ forall j, j < N -> turned_down n m V s (times Zb) Z J0 (step_size g j)) \/
  (exists k Z' z, k < N /\ (forall j, j < k -> turned_down n m V s (times Zb) Z J0 (step_size g j)) /\
     il_Z s3 = Some Z' /\ simulates n m s (times Zb) Z (step_size g k) Z' /\ length Z' = length Z /\
     acceptable (il_opts s) (il_dV0 s) (il_dV1 s) J0 (total_cost V s Z') (step_size g k) z /\
     il_stats s3 = st_log3 (total_cost V s Z') (step_size g k) z (il_stats s)).
Proof.
  intros HZ HZb Hk HlZ HlZb Hi s3 g J0 N. subst s3. unfold il_forward_pass. fold J0 N.
  destruct (line_search ops n m N J0 one Z s) as [[ok J] s1] eqn:E.
  assert (HS : ls_same s s (times Zb)) by (split; auto; exists Zb; auto).
  change (@one F) with (step_size g 0) in E.
  destruct (line_search_trace N 0 J0 Z s s (times Zb) ok J s1 HS Hk HlZ ltac:(unfold times; rewrite map_length; auto) ltac:(intros; lia) E) as [(-> & B2 & B3 & B4)|(-> & k & Z' & z & B1 & B2 & B3 & B4 & B5 & B6 & B7 & B8)].
  - left. rewrite <- HZ, <- B2, <- B3. destruct (ltb J0 J0); cbn; auto.
  - right. exists k, Z', z. split; [lia|]. split; [exact B2|]. subst J. destruct (ltb J0 _); cbn; repeat split; auto; apply B4 || apply B6.
Qed.
End LS.
