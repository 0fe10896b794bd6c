From Coq Require Import ZArith List Bool Lia.
From Verif Require Import Base Lin ConModel LogModel StatsModel TrajModel IlqrModel CostInst AlModel ProblemModel ProblemSpec.
From Verif Require Import ProblemProofs ProblemProofs2 ProblemProofs3 ProblemProofs4 TaskModel SolverObjModel SolverObjSpec.
Import ListNotations.
Local Open Scope Z_scope.

Section P.
Context {F : Scalar} {C : Type}.
Lemma zseq_app a n : forall m, zseq a (n + m) = zseq a n ++ zseq (a + Z.of_nat n) m.
Proof.
  revert a. induction n as [|n IH]; intros a m.
  - simpl. f_equal. lia.
  - cbn [Nat.add]. rewrite !zseq_S, IH. cbn [app]. f_equal. f_equal. f_equal. lia.
Qed.
(** the models stored by a complete debug-accepted history *)
Definition model_at (N : Z) (dyn : Z -> Model F) (k : Z) : Model F := if k =? N then ident_of (dyn (N - 1)) else dyn k.
Definition knot_at {D} (N : Z) (dyn : Z -> Model F) (c : Z -> D) (k : Z) : Dyn F * D := (md_dyn (model_at N dyn k), c k).
Lemma knots_zseq {D} N dyn (c : Z -> D) : 1 <= N -> knots N dyn c = map (knot_at N dyn c) (zseq 0 (Z.to_nat (N + 1))).
Proof.
  intros HN. unfold knots, zseq. rewrite map_map. replace (Z.to_nat (N + 1)) with (S (Z.to_nat N)) by lia. apply map_ext. intros i. rewrite Z.add_0_l.
  unfold knot_at, model_at. f_equal. destruct (Nat.eqb i (Z.to_nat N)) eqn:E.
  - apply Nat.eqb_eq in E. replace (Z.of_nat i =? N) with true by (symmetry; apply Z.eqb_eq; lia). reflexivity.
  - apply Nat.eqb_neq in E. replace (Z.of_nat i =? N) with false by (symmetry; apply Z.eqb_neq; lia). reflexivity.
Qed.
Lemma knots_length {D} N (dyn : Z -> Model F) (c : Z -> D) : length (knots N dyn c) = S (Z.to_nat N).
Proof. unfold knots. rewrite map_length, seq_length. reflexivity. Qed.
Section Given.
Context (on om : option nat) (N : Z) (h0 : heap F) (s0 : heap F * Prob F C) (os : list (pop F C)) (h : heap F) (p : Prob F C)
  (dyn : Z -> Model F) (c : Z -> C).
Context (G : given on om N os dyn c) (H0 : pr_new N h0 = Ok s0) (Hr : pr_run true os s0 = Ok (h, p)).
Lemma gv_contents : contents N (length h0) os h p.
Proof. apply (contents_run true N h0 s0 os h p); auto. destruct G. lia. Qed.
Lemma gv_models k : 0 <= k <= N -> last_at (model_calls N (dyn_calls os)) k = Some (model_at N dyn k).
Proof.
  intros Hk. destruct G as [HN _ Hd _ _]. unfold model_at. destruct (k =? N) eqn:E.
  - apply Z.eqb_eq in E. subst k. rewrite (model_calls_N N _ (debug_range N h0 s0 os h p ltac:(lia) H0 Hr)).
    pose proof (Hd (N - 1) ltac:(lia)) as E1. unfold dyn_given in E1. rewrite E1. reflexivity.
  - apply Z.eqb_neq in E. rewrite model_calls_lt by lia. apply Hd. lia.
Qed.
Lemma gv_pos : 0 < md_n (dyn (N - 1)) /\ 0 < md_m (dyn (N - 1)).
Proof.
  destruct G as [HN _ Hd _ _]. pose proof (Hd (N - 1) ltac:(lia)) as E. pose proof (debug_dyn_ok N h0 s0 os h p ltac:(lia) H0 Hr) as Hf.
  rewrite Forall_forall in Hf. destruct (Hf _ (last_at_in _ _ _ E)) as (_ & md' & E2 & Hpos). injection E2 as ->. apply Hpos. reflexivity.
Qed.
Lemma gv_dims k : 0 <= k <= N -> dim_ok on (md_n (model_at N dyn k)) = true /\ dim_ok om (md_m (model_at N dyn k)) = true.
Proof.
  intros Hk. destruct G as [HN _ _ _ Hd]. assert (exists j, 0 <= j < N /\ md_n (model_at N dyn k) = md_n (dyn j) /\ md_m (model_at N dyn k) = md_m (dyn j)) as (j & Hj & -> & ->).
  { unfold model_at. destruct (k =? N) eqn:E; [exists (N - 1); split; [lia|split; reflexivity]|]. apply Z.eqb_neq in E. exists k. split; [lia|auto]. }
  destruct (Hd j Hj) as [D1 D2]. unfold dim_ok. split; [destruct on|destruct om]; auto; apply Z.eqb_eq; assumption.
Qed.
Lemma gv_defined : pr_is_fully_defined h p = Ok true.
Proof.
  destruct G as [HN (K1 & K2 & K3 & K4) Hd Hc _]. pose proof gv_contents as Hp.
  assert (V : view N h p (cost_given os) (fun k => last_at (model_calls N (dyn_calls os)) k) (init_given os)).
  { destruct Hp. constructor; auto. rewrite ct_loc. exact ct_init. }
  rewrite (fully_defined_spec N _ _ _ _ _ ltac:(lia) V). rewrite (gv_models 0) by lia. cbn [some negb]. rewrite andb_false_r. f_equal.
  apply checks_true; [lia|]. split; [intros k Hk; rewrite gv_models by lia; discriminate|]. split; [intros k Hk; rewrite Hc by lia; discriminate|].
  unfold check0. rewrite (gv_models 0) by lia. destruct (init_given os); [congruence|]. apply Z.eqb_eq.
  unfold model_at. destruct (0 =? N) eqn:E; [lia|]. apply K4. apply Hd. lia.
Qed.
Lemma copy_range debug a b : 0 <= a <= N -> a <= b <= N + 1 ->
  il_copy_problem debug on om N h p a b = Ok (map (knot_at N dyn c) (zseq a (Z.to_nat (b - a)))).
Proof.
  intros Ha Hb. pose proof gv_contents as Hp. unfold il_copy_problem.
  assert (A1 : altro_assert debug true = Ok tt) by (unfold altro_assert; destruct debug; reflexivity).
  replace ((0 <=? a) && (a <=? N)) with true by lia. rewrite A1. cbn [bind].
  replace ((0 <=? b) && (b <=? N + 1)) with true by lia. rewrite A1. cbn [bind].
  rewrite gv_defined. cbn [bind]. rewrite A1. assert (A2 : (if debug then Ok tt else Ok tt) = Ok tt) by (destruct debug; reflexivity). rewrite A2. cbn [bind].
  rewrite (for_z_app _ (knot_at N dyn c)); [reflexivity|].
  intros k acc Hk. apply in_zseq in Hk. rewrite (get_dyn_ok debug N (length h0) os h p k (model_at N dyn k) Hp) by (try apply gv_models; lia). cbn [bind].
  rewrite (get_cost_ok debug N (length h0) os h p k Hp) by lia. rewrite (gv_cost _ _ _ _ _ _ G) by lia.
  destruct (gv_dims k ltac:(lia)) as [D1 D2]. rewrite D1, D2, A1. cbn [bind]. rewrite A2. reflexivity.
Qed.
Lemma so_copy_range debug a b s : so_N s = N -> 0 <= a <= N -> a <= b <= N + 1 ->
  so_copy debug on om h p a b s = Ok (mkSol N (Some (length h0)) true (so_kps s ++ map (knot_at N dyn c) (zseq a (Z.to_nat (b - a))))).
Proof.
  intros Hs Ha Hb. unfold so_copy. rewrite Hs, copy_range by assumption. cbn [bind]. rewrite (ct_loc _ _ _ _ _ gv_contents). reflexivity.
Qed.
Lemma so_init_ok debug s : so_N s = N -> so_init debug on om h p s = Ok (mkSol N (Some (length h0)) true (so_kps s ++ knots N dyn c)).
Proof.
  intros Hs. unfold so_init. rewrite Hs.
  assert (A : assert_N debug p (fun M => M =? N) = Ok tt).
  { unfold assert_N, pr_segments. rewrite (ct_N _ _ _ _ _ gv_contents). cbn [bind]. rewrite Z.eqb_refl. unfold altro_assert. destruct debug; reflexivity. }
  rewrite A. cbn [bind]. pose proof (gv_N _ _ _ _ _ _ G). rewrite so_copy_range by lia. rewrite knots_zseq by assumption. rewrite Z.sub_0_r. reflexivity.
Qed.
Lemma so_of_ok debug : so_of debug on om h p = Ok (mkSol N (Some (length h0)) true (knots N dyn c)).
Proof.
  unfold so_of, pr_segments. rewrite (ct_N _ _ _ _ _ gv_contents). cbn [bind]. rewrite so_init_ok by reflexivity. reflexivity.
Qed.
Lemma so_ranges_ok debug l : forall a ks cell set, 0 <= a <= N -> cut_at a (N + 1) l ->
  so_ranges debug on om h p l (mkSol N cell set ks) = Ok (mkSol N (Some (length h0)) true (ks ++ map (knot_at N dyn c) (zseq a (Z.to_nat (N + 1 - a))))).
Proof.
  induction l as [|x l IH]; intros a ks cell set Ha Hl; [elim Hl|]. destruct l as [|y l].
  - destruct Hl as [-> Hl]. lia.
  - destruct Hl as (-> & Hlt & Hr').
    assert (E : forall s, so_ranges debug on om h p (a :: y :: l) s = do s' <- so_copy debug on om h p a y s ; so_ranges debug on om h p (y :: l) s') by reflexivity.
    rewrite E. clear E.
    assert (Hy : y <= N + 1).
    { clear - Hr'. revert y Hr'. induction l as [|z l IH]; intros y H; [destruct H; lia|]. destruct H as (_ & H1 & H2). specialize (IH z H2). lia. }
    rewrite so_copy_range by (cbn [so_N]; lia). cbn [bind so_kps].
    destruct (Z.eq_dec y (N + 1)) as [->|Hne].
    + destruct l as [|z l]; [|exfalso].
      * cbn [so_ranges]. reflexivity.
      * destruct Hr' as (_ & H1 & H2). assert (z <= N + 1).
        { clear - H2. revert z H2. induction l as [|w l IH]; intros z H; [destruct H; lia|]. destruct H as (_ & H1 & H2). specialize (IH w H2). lia. }
        lia.
    + rewrite (IH y) by (try assumption; lia). rewrite <- app_assoc, <- map_app. do 4 f_equal.
      replace (Z.to_nat (N + 1 - a)) with (Z.to_nat (y - a) + Z.to_nat (N + 1 - y))%nat by lia. rewrite zseq_app. f_equal. f_equal. lia.
Qed.
End Given.
Lemma so_data_ok debug (h : heap F) N cell (ks : list (Dyn F * C)) : length ks = S (Z.to_nat N) -> 0 <= N ->
  so_data debug h (mkSol N (Some cell) true ks) = Ok (h_get cell h, ks).
Proof.
  intros Hl HN. unfold so_data. cbn [so_set so_cell so_N so_kps]. unfold altro_assert. replace (debug && negb true) with false by (destruct debug; reflexivity).
  assert (E : Z.to_nat (N + 1) = length ks) by lia. rewrite E, Nat.leb_refl, firstn_all. destruct debug; reflexivity.
Qed.
End P.
