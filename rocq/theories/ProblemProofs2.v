From Coq Require Import ZArith List Bool Lia.
From Verif Require Import Base Lin ConModel LogModel StatsModel TrajModel IlqrModel CostInst AlModel ProblemModel ProblemSpec ProblemProofs.
Import ListNotations.
Local Open Scope Z_scope.

Lemma for_z_and (f : Z -> bool -> res bool) (b : Z -> bool) l : (forall k v, In k l -> f k v = Ok (v && b k)) ->
  forall v, for_z l f v = Ok (v && forallb b l).
Proof.
  induction l as [|k l IH]; intros H v; simpl; [now rewrite andb_true_r|]. rewrite H by (left; reflexivity). simpl.
  rewrite IH by (intros; apply H; right; assumption). now rewrite andb_assoc.
Qed.
Lemma in_zseq a n k : In k (zseq a n) <-> a <= k < a + Z.of_nat n.
Proof.
  unfold zseq. rewrite in_map_iff. split.
  - intros (i & <- & Hi). apply in_seq in Hi. lia.
  - intros H. exists (Z.to_nat (k - a)). split; [lia|]. apply in_seq. lia.
Qed.
Definition some {A} (o : option A) : bool := match o with Some _ => true | None => false end.
Lemma some_true {A} (o : option A) : some o = true <-> o <> None.
Proof. destruct o; simpl; split; congruence. Qed.
Lemma vget_z {A} (l : list A) k a : 0 <= k -> nth_error l (Z.to_nat k) = Some a -> vget l k = Ok a.
Proof. intros H E. unfold vget. destruct (k <? 0) eqn:E0; [lia|]. now rewrite E. Qed.
Lemma vat_z {A} (l : list A) k a : 0 <= k -> nth_error l (Z.to_nat k) = Some a -> vat l k = Ok a.
Proof. intros H E. unfold vat. destruct (k <? 0) eqn:E0; [lia|]. now rewrite E. Qed.

Section Full.
Context {F : Scalar} {C : Type}.
(** the data of a problem seen through total functions of the index *)
Record view (N : Z) (h : heap F) (p : Prob F C) (cost : Z -> option C) (model : Z -> option (Model F)) (x0 : list F) : Prop := mkView {
  vw_N : pr_N p = Some N;
  vw_cost : forall k, 0 <= k <= N -> nth_error (pr_costs p) (Z.to_nat k) = Some (cost k);
  vw_model : forall k, 0 <= k <= N -> nth_error (pr_models p) (Z.to_nat k) = Some (model k);
  vw_init : h_get (pr_init p) h = x0 }.
Definition check0 (model : option (Model F)) (x0 : list F) : bool :=
  match x0 with [] => false | _ => match model with Some md => md_n md =? Z.of_nat (length x0) | None => false end end.
Definition check (N : Z) (cost : Z -> option C) (model : Z -> option (Model F)) (x0 : list F) (k : Z) : bool :=
  some (cost k) && (if k <? N then some (model k) else true) && (if k =? 0 then check0 (model 0) x0 else true).

Lemma check_step N h p cost model x0 k v : view N h p cost model x0 -> 0 <= k <= N ->
  pr_check_k h p N k v = if (k =? 0) && negb (Nat.eqb (length x0) 0) && negb (some (model 0)) then UB else Ok (v && check N cost model x0 k).
Proof.
  intros [V1 V2 V3 V4] Hk. unfold pr_check_k. rewrite (vget_z _ _ _ (proj1 Hk) (V2 k Hk)). cbn [bind]. rewrite V4.
  rewrite (vget_z _ _ _ (proj1 Hk) (V3 k Hk)). cbn [bind].
  destruct (k =? 0) eqn:Ek.
  - assert (k = 0) by lia. subst k. unfold check. rewrite Z.eqb_refl.
    assert (E : (if 0 <? N then Ok (some (model 0)) else Ok true) = Ok (if 0 <? N then some (model 0) else true)) by (destruct (0 <? N); reflexivity).
    unfold some in E at 1. rewrite E. cbn [bind]. unfold check0.
    destruct x0 as [|a x0].
    + change (0 <? Z.of_nat (length (@nil F))) with false. cbn. rewrite ?andb_false_r. reflexivity.
    + replace (0 <? Z.of_nat (length (a :: x0))) with true by (symmetry; apply Z.ltb_lt; simpl length; lia).
      destruct (model 0) as [md|]; cbn -[Z.of_nat]; rewrite ?andb_true_r; reflexivity.
  - unfold check. rewrite Ek. cbn [andb]. rewrite andb_true_r. destruct (k <? N); reflexivity.
Qed.
Lemma fully_defined_spec N h p cost model x0 : 0 <= N -> view N h p cost model x0 ->
  pr_is_fully_defined h p = if negb (Nat.eqb (length x0) 0) && negb (some (model 0)) then UB else Ok (forallb (check N cost model x0) (zseq 0 (Z.to_nat (N + 1)))).
Proof.
  intros HN V. unfold pr_is_fully_defined, pr_segments. rewrite (vw_N _ _ _ _ _ _ V). cbn [bind].
  destruct (negb (Nat.eqb (length x0) 0) && negb (some (model 0))) eqn:E.
  - replace (Z.to_nat (N + 1)) with (S (Z.to_nat N)) by lia. rewrite zseq_S. cbn [for_z].
    rewrite (check_step _ _ _ _ _ _ 0 true V) by lia. cbn [Z.eqb andb]. rewrite E. reflexivity.
  - rewrite (for_z_and _ (check N cost model x0)); [reflexivity|]. intros k v Hk. apply in_zseq in Hk.
    rewrite (check_step _ _ _ _ _ _ k v V) by lia. destruct (k =? 0); [|reflexivity]. cbn [andb]. rewrite E. reflexivity.
Qed.
Lemma checks_true N cost model x0 : 0 <= N ->
  forallb (check N cost model x0) (zseq 0 (Z.to_nat (N + 1))) = true <->
  (forall k, 0 <= k < N -> model k <> None) /\ (forall k, 0 <= k <= N -> cost k <> None) /\ check0 (model 0) x0 = true.
Proof.
  intros HN. rewrite forallb_forall. split.
  - intros H. split; [|split].
    + intros k Hk. specialize (H k). rewrite in_zseq in H. specialize (H ltac:(lia)). unfold check in H.
      apply andb_prop in H. destruct H as [H _]. apply andb_prop in H. destruct H as [_ H]. destruct (k <? N) eqn:E; [|lia]. now apply some_true.
    + intros k Hk. specialize (H k). rewrite in_zseq in H. specialize (H ltac:(lia)). unfold check in H.
      apply andb_prop in H. destruct H as [H _]. apply andb_prop in H. destruct H as [H _]. now apply some_true.
    + specialize (H 0). rewrite in_zseq in H. specialize (H ltac:(lia)). unfold check in H. apply andb_prop in H. exact (proj2 H).
  - intros (H1 & H2 & H3) k Hk. apply in_zseq in Hk. unfold check. rewrite (proj2 (some_true _) (H2 k ltac:(lia))).
    destruct (k <? N) eqn:E; [rewrite (proj2 (some_true _) (H1 k ltac:(lia)))|]; destruct (k =? 0); auto.
Qed.

Lemma run_view debug N h0 s0 (os : list (pop F C)) h p : 0 <= N -> pr_new N h0 = Ok s0 -> pr_run debug os s0 = Ok (h, p) ->
  view N h p (cost_given os) (fun k => last_at (model_calls N (dyn_calls os)) k) (init_given os).
Proof.
  intros HN H0 Hr. destruct (contents_run debug N h0 s0 os h p HN H0 Hr). constructor; auto. rewrite ct_loc. exact ct_init.
Qed.
Theorem fully_defined_run debug N h0 s0 (os : list (pop F C)) h p : 1 <= N -> pr_new N h0 = Ok s0 -> pr_run debug os s0 = Ok (h, p) ->
  (init_given os <> [] /\ dyn_given os 0 = None -> pr_is_fully_defined h p = UB) /\
  (~ (init_given os <> [] /\ dyn_given os 0 = None) -> exists b, pr_is_fully_defined h p = Ok b /\ (b = true <-> complete N os)).
Proof.
  intros HN H0 Hr. pose proof (run_view debug N h0 s0 os h p ltac:(lia) H0 Hr) as V.
  rewrite (fully_defined_spec N _ _ _ _ _ ltac:(lia) V).
  assert (Hm : forall k, 0 <= k < N -> last_at (model_calls N (dyn_calls os)) k = dyn_given os k) by (intros; apply model_calls_lt; lia).
  rewrite (Hm 0) by lia. split.
  - intros [H1 H2]. rewrite H2. destruct (init_given os); [congruence|]. reflexivity.
  - intros Hn. assert (E : negb (Nat.eqb (length (init_given os)) 0) && negb (some (dyn_given os 0)) = false).
    { destruct (init_given os); [reflexivity|]. destruct (dyn_given os 0); [reflexivity|]. elim Hn. split; congruence. }
    rewrite E. eexists. split; [reflexivity|]. rewrite checks_true by lia. rewrite (Hm 0) by lia. unfold complete. split.
    + intros (H1 & H2 & H3). split; [intros k Hk; rewrite <- Hm by lia; apply H1; lia|]. split; [exact H2|].
      unfold check0 in H3. destruct (init_given os) as [|a l]; [discriminate|]. split; [congruence|]. intros md Hd. rewrite Hd in H3. lia.
    + intros (H1 & H2 & H3 & H4). split; [intros k Hk; rewrite Hm by lia; apply H1; lia|]. split; [exact H2|].
      unfold check0. destruct (init_given os) as [|a l] eqn:Ei; [congruence|]. specialize (H1 0 ltac:(lia)).
      destruct (dyn_given os 0) as [md|] eqn:Ed; [|congruence]. specialize (H4 md eq_refl). lia.
Qed.
(** a problem without segments: once the initial state is set, the check always dereferences null (debug builds) *)
Theorem fully_defined_zero h0 s0 (os : list (pop F C)) h p : pr_new 0 h0 = Ok s0 -> pr_run true os s0 = Ok (h, p) -> init_given os <> [] ->
  pr_is_fully_defined h p = UB.
Proof.
  intros H0 Hr Hi. pose proof (run_view true 0 h0 s0 os h p ltac:(lia) H0 Hr) as V.
  rewrite (fully_defined_spec 0 _ _ _ _ _ ltac:(lia) V).
  pose proof (debug_range 0 h0 s0 os h p ltac:(lia) H0 Hr) as Hd.
  assert (Hn : dyn_calls os = []). { destruct (dyn_calls os); [reflexivity|]. inversion Hd; subst. lia. }
  rewrite Hn. destruct (init_given os); [congruence|reflexivity].
Qed.
End Full.
