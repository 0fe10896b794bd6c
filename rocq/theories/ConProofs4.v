(** Violations, penalties, constraint information. *)
From Coq Require Import Reals Lra Lia List Bool ZArith Psatz Relations Permutation Sorted Floats.SpecFloat.
From Coquelicot Require Import Coquelicot.
From Verif Require Import Base Lin RLin RDer ConModel ConSpec ConProofs ConProofs2 ConProofs3.
Import List ListNotations.
Local Open Scope R_scope.

(** * C08 *)
Lemma cv_violation_comp (v : CV RS) i : (i < cv_p v)%nat -> cv_violation v i = sviol (cv_type v) (cv_c v i).
Proof.
  intros Hi. unfold cv_violation. rewrite vstore_lt by auto. unfold vsub, sviol.
  destruct (cv_type v).
  - rewrite (proj_zero (F:=RS)) by auto. rs. lra.
  - rewrite (proj_id (F:=RS)) by auto. rs. lra.
  - rewrite proj_neg by auto. rs. unfold Rmin, Rmax. destruct (Rle_dec 0 _); lra.
Qed.
Lemma sviol_viol K c : Rabs (sviol K c) = viol K c.
Proof. destruct K; simpl; auto using Rabs_R0. apply Rabs_pos_eq. apply Rmax_l. Qed.
Lemma viol_nonneg K c : 0 <= viol K c.
Proof. rewrite <- sviol_viol. apply Rabs_pos. Qed.
Definition max_viol_spec (P : cone -> R -> Prop) (M : R) : Prop :=
  0 <= M /\ (forall K c, P K c -> viol K c <= M) /\ (M = 0 \/ exists K c, P K c /\ M = viol K c).
Lemma cv_max_violation_spec (v : CV RS) :
  max_viol_spec (fun K c => K = cv_type v /\ exists i, (i < cv_p v)%nat /\ c = cv_c v i) (cv_max_violation v).
Proof.
  unfold cv_max_violation. split; [apply rlinf_nonneg|]. split.
  - intros K c [-> (i & Hi & ->)]. rewrite <- sviol_viol, <- cv_violation_comp by auto. now apply rlinf_ub.
  - destruct (rlinf_attained (cv_p v) (cv_violation v)) as [E|(i & Hi & E)]; [left; exact E|].
    right. exists (cv_type v), (cv_c v i). split; [eauto|]. rewrite E, cv_violation_comp by auto. apply sviol_viol.
Qed.
Lemma max_viol_list {A} (f : A -> R) (P : A -> cone -> R -> Prop) l :
  (forall a, In a l -> max_viol_spec (P a) (f a)) ->
  max_viol_spec (fun K c => exists a, In a l /\ P a K c) (rllinf (map f l)).
Proof.
  intros H. split; [apply rllinf_nonneg|]. split.
  - intros K c (a & Ha & Hp). destruct (H a Ha) as (H0 & H1 & _). eapply Rle_trans; [apply H1; eauto|].
    rewrite <- (Rabs_pos_eq (f a)) by auto. apply rllinf_ub. now apply in_map.
  - destruct (rllinf_attained (map f l)) as [E|(x & Hx & E)]; [left; auto|].
    apply in_map_iff in Hx. destruct Hx as (a & <- & Ha). destruct (H a Ha) as (H0 & _ & H2).
    rewrite Rabs_pos_eq in E by auto. rewrite E.
    destruct H2 as [H2|(K & c & Hp & Hc)]; [left; auto|right; exists K, c; eauto].
Qed.
Lemma al_max_violation_spec (a : ALCost RS) :
  max_viol_spec (fun K c => exists v, In v (al_cvs a) /\ K = cv_type v /\ exists i, (i < cv_p v)%nat /\ c = cv_c v i) (al_max_violation a).
Proof.
  unfold al_max_violation. rewrite smax_RS. rs.
  destruct (max_viol_list cv_max_violation (fun v K c => K = cv_type v /\ exists i, (i < cv_p v)%nat /\ c = cv_c v i) (al_eq a)) as (E0 & E1 & E2).
  { intros; apply cv_max_violation_spec. }
  destruct (max_viol_list cv_max_violation (fun v K c => K = cv_type v /\ exists i, (i < cv_p v)%nat /\ c = cv_c v i) (al_ineq a)) as (I0 & I1 & I2).
  { intros; apply cv_max_violation_spec. }
  change (@T RS) with R in *.
  rewrite !Rabs_pos_eq by auto. split; [|split].
  - eapply Rle_trans; [apply E0|apply Rmax_l].
  - intros K c (v & Hv & Hp). apply in_app_or in Hv. destruct Hv as [Hv|Hv].
    + eapply Rle_trans; [apply E1; eauto|apply Rmax_l].
    + eapply Rle_trans; [apply I1; eauto|apply Rmax_r].
  - unfold Rmax. match goal with |- context [Rle_dec ?e ?i] => destruct (Rle_dec e i) end.
    + destruct I2 as [I2|(K & c & (v & Hv & Hp) & I2)]; [left; exact I2|].
      right. exists K, c. split; [|assumption]. exists v. split; auto. apply in_or_app; auto.
    + destruct E2 as [E2|(K & c & (v & Hv & Hp) & E2)]; [left; exact E2|].
      right. exists K, c. split; [|assumption]. exists v. split; auto. apply in_or_app; auto.
Qed.
Lemma als_max_violation_spec (l : list (ALCost RS)) :
  max_viol_spec (fun K c => exists a, In a l /\ exists v, In v (al_cvs a) /\ K = cv_type v /\ exists i, (i < cv_p v)%nat /\ c = cv_c v i)
    (als_max_violation l).
Proof. apply max_viol_list. intros; apply al_max_violation_spec. Qed.

(** after evaluating the AL cost, the stored constraint values are those of the evaluation point *)
Lemma al_eval_stores {F : Scalar} (a : ALCost F) x u :
  let a' := snd (al_eval a x u) in
  al_cost a' = al_cost a /\
  Forall2 (fun v w => same_static v w /\ cv_lam w = cv_lam v /\ cv_pen w = cv_pen v /\ cv_scal w = cv_scal v /\
             forall i, (i < cv_p v)%nat -> cv_c w i = con_eval (cv_con v) x u (cv_c v) i) (al_cvs a) (al_cvs a').
Proof.
  rewrite al_eval_snd. split; [reflexivity|]. unfold al_cvs, al_map, al_set. simpl. rewrite <- map_app.
  apply Forall2_map_r. intros v. repeat split; auto. intros i Hi. simpl. now rewrite vstore_lt.
Qed.

(** * C09 *)
Lemma al_list_set {F : Scalar} K (a : ALCost F) l : K <> IdentityCone -> al_list K (al_set_list K a l) = l.
Proof. destruct K; simpl; congruence. Qed.
Lemma al_set_list_twice {F : Scalar} K (a : ALCost F) l l' : al_set_list K (al_set_list K a l) l' = al_set_list K a l'.
Proof. destruct K; reflexivity. Qed.
Lemma nth_error_split_at {A} (l1 : list A) v l2 : nth_error (l1 ++ v :: l2) (length l1) = Some v.
Proof. rewrite nth_error_app2 by lia. now rewrite Nat.sub_diag. Qed.
Lemma upd_split_at {A} (l1 : list A) v v' l2 : upd (length l1) (fun _ => v') (l1 ++ v :: l2) = l1 ++ v' :: l2.
Proof. induction l1; simpl; auto. now rewrite IHl1. Qed.
Lemma al_upd_at_ok {F : Scalar} debug f (g : CV F -> CV F) K a l1 v l2 :
  f v = Ok (g v) -> K <> IdentityCone -> al_list K a = l1 ++ v :: l2 ->
  al_upd_at debug f K (Z.of_nat (length l1)) a = Ok (al_set_list K a (l1 ++ g v :: l2)).
Proof.
  intros Hf HK Hl. unfold al_upd_at. rewrite Hl.
  assert (Ha : altro_assert debug ((0 <=? Z.of_nat (length l1))%Z && (Z.of_nat (length l1) <? Z.of_nat (length (l1 ++ v :: l2)))%Z) = Ok tt).
  { unfold altro_assert. rewrite app_length. simpl length.
    replace (0 <=? Z.of_nat (length l1))%Z with true by (symmetry; apply Z.leb_le; lia).
    replace (Z.of_nat (length l1) <? Z.of_nat (length l1 + S (length l2)))%Z with true by (symmetry; apply Z.ltb_lt; lia).
    now rewrite andb_false_r. }
  rewrite Ha. simpl. replace (Z.of_nat (length l1) <? 0)%Z with false by (symmetry; apply Z.ltb_ge; lia).
  rewrite Nat2Z.id, nth_error_split_at, Hf. simpl. now rewrite upd_split_at.
Qed.
Lemma for_res_map {F : Scalar} debug f (g : CV F -> CV F) K a l2 : forall l1 b,
  (forall v, In v l2 -> f v = Ok (g v)) -> K <> IdentityCone -> b = al_set_list K a (map g l1 ++ l2) ->
  for_res (seq (length l1) (length l2)) (fun i => al_upd_at debug f K (Z.of_nat i)) b
  = Ok (al_set_list K a (map g (l1 ++ l2))).
Proof.
  induction l2 as [|v l2 IH]; intros l1 b Hf HK Hb; simpl.
  - now rewrite !app_nil_r in *; subst.
  - assert (E : al_upd_at debug f K (Z.of_nat (length l1)) b = Ok (al_set_list K b (map g l1 ++ g v :: l2))).
    { rewrite <- (map_length g l1). apply al_upd_at_ok; auto. { apply Hf; simpl; auto. } subst b. now apply al_list_set. }
    rewrite E. simpl. specialize (IH (l1 ++ [v]) (al_set_list K b (map g l1 ++ g v :: l2))).
    rewrite app_length in IH. simpl in IH. rewrite Nat.add_1_r in IH. rewrite IH; auto.
    + now rewrite <- app_assoc.
    + intros; apply Hf; simpl; auto.
    + subst b. rewrite al_set_list_twice, map_app. simpl. now rewrite <- app_assoc.
Qed.
Lemma for_res_all {F : Scalar} debug f (g : CV F -> CV F) K a :
  (forall v, In v (al_list K a) -> f v = Ok (g v)) ->
  for_res (seq 0 (length (al_list K a))) (fun i => al_upd_at debug f K (Z.of_nat i)) a
  = Ok (al_set_list K a (map g (al_list K a))).
Proof.
  intros Hf. destruct K; try reflexivity.
  - apply (for_res_map debug f g ZeroCone a (al_list ZeroCone a) [] a); auto; try discriminate. destruct a; reflexivity.
  - apply (for_res_map debug f g NegativeOrthant a (al_list NegativeOrthant a) [] a); auto; try discriminate. destruct a; reflexivity.
Qed.
Definition const_pen {F : Scalar} (rho : F) (v : CV F) : CV F := set_pen v (vstore (cv_p v) (fun _ => rho)).
Lemma al_set_penalty_ok {F : Scalar} debug K rho (a : ALCost F) :
  (debug = true -> leb zero rho = true) ->
  al_set_penalty debug K rho a = Ok (al_set_list K a (map (const_pen rho) (al_list K a))).
Proof.
  intros H. apply for_res_all. intros v _. unfold cv_set_penalty, altro_assert.
  destruct debug; simpl; auto. now rewrite H.
Qed.
Lemma als_set_penalty_ok {F : Scalar} debug rho (l : list (ALCost F)) :
  (debug = true -> leb zero rho = true) ->
  als_set_penalty debug rho l = Ok (map (al_map (const_pen rho)) l).
Proof.
  intros H. unfold als_set_penalty. induction l as [|a l IH]; [reflexivity|].
  rewrite al_set_penalty_ok by auto. cbn [bind]. rewrite al_set_penalty_ok by auto. cbn [bind]. rewrite IH. cbn [bind map].
  destruct a; reflexivity.
Qed.
Lemma al_set_scaling_ok {F : Scalar} debug K phi (a : ALCost F) :
  (debug = true -> leb one phi = true) ->
  al_set_scaling debug K phi a = Ok (al_set_list K a (map (fun v => set_scal v phi) (al_list K a))).
Proof.
  intros H. apply for_res_all. intros v _. unfold cv_set_scaling, altro_assert.
  destruct debug; simpl; auto. now rewrite H.
Qed.
Lemma als_set_scaling_ok {F : Scalar} debug phi (l : list (ALCost F)) :
  (debug = true -> leb one phi = true) ->
  als_set_scaling debug phi l = Ok (map (al_map (fun v => set_scal v phi)) l).
Proof.
  intros H. unfold als_set_scaling. induction l as [|a l IH]; [reflexivity|].
  rewrite al_set_scaling_ok by auto. cbn [bind]. rewrite al_set_scaling_ok by auto. cbn [bind]. rewrite IH. cbn [bind map].
  destruct a; reflexivity.
Qed.
(** a rejected penalty is reported in debug builds *)
Lemma al_set_penalty_abort {F : Scalar} K rho (a : ALCost F) :
  leb zero rho = false -> al_list K a <> [] -> al_set_penalty true K rho a = Abort.
Proof.
  intros H Hl. unfold al_set_penalty. destruct (al_list K a) as [|v l] eqn:E; [congruence|].
  cbn [length seq for_res]. unfold al_set_penalty_at, al_upd_at. rewrite E.
  unfold cv_set_penalty, altro_assert. rewrite H. reflexivity.
Qed.

Definition pen_power (k : nat) (v w : CV RS) : Prop :=
  cv_p w = cv_p v /\ cv_scal w = cv_scal v /\ forall i, (i < cv_p v)%nat -> cv_pen w i = cv_pen v i * cv_scal v ^ k.
Lemma Forall2_map_rel (P Q : CV RS -> CV RS -> Prop) f l l' :
  (forall v w, P v w -> Q v (f w)) -> Forall2 P l l' -> Forall2 Q l (map f l').
Proof. intros H; induction 1; simpl; auto. Qed.
Lemma penalties_geometric debug (a0 a : ALCost RS) os :
  al_reach debug a0 os a -> (forall o, In o os -> is_pen_set o = false) ->
  Forall2 (pen_power (length (filter is_pen_update os))) (al_cvs a0) (al_cvs a).
Proof.
  induction 1 as [|os o a a' Hr IH Hs]; intros Hno.
  - simpl. apply ConProofs.Forall2_refl. intros v. repeat split; auto. intros. simpl. lra.
  - assert (Hno' : forall o, In o os -> is_pen_set o = false) by (intros; apply Hno; apply in_or_app; auto).
    specialize (IH Hno'). assert (Ho : is_pen_set o = false) by (apply Hno; apply in_or_app; simpl; auto).
    rewrite filter_app, app_length.
    assert (Hst : forall f, (forall v, cv_p (f v) = cv_p v /\ cv_scal (f v) = cv_scal v /\ cv_pen (f v) = cv_pen v) ->
      Forall2 (pen_power (length (filter is_pen_update os) + 0)) (al_cvs a0) (al_cvs (al_map f a))).
    { intros f Hf. rewrite Nat.add_0_r. unfold al_cvs at 2, al_map, al_set. simpl. rewrite <- map_app.
      eapply Forall2_map_rel; [|apply IH]. intros v w (A & B & C). destruct (Hf w) as (D & E & G).
      split; [congruence|]. split; [congruence|]. intros i Hi. rewrite G. auto. }
    destruct o; simpl in Ho; try discriminate; simpl in Hs; inversion Hs; subst; clear Hs; simpl filter; simpl length.
    + rewrite al_eval_snd. apply Hst. intros; repeat split.
    + rewrite al_gradient_snd. apply Hst. intros; repeat split.
    + rewrite al_hessian_snd. apply Hst. intros; repeat split.
    + apply Hst. intros; repeat split.
    + unfold al_update_penalties, al_cvs at 2, al_map, al_set. simpl. rewrite <- map_app.
      eapply Forall2_map_rel; [|apply IH]. intros v w (A & B & C).
      split; [exact A|]. split; [exact B|]. intros i Hi. simpl.
      rewrite vstore_lt by (rewrite A; auto). rs. rewrite C, B by auto. rewrite pow_add. simpl. ring.
    + apply Hst. intros; repeat split.
Qed.

(** uniformity of the penalty vector: holds for every scalar type *)
Definition pen_uniform {F : Scalar} (v : CV F) : Prop :=
  forall i j, (i < cv_p v)%nat -> (j < cv_p v)%nat -> cv_pen v i = cv_pen v j.
Lemma penalties_uniform {F : Scalar} debug n m (cost : UCost F) eqs ineqs os a :
  al_reach debug (al_make n m cost eqs ineqs) os a -> forall v, In v (al_cvs a) -> pen_uniform v.
Proof.
  intros Hr. apply al_reach_rel in Hr. destruct Hr as (_ & _ & _ & H4 & H5).
  assert (G : forall K cs l, Forall2 cv_steps (map (cv_make (F:=F) n m K) cs) l -> Forall pen_uniform l).
  { intros K cs l HF. eapply (Forall2_Forall pen_uniform); [|apply HF|].
    - apply cv_steps_inv. intros v v' Hs Hu. destruct Hs; try exact Hu.
      + intros i j Hi Hj. unfold cv_p in *. simpl in *. rewrite !vstore_lt by auto. f_equal. now apply Hu.
      + intros i j Hi Hj. unfold cv_p in *. simpl in *. now rewrite !vstore_lt by auto.
    - apply Forall_forall. intros v Hv. apply in_map_iff in Hv. destruct Hv as (c & <- & _).
      intros i j Hi Hj. unfold cv_p in *. simpl in *. now rewrite !vstore_lt by auto. }
  intros v Hv. apply in_app_or in Hv. destruct Hv as [Hv|Hv];
    [apply G in H4; rewrite Forall_forall in H4|apply G in H5; rewrite Forall_forall in H5]; auto.
Qed.

(** maximum penalty *)
Lemma maxcoeff1_spec n (f : nat -> R) :
  (forall i, (i <= n)%nat -> f i <= @maxcoeff1 RS n f) /\ exists i, (i <= n)%nat /\ @maxcoeff1 RS n f = f i.
Proof.
  induction n; simpl.
  - split; [intros i Hi; replace i with 0%nat by lia; apply Rle_refl|exists 0%nat; auto].
  - rewrite smax_RS. destruct IHn as [I1 (k & Hk & I2)]. split.
    + intros i Hi. destruct (Nat.eq_dec i (S n)) as [->|]; [apply Rmax_r|]. eapply Rle_trans; [apply I1; lia|apply Rmax_l].
    + unfold Rmax. destruct (Rle_dec _ _); [exists (S n); split; auto|exists k; split; auto].
Qed.
Lemma cv_max_penalty_spec (v : CV RS) : (0 < cv_p v)%nat ->
  (forall i, (i < cv_p v)%nat -> cv_pen v i <= cv_max_penalty v) /\ exists i, (i < cv_p v)%nat /\ cv_max_penalty v = cv_pen v i.
Proof.
  intros Hp. unfold cv_max_penalty, maxcoeff. destruct (maxcoeff1_spec (cv_p v - 1) (cv_pen v)) as [A (i & Hi & B)].
  split; [intros j Hj; apply A; lia|exists i; split; [lia|auto]].
Qed.
Lemma fold_max_spec {A} (f : A -> R) l (r0 : R) :
  let M := fold_left (fun r v => @smax RS r (f v)) l r0 in
  r0 <= M /\ (forall v, In v l -> f v <= M) /\ (M = r0 \/ exists v, In v l /\ M = f v).
Proof.
  revert r0; induction l as [|a l IH]; intros r0; simpl.
  - repeat split; [apply Rle_refl|easy|auto].
  - rewrite smax_RS. destruct (IH (Rmax r0 (f a))) as (I1 & I2 & I3). split; [|split].
    + eapply Rle_trans; [apply Rmax_l|apply I1].
    + intros v [<-|Hv]; [eapply Rle_trans; [apply Rmax_r|apply I1]|auto].
    + destruct I3 as [I3|(v & Hv & I3)]; [|right; exists v; auto].
      revert I3. unfold Rmax. destruct (Rle_dec r0 (f a)); intros I3; [right; exists a; auto|left; auto].
Qed.
Lemma al_max_penalty_fold {F : Scalar} (a : ALCost F) :
  al_max_penalty a = fold_left (fun r v => smax r (cv_max_penalty v)) (al_cvs a) zero.
Proof. unfold al_max_penalty, al_cvs. now rewrite fold_left_app. Qed.
Lemma als_max_penalty_spec (l : list (ALCost RS)) :
  (forall a v, In a l -> In v (al_cvs a) -> (0 < cv_p v)%nat) ->
  let M := als_max_penalty l in
  0 <= M /\ (forall a v i, In a l -> In v (al_cvs a) -> (i < cv_p v)%nat -> cv_pen v i <= M) /\
  (M = 0 \/ exists a v i, In a l /\ In v (al_cvs a) /\ (i < cv_p v)%nat /\ M = cv_pen v i).
Proof.
  intros Hp. unfold als_max_penalty. destruct (fold_max_spec (@al_max_penalty RS) l 0) as (A & B & C).
  cbv zeta. split; [exact A|]. split.
  - intros a v i Ha Hv Hi. eapply Rle_trans; [|apply B; eauto].
    rewrite al_max_penalty_fold. destruct (fold_max_spec (@cv_max_penalty RS) (al_cvs a) 0) as (A1 & B1 & C1).
    eapply Rle_trans; [|apply B1; eauto]. now apply (cv_max_penalty_spec v (Hp a v Ha Hv)).
  - destruct C as [C|(a & Ha & C)]; [left; exact C|].
    rewrite al_max_penalty_fold in C. destruct (fold_max_spec (@cv_max_penalty RS) (al_cvs a) 0) as (A1 & B1 & C1).
    destruct C1 as [C1|(v & Hv & C1)]; [left; etransitivity; [exact C|exact C1]|].
    destruct (cv_max_penalty_spec v (Hp a v Ha Hv)) as [_ (i & Hi & E)].
    right. exists a, v, i. repeat split; auto. etransitivity; [exact C|]. etransitivity; [exact C1|exact E].
Qed.

(** * C16 *)
Lemma als_info_loop_eq {F : Scalar} (l : list (ALCost F)) : forall k acc,
  als_info_loop k (length acc) l acc
  = acc ++ concat (map (fun ka => map (fun v => ci_set_index (fst ka) (cv_info v)) (al_cvs (snd ka))) (combine (seq k (length l)) l)).
Proof.
  induction l as [|a l IH]; intros k acc; simpl.
  - now rewrite app_nil_r.
  - assert (E : firstn (length acc) (al_info a acc) ++ map (ci_set_index k) (skipn (length acc) (al_info a acc))
       = acc ++ map (fun v => ci_set_index k (cv_info v)) (al_cvs a)).
    { unfold al_info, al_cvs. rewrite <- app_assoc, <- map_app.
      rewrite firstn_app, firstn_all, Nat.sub_diag. simpl. rewrite app_nil_r.
      rewrite skipn_app, skipn_all, Nat.sub_diag. simpl. now rewrite map_map. }
    rewrite E, IH. now rewrite <- app_assoc.
Qed.
Lemma als_info_unsorted {F : Scalar} (l : list (ALCost F)) :
  als_info false l = map (fun kv => ci_set_index (fst kv) (cv_info (snd kv))) (listed l).
Proof.
  unfold als_info. pose proof (als_info_loop_eq l 0 []) as H. simpl in H. rewrite H. unfold listed.
  rewrite concat_map, map_map. f_equal. apply map_ext. intros [k a]. simpl. rewrite map_map. reflexivity.
Qed.
Lemma info_matches_cv (k : nat) (v : CV RS) : info_matches (k, v) (ci_set_index k (cv_info v)).
Proof. repeat split; auto. intros j Hj. simpl. now apply cv_violation_comp. Qed.
Lemma als_info_complete (l : list (ALCost RS)) : Forall2 info_matches (listed l) (als_info false l).
Proof.
  rewrite als_info_unsorted. induction (listed l) as [|[k v] r IH]; simpl; constructor; auto. apply info_matches_cv.
Qed.
Lemma ci_insert_perm {F : Scalar} (a : CInfo F) l : Permutation (a :: l) (ci_insert a l).
Proof.
  induction l; simpl; auto. destruct (ci_comp _ _); auto.
  eapply perm_trans; [apply perm_swap|]. now constructor.
Qed.
Lemma als_info_sorted_perm {F : Scalar} (l : list (ALCost F)) : Permutation (als_info false l) (als_info true l).
Proof.
  unfold als_info. generalize (als_info_loop 0 0 l []) as i. induction i; simpl; auto.
  eapply perm_trans; [|apply ci_insert_perm]. now constructor.
Qed.
Lemma rlinf_is_max n f : is_max_abs n f (rlinf n f).
Proof. split; [apply rlinf_nonneg|]. split; [intros; now apply rlinf_ub|apply rlinf_attained]. Qed.
Definition ci_ge (a b : CInfo RS) : Prop := rlinf (ci_dim b) (ci_viol b) <= rlinf (ci_dim a) (ci_viol a).
Lemma ci_insert_sorted a l : Sorted ci_ge l -> Sorted ci_ge (ci_insert a l).
Proof.
  induction 1 as [|b r Hs IH Hh]; simpl; [repeat constructor|].
  unfold ci_comp. destruct (ltb _ _) eqn:E; cbn in E.
  - apply Rltb_true in E. constructor; auto. destruct r as [|c r]; simpl.
    + constructor. unfold ci_ge. change (@T RS) with R in *. lra.
    + unfold ci_comp. destruct (ltb _ _) eqn:E'; cbn in E'.
      * constructor. inversion Hh; auto.
      * constructor. unfold ci_ge. change (@T RS) with R in *. lra.
  - apply Rltb_false in E. constructor; [constructor; auto|]. constructor. exact E.
Qed.
Lemma als_info_sorted (l : list (ALCost RS)) : Sorted ci_ge (als_info true l).
Proof.
  unfold als_info. generalize (als_info_loop 0 0 l []) as i. induction i; simpl; [constructor|]. now apply ci_insert_sorted.
Qed.
Lemma fold_add_shift {A} (f : A -> nat) l : forall c, fold_left (fun p v => (p + f v)%nat) l c = (c + list_sum (map f l))%nat.
Proof. induction l; intros c; simpl; [lia|]. rewrite IHl. lia. Qed.
Lemma al_num_constraints_eq {F : Scalar} (a : ALCost F) :
  al_num_constraints a = list_sum (map (fun v => con_dim (cv_con v)) (al_cvs a)).
Proof.
  unfold al_num_constraints, al_cvs. rewrite !fold_add_shift, map_app, list_sum_app. reflexivity.
Qed.
Lemma als_num_constraints_eq {F : Scalar} (l : list (ALCost F)) :
  als_num_constraints l = list_sum (map (fun a => list_sum (map (fun v => con_dim (cv_con v)) (al_cvs a))) l).
Proof.
  unfold als_num_constraints. rewrite fold_add_shift. simpl. f_equal. apply map_ext. intros; apply al_num_constraints_eq.
Qed.
