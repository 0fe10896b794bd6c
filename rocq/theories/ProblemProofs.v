From Coq Require Import ZArith List Bool Lia.
From Verif Require Import Base Lin ConModel IlqrModel ProblemModel ProblemSpec.
Import ListNotations.
Local Open Scope Z_scope.

Lemma last_at_snoc {A} (l : list (Z * option A)) k a j : last_at (l ++ [(k, a)]) j = if k =? j then a else last_at l j.
Proof. unfold last_at. rewrite fold_left_app. reflexivity. Qed.

Section P.
Context {F : Scalar} {C : Type}.
Notation PR := (Prob F C).

(** ** elementary setter calls *)
Definition expand (o : pop F C) : list (pop F C) :=
  match o with
  | PCosts cs k => map (fun e => PCost (snd e) (fst e)) (combine (zseq k (length cs)) cs)
  | PDyns ms k => map (fun e => PDyn (snd e) (fst e)) (combine (zseq k (length ms)) ms)
  | o => [o]
  end.
Definition simple (o : pop F C) : Prop := match o with PCosts _ _ | PDyns _ _ => False | _ => True end.
Lemma zseq_S a n : zseq a (S n) = a :: zseq (a + 1) n.
Proof.
  unfold zseq. simpl. f_equal; [lia|]. rewrite <- seq_shift, map_map. apply map_ext. intros i. lia.
Qed.
Lemma zseq_length a n : length (zseq a n) = n.
Proof. unfold zseq. now rewrite map_length, seq_length. Qed.
Lemma run_app debug (os1 os2 : list (pop F C)) s : pr_run debug (os1 ++ os2) s = do s' <- pr_run debug os1 s ; pr_run debug os2 s'.
Proof.
  revert s. induction os1 as [|o r IH]; intros s; [reflexivity|]. simpl. destruct (pr_step debug o s); simpl; auto.
Qed.
Lemma run_costs debug cs : forall k (h : heap F) (p : PR),
  (do p' <- pr_set_costs debug cs k p ; Ok (h, p')) = pr_run debug (map (fun e => PCost (snd e) (fst e)) (combine (zseq k (length cs)) cs)) (h, p).
Proof.
  induction cs as [|c r IH]; intros k h p; [reflexivity|]. simpl length. rewrite zseq_S. cbn [pr_set_costs combine map pr_run pr_step fst snd].
  destruct (pr_set_cost debug c k p); simpl; auto.
Qed.
Lemma run_dyns debug ms : forall k (h : heap F) (p : PR),
  (do p' <- pr_set_dyns debug ms k p ; Ok (h, p')) = pr_run debug (map (fun e => PDyn (snd e) (fst e)) (combine (zseq k (length ms)) ms)) (h, p).
Proof.
  induction ms as [|c r IH]; intros k h p; [reflexivity|]. simpl length. rewrite zseq_S. cbn [pr_set_dyns combine map pr_run pr_step fst snd].
  destruct (pr_set_dynamics debug c k p); simpl; auto.
Qed.
Lemma step_expand debug o s : pr_step debug o s = pr_run debug (expand o) s.
Proof.
  destruct s as [h p]. destruct o; cbn [expand]; try (simpl; match goal with |- ?x = _ => destruct x end; reflexivity).
  - apply run_costs. - apply run_dyns.
Qed.
Lemma run_expand debug os s : pr_run debug os s = pr_run debug (flat_map expand os) s.
Proof.
  revert s. induction os as [|o r IH]; intros s; [reflexivity|]. cbn [flat_map]. rewrite run_app, <- step_expand. simpl.
  destruct (pr_step debug o s); simpl; auto.
Qed.
Lemma expand_simple os : Forall simple (flat_map expand os).
Proof.
  induction os as [|o r IH]; [constructor|]. cbn [flat_map]. apply Forall_app. split; [|exact IH].
  destruct o; cbn [expand]; try (repeat constructor); apply Forall_forall; intros x Hx; apply in_map_iff in Hx; destruct Hx as (e & <- & _); exact I.
Qed.
Lemma calls_expand os : cost_calls (flat_map expand os) = cost_calls os /\ dyn_calls (flat_map expand os) = dyn_calls os.
Proof.
  unfold cost_calls, dyn_calls. induction os as [|o r [IH1 IH2]]; [auto|]. cbn [flat_map]. rewrite !flat_map_app, IH1, IH2.
  assert (Hc : forall l : list (Z * option C), flat_map (fun o : pop F C => match o with PCost c k => [(k, c)] | PCosts cs k => combine (zseq k (length cs)) cs | _ => [] end)
      (map (fun e => PCost (snd e) (fst e)) l) = l) by (induction l as [|[a b] l IH]; simpl; [reflexivity|now rewrite IH]).
  assert (Hc' : forall l : list (Z * option (Model F)), flat_map (fun o : pop F C => match o with PCost c k => [(k, c)] | PCosts cs k => combine (zseq k (length cs)) cs | _ => [] end)
      (map (fun e => PDyn (snd e) (fst e)) l) = []) by (induction l as [|[a b] l IH]; simpl; auto).
  assert (Hd : forall l : list (Z * option (Model F)), flat_map (fun o : pop F C => match o with PDyn c k => [(k, c)] | PDyns cs k => combine (zseq k (length cs)) cs | _ => [] end)
      (map (fun e => PDyn (snd e) (fst e)) l) = l) by (induction l as [|[a b] l IH]; simpl; [reflexivity|now rewrite IH]).
  assert (Hd' : forall l : list (Z * option C), flat_map (fun o : pop F C => match o with PDyn c k => [(k, c)] | PDyns cs k => combine (zseq k (length cs)) cs | _ => [] end)
      (map (fun e => PCost (snd e) (fst e)) l) = []) by (induction l as [|[a b] l IH]; simpl; auto).
  destruct o; cbn [expand]; rewrite ?Hc, ?Hc', ?Hd, ?Hd'; auto.
Qed.
Lemma init_expand os : init_given (flat_map expand os) = init_given os.
Proof.
  unfold init_given. generalize (@nil F). induction os as [|o r IH]; intros x; [reflexivity|]. cbn [flat_map]. rewrite fold_left_app, IH.
  cbn [fold_left]. f_equal.
  assert (H1 : forall l : list (Z * option C), fold_left (fun acc (o : pop F C) => match o with PInit x0 => x0 | _ => acc end) (map (fun e => PCost (snd e) (fst e)) l) x = x)
    by (induction l; simpl; auto).
  assert (H2 : forall l : list (Z * option (Model F)), fold_left (fun acc (o : pop F C) => match o with PInit x0 => x0 | _ => acc end) (map (fun e => PDyn (snd e) (fst e)) l) x = x)
    by (induction l; simpl; auto).
  destruct o; cbn [expand]; rewrite ?H1, ?H2; reflexivity.
Qed.
Lemma con_expand b os k : con_given b (flat_map expand os) k = con_given b os k.
Proof.
  unfold con_given. induction os as [|o r IH]; [reflexivity|]. cbn [flat_map]. rewrite flat_map_app, IH. f_equal.
  set (f := fun o : pop F C => _).
  assert (H1 : forall l : list (Z * option C), flat_map f (map (fun e => PCost (snd e) (fst e)) l) = []) by (induction l; simpl; auto).
  assert (H2 : forall l : list (Z * option (Model F)), flat_map f (map (fun e => PDyn (snd e) (fst e)) l) = []) by (induction l; simpl; auto).
  destruct o; cbn [expand]; rewrite ?H1, ?H2; simpl; rewrite ?app_nil_r; reflexivity.
Qed.

(** ** contents after a history of elementary calls *)
Definition ident_of (m : Model F) : Model F := mkModel (md_n m) (md_m m) identity_dyn.
(** the model vector also receives the identity model for the terminal index *)
Definition model_calls (N : Z) (l : list (Z * option (Model F))) : list (Z * option (Model F)) :=
  flat_map (fun e => if fst e =? N - 1 then [(N, option_map ident_of (snd e)); e] else [e]) l.
Record contents (N : Z) (loc : nat) (os : list (pop F C)) (h : heap F) (p : PR) : Prop := mkContents {
  ct_N : pr_N p = Some N; ct_loc : pr_init p = loc; ct_heap : (loc < length h)%nat; ct_init : h_get loc h = init_given os;
  ct_len : length (pr_costs p) = Z.to_nat (N + 1) /\ length (pr_models p) = Z.to_nat (N + 1) /\
           length (pr_eq p) = Z.to_nat (N + 1) /\ length (pr_ineq p) = Z.to_nat (N + 1);
  ct_cost : forall k, 0 <= k <= N -> nth_error (pr_costs p) (Z.to_nat k) = Some (cost_given os k);
  ct_model : forall k, 0 <= k <= N -> nth_error (pr_models p) (Z.to_nat k) = Some (last_at (model_calls N (dyn_calls os)) k);
  ct_eq : forall k, 0 <= k <= N -> nth_error (pr_eq p) (Z.to_nat k) = Some (con_given false os k);
  ct_ineq : forall k, 0 <= k <= N -> nth_error (pr_ineq p) (Z.to_nat k) = Some (con_given true os k) }.

Lemma vset_ok {A} (l : list A) k f l' : vset l k f = Ok l' -> 0 <= k /\ (Z.to_nat k < length l)%nat /\ l' = upd (Z.to_nat k) f l.
Proof.
  unfold vset, vget. destruct (k <? 0) eqn:E; [discriminate|]. destruct (nth_error l (Z.to_nat k)) eqn:E1; [|discriminate].
  simpl. intros H. injection H as <-. split; [lia|]. split; [|reflexivity]. apply nth_error_Some. congruence.
Qed.
Lemma nth_upd_z {A} (l : list A) k f j v : 0 <= k -> 0 <= j -> nth_error l (Z.to_nat j) = Some v ->
  nth_error (upd (Z.to_nat k) f l) (Z.to_nat j) = Some (if k =? j then f v else v).
Proof.
  intros Hk Hj H. destruct (k =? j) eqn:E.
  - apply Z.eqb_eq in E. subst. rewrite nth_error_upd_same, H. reflexivity.
  - apply Z.eqb_neq in E. rewrite nth_error_upd_other by lia. exact H.
Qed.
Lemma nth_repeat {A} (x : A) n k : (k < n)%nat -> nth_error (repeat x n) k = Some x.
Proof. revert k. induction n; intros [|k] H; simpl; try lia; auto. apply IHn. lia. Qed.
Lemma h_get_set l x (h : heap F) : (l < length h)%nat -> h_get l (h_set l x h) = x.
Proof.
  intros H. unfold h_get, h_set. apply nth_error_nth. rewrite nth_error_upd_same.
  destruct (nth_error h l) eqn:E; [reflexivity|]. apply nth_error_None in E. lia.
Qed.
Lemma con_given_snoc b (os : list (pop F C)) o k : con_given b (os ++ [o]) k = con_given b os k ++ con_given b [o] k.
Proof. unfold con_given. now rewrite flat_map_app. Qed.
Lemma model_calls_app N l1 l2 : model_calls N (l1 ++ l2) = model_calls N l1 ++ model_calls N l2.
Proof. unfold model_calls. now rewrite flat_map_app. Qed.
Lemma dyn_calls_app (a b : list (pop F C)) : dyn_calls (a ++ b) = dyn_calls a ++ dyn_calls b.
Proof. unfold dyn_calls. now rewrite flat_map_app. Qed.
Lemma cost_calls_app (a b : list (pop F C)) : cost_calls (a ++ b) = cost_calls a ++ cost_calls b.
Proof. unfold cost_calls. now rewrite flat_map_app. Qed.

Lemma contents_new N (h : heap F) h' p : 0 <= N -> pr_new N h = Ok (h', p) -> contents N (length h) [] h' p.
Proof.
  intros HN. unfold pr_new, h_new, pr_make. destruct (N + 1 <? 0) eqn:E; [lia|]. cbn [bind]. intros H. injection H as <- <-.
  constructor; cbn [pr_N pr_init pr_costs pr_models pr_eq pr_ineq].
  - reflexivity.
  - reflexivity.
  - rewrite app_length. simpl. lia.
  - unfold h_get. rewrite app_nth2 by lia. rewrite Nat.sub_diag. reflexivity.
  - rewrite !repeat_length. auto.
  - intros k Hk. rewrite nth_repeat by lia. reflexivity.
  - intros k Hk. rewrite nth_repeat by lia. reflexivity.
  - intros k Hk. rewrite nth_repeat by lia. reflexivity.
  - intros k Hk. rewrite nth_repeat by lia. reflexivity.
Qed.

Lemma contents_step N loc os h p debug o h' p' : contents N loc os h p -> simple o -> pr_step debug o (h, p) = Ok (h', p') ->
  contents N loc (os ++ [o]) h' p'.
Proof.
  intros [Q1 Q2 Q3 Q4 (Q5 & Q6 & Q7 & Q8) Q9 Q10 Q11 Q12] Hs. destruct o; try (elim Hs); cbn [pr_step].
  - intros H. injection H as <- <-. unfold pr_set_init. rewrite Q2.
    constructor; unfold cost_given; rewrite ?cost_calls_app, ?dyn_calls_app, ?app_nil_r; auto.
    + unfold h_set. now rewrite upd_length.
    + rewrite h_get_set by exact Q3. unfold init_given. rewrite fold_left_app. reflexivity.
    + intros k Hk. rewrite con_given_snoc. simpl. rewrite app_nil_r. auto.
    + intros k Hk. rewrite con_given_snoc. simpl. rewrite app_nil_r. auto.
  - unfold pr_set_cost. destruct (assert_N debug p _); try discriminate. cbn [bind].
    destruct (vset (pr_costs p) k _) as [cs| | | | |] eqn:E; try discriminate. cbn [bind]. intros H. injection H as <- <-.
    apply vset_ok in E. destruct E as (E1 & E2 & ->).
    constructor; unfold cost_given; cbn [pr_N pr_init pr_costs pr_models pr_eq pr_ineq]; rewrite ?cost_calls_app, ?dyn_calls_app, ?upd_length; auto.
    + unfold init_given in *. rewrite fold_left_app. exact Q4.
    + intros j Hj. cbn. rewrite last_at_snoc. rewrite (nth_upd_z _ k _ j _ E1 ltac:(lia) (Q9 j Hj)). reflexivity.
    + cbn. rewrite app_nil_r. exact Q10.
    + intros j Hj. rewrite con_given_snoc. simpl. rewrite app_nil_r. auto.
    + intros j Hj. rewrite con_given_snoc. simpl. rewrite app_nil_r. auto.
  - unfold pr_set_dynamics. destruct (altro_assert debug _); try discriminate. destruct (assert_N debug p _); try discriminate.
    unfold pr_segments. rewrite Q1. cbn [bind].
    destruct (if k =? N - 1 then _ else _) as [ms| | | | |] eqn:E0; try discriminate. cbn [bind].
    destruct (vset ms k _) as [ms'| | | | |] eqn:E; try discriminate. cbn [bind]. intros H. injection H as <- <-.
    apply vset_ok in E. destruct E as (E1 & E2 & ->).
    assert (Hms : length ms = length (pr_models p) /\ forall j, 0 <= j <= N ->
       nth_error ms (Z.to_nat j) = Some (last_at (model_calls N (dyn_calls os) ++ if k =? N - 1 then [(N, option_map ident_of m)] else []) j)).
    { destruct (k =? N - 1) eqn:Ek.
      - destruct m as [md|]; [|discriminate]. unfold identity_model in E0. destruct (altro_assert debug (0 <? md_n md)); try discriminate.
        destruct (altro_assert debug (0 <? md_m md)); try discriminate. cbn [bind] in E0. destruct (vat (pr_models p) N); try discriminate. cbn [bind] in E0.
        injection E0 as <-. rewrite upd_length. split; [reflexivity|]. intros j Hj. rewrite last_at_snoc.
        rewrite (nth_upd_z _ N _ j _ ltac:(lia) ltac:(lia) (Q10 j Hj)). reflexivity.
      - injection E0 as <-. split; [reflexivity|]. intros j Hj. rewrite app_nil_r. auto. }
    destruct Hms as [Hl Hms].
    constructor; unfold cost_given; cbn [pr_N pr_init pr_costs pr_models pr_eq pr_ineq]; rewrite ?cost_calls_app, ?dyn_calls_app, ?upd_length; auto.
    + unfold init_given in *. rewrite fold_left_app. exact Q4.
    + rewrite Hl. auto.
    + cbn. rewrite app_nil_r. exact Q9.
    + intros j Hj. cbn [dyn_calls flat_map app]. rewrite model_calls_app. cbn [model_calls flat_map app fst snd].
      rewrite (nth_upd_z _ k _ j _ E1 ltac:(lia) (Hms j Hj)).
      destruct (k =? N - 1); cbn [app]; [change [(N, option_map ident_of m); (k, m)] with ([(N, option_map ident_of m)] ++ [(k, m)]); rewrite app_assoc|rewrite app_nil_r];
      rewrite (last_at_snoc _ k m j); reflexivity.
    + intros j Hj. rewrite con_given_snoc. simpl. rewrite app_nil_r. auto.
    + intros j Hj. rewrite con_given_snoc. simpl. rewrite app_nil_r. auto.
  - unfold pr_set_constraint. destruct (altro_assert debug _); try discriminate. cbn [bind].
    assert (Hc : forall cs ms eq ineq,
      cs = pr_costs p -> ms = pr_models p -> length eq = length (pr_eq p) -> length ineq = length (pr_ineq p) ->
      (forall j, 0 <= j <= N -> nth_error eq (Z.to_nat j) = Some (con_given false (os ++ [PCon K con k]) j)) ->
      (forall j, 0 <= j <= N -> nth_error ineq (Z.to_nat j) = Some (con_given true (os ++ [PCon K con k]) j)) ->
      contents N loc (os ++ [PCon K con k]) h (mkProb (pr_N p) (pr_init p) cs ms eq ineq)).
    { intros cs ms eq ineq -> -> H1 H2 H3 H4.
      constructor; unfold cost_given; cbn [pr_N pr_init pr_costs pr_models pr_eq pr_ineq]; rewrite ?cost_calls_app, ?dyn_calls_app, ?app_nil_r, ?H1, ?H2; auto.
      unfold init_given in *. rewrite fold_left_app. exact Q4. }
    assert (He : forall b (l l' : list (list (Con F))), (forall j, 0 <= j <= N -> nth_error l (Z.to_nat j) = Some (con_given b os j)) ->
       vset l k (fun cs => cs ++ [con]) = Ok l' -> Bool.eqb b (match K with NegativeOrthant => true | _ => false end) = true ->
       length l' = length l /\ forall j, 0 <= j <= N -> nth_error l' (Z.to_nat j) = Some (con_given b (os ++ [PCon K con k]) j)).
    { intros b l l' Hl E HK. apply vset_ok in E. destruct E as (E1 & E2 & ->). rewrite upd_length. split; [reflexivity|].
      intros j Hj. rewrite (nth_upd_z _ k _ j _ E1 ltac:(lia) (Hl j Hj)), con_given_snoc. cbn [con_given flat_map]. rewrite HK.
      destruct (k =? j); simpl; rewrite ?app_nil_r; reflexivity. }
    assert (Hne : forall b j, Bool.eqb b (match K with NegativeOrthant => true | _ => false end) = false -> con_given b (os ++ [PCon K con k]) j = con_given b os j).
    { intros b j HK. rewrite con_given_snoc. cbn [con_given flat_map]. rewrite HK, andb_false_r, !app_nil_r. reflexivity. }
    destruct K.
    + destruct (vset (pr_eq p) k _) as [l| | | | |] eqn:E; try discriminate. cbn [bind]. intros H. injection H as <- <-.
      destruct (He false _ _ Q11 E eq_refl) as [L1 L2]. apply Hc; auto. intros j Hj. rewrite (Hne true) by reflexivity. auto.
    + destruct (vset (pr_eq p) k _) as [l| | | | |] eqn:E; try discriminate. cbn [bind]. intros H. injection H as <- <-.
      destruct (He false _ _ Q11 E eq_refl) as [L1 L2]. apply Hc; auto. intros j Hj. rewrite (Hne true) by reflexivity. auto.
    + destruct (vset (pr_ineq p) k _) as [l| | | | |] eqn:E; try discriminate. cbn [bind]. intros H. injection H as <- <-.
      destruct (He true _ _ Q12 E eq_refl) as [L1 L2]. apply Hc; auto. intros j Hj. rewrite (Hne false) by reflexivity. auto.
Qed.
Lemma contents_simple debug N loc h0 p0 : contents N loc [] h0 p0 -> forall os, Forall simple os -> forall h p, pr_run debug os (h0, p0) = Ok (h, p) -> contents N loc os h p.
Proof.
  intros H0 os. induction os as [|o os IH] using rev_ind; intros Hs h p.
  - intros H. injection H as <- <-. exact H0.
  - rewrite run_app. apply Forall_app in Hs. destruct Hs as [Hs1 Hs2]. inversion Hs2; subst.
    destruct (pr_run debug os (h0, p0)) as [[h1 p1]| | | | |] eqn:E; try discriminate. cbn [bind pr_run].
    destruct (pr_step debug o (h1, p1)) as [[h2 p2]| | | | |] eqn:E2; try discriminate. cbn [bind]. intros H. injection H as <- <-.
    eapply contents_step; eauto.
Qed.
(** what a problem contains after any history of setter calls *)
Theorem contents_run debug N h0 s0 os h p : 0 <= N -> pr_new N h0 = Ok s0 -> pr_run debug os s0 = Ok (h, p) -> contents N (length h0) os h p.
Proof.
  intros HN H0 Hr. destruct s0 as [h1 p1]. pose proof (contents_new N h0 h1 p1 HN H0) as Hc. rewrite run_expand in Hr.
  pose proof (contents_simple debug N _ h1 p1 Hc _ (expand_simple os) h p Hr) as [Q1 Q2 Q3 Q4 Q5 Q9 Q10 Q11 Q12].
  destruct (calls_expand os) as [Ec Ed]. unfold cost_given in *. rewrite Ec in Q9. rewrite Ed in Q10. rewrite init_expand in Q4.
  constructor; auto.
  - intros k Hk. rewrite <- (con_expand false os k). auto.
  - intros k Hk. rewrite <- (con_expand true os k). auto.
Qed.
Lemma model_calls_lt N l k : k <> N -> last_at (model_calls N l) k = last_at l k.
Proof.
  intros Hk. induction l as [|[j m] l IH] using rev_ind; [reflexivity|]. rewrite model_calls_app. cbn [model_calls flat_map fst snd app].
  destruct (j =? N - 1); cbn [app]; [change [(N, option_map ident_of m); (j, m)] with ([(N, option_map ident_of m)] ++ [(j, m)]); rewrite app_assoc|];
    rewrite !last_at_snoc, ?IH; [|reflexivity].
  destruct (N =? k) eqn:E; [lia|reflexivity].
Qed.
(** in debug builds the terminal entry is the identity model of the last segment's model *)
Definition dyn_in_range (N : Z) (l : list (Z * option (Model F))) : Prop := Forall (fun e => 0 <= fst e < N) l.
Lemma model_calls_N N l : dyn_in_range N l -> last_at (model_calls N l) N = option_map ident_of (last_at l (N - 1)).
Proof.
  unfold dyn_in_range. induction l as [|[j m] l IH] using rev_ind; intros H; [reflexivity|]. apply Forall_app in H. destruct H as [H1 H2].
  inversion H2; subst. cbn [fst] in *. rewrite model_calls_app. cbn [model_calls flat_map fst snd app].
  destruct (j =? N - 1) eqn:E; cbn [app].
  - change [(N, option_map ident_of m); (j, m)] with ([(N, option_map ident_of m)] ++ [(j, m)]). rewrite app_assoc, !last_at_snoc.
    rewrite E. destruct (j =? N) eqn:E2; [lia|]. rewrite Z.eqb_refl. reflexivity.
  - rewrite !last_at_snoc, E. destruct (j =? N) eqn:E2; [lia|]. apply IH. exact H1.
Qed.
Lemma debug_range N h0 s0 (os : list (pop F C)) h p : 0 <= N -> pr_new N h0 = Ok s0 -> pr_run true os s0 = Ok (h, p) -> dyn_in_range N (dyn_calls os).
Proof.
  intros HN H0 Hr. destruct (calls_expand os) as [_ <-]. rewrite run_expand in Hr. revert Hr.
  pose proof (expand_simple os) as Hs. revert Hs. generalize (flat_map expand os). clear os. intros os.
  revert h p. induction os as [|o os IH] using rev_ind; intros h p Hs Hr; [constructor|].
  rewrite run_app in Hr. apply Forall_app in Hs. destruct Hs as [Hs1 Hs2].
  destruct (pr_run true os s0) as [[h1 p1]| | | | |] eqn:E; try discriminate. specialize (IH _ _ Hs1 eq_refl).
  rewrite dyn_calls_app. unfold dyn_in_range. apply Forall_app. split; [exact IH|].
  inversion Hs2 as [|? ? Ho _]; subst. destruct o; try (elim Ho); cbn [dyn_calls flat_map app]; try (apply Forall_nil). constructor; [|constructor].
  assert (Hc : contents N (length h0) os h1 p1) by (eapply contents_run; eauto).
  cbn [bind pr_run pr_step] in Hr. unfold pr_set_dynamics in Hr. destruct (altro_assert true _); try discriminate. cbn [bind] in Hr.
  unfold assert_N, pr_segments in Hr. rewrite (ct_N _ _ _ _ _ Hc) in Hr. cbn [bind] in Hr. unfold altro_assert in Hr.
  cbn [fst]. destruct ((0 <=? k) && (k <? N)) eqn:E2; [|discriminate]. lia.
Qed.
End P.
