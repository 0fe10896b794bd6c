From Coq Require Import ZArith List Bool Lia.
From Verif Require Import Base Lin ConModel LogModel StatsModel TrajModel IlqrModel CostInst AlModel ProblemModel ProblemSpec ProblemProofs ProblemProofs2.
Import ListNotations.
Local Open Scope Z_scope.

Ltac zb := apply andb_true_intro; split; [apply Z.leb_le|(apply Z.ltb_lt || apply Z.leb_le)]; lia.
Lemma zseq_snoc a n : zseq a (S n) = zseq a n ++ [a + Z.of_nat n].
Proof. unfold zseq. rewrite seq_S, map_app. reflexivity. Qed.
Lemma last_at_zseq {A} (f : Z -> option A) n j : last_at (map (fun k => (k, f k)) (zseq 0 n)) j = if (0 <=? j) && (j <? Z.of_nat n) then f j else None.
Proof.
  induction n as [|n IH].
  - cbn. destruct ((0 <=? j) && (j <? 0)) eqn:E; [lia|reflexivity].
  - rewrite zseq_snoc, map_app. cbn [map]. rewrite last_at_snoc, IH, Nat2Z.inj_succ.
    destruct (0 + Z.of_nat n =? j) eqn:E1.
    + apply Z.eqb_eq in E1. replace ((0 <=? j) && (j <? Z.succ (Z.of_nat n))) with true by (symmetry; zb). f_equal. lia.
    + apply Z.eqb_neq in E1. destruct (0 <=? j) eqn:E2; [|reflexivity]. apply Z.leb_le in E2. cbn [andb].
      destruct (j <? Z.of_nat n) eqn:E3; destruct (j <? Z.succ (Z.of_nat n)) eqn:E4; try reflexivity.
      * apply Z.ltb_lt in E3. apply Z.ltb_ge in E4. lia.
      * apply Z.ltb_ge in E3. apply Z.ltb_lt in E4. lia.
Qed.

Section Gen.
Context {F : Scalar} {C : Type}.
(** ** assertions only restrict: a history accepted in a debug build behaves the same in a release build *)
Lemma assert_weaken d c : altro_assert true c = Ok tt -> altro_assert d c = Ok tt.
Proof. unfold altro_assert. destruct d, c; simpl; congruence. Qed.
Lemma assert_ok d c (u : unit) : altro_assert d c = Ok u -> altro_assert d c = Ok tt.
Proof. destruct u. auto. Qed.
Lemma assertN_weaken d (p : Prob F C) c : assert_N true p c = Ok tt -> assert_N d p c = Ok tt.
Proof. destruct d; [auto|reflexivity]. Qed.
Lemma step_weaken d (o : pop F C) s s' : simple o -> pr_step true o s = Ok s' -> pr_step d o s = Ok s'.
Proof.
  destruct s as [h p]. destruct o; intros Hs; try (elim Hs); cbn [pr_step].
  - auto.
  - unfold pr_set_cost. destruct (assert_N true p _) as [[]| | | | |] eqn:E; try discriminate. rewrite (assertN_weaken d _ _ E). auto.
  - unfold pr_set_dynamics. destruct (altro_assert true _) as [[]| | | | |] eqn:E; try discriminate. rewrite (assert_weaken d _ E).
    destruct (assert_N true p _) as [[]| | | | |] eqn:E1; try discriminate. rewrite (assertN_weaken d _ _ E1). cbn [bind].
    destruct (pr_segments p) as [N| | | | |]; try discriminate. cbn [bind]. destruct (k =? N - 1); [|auto]. destruct m as [md|]; [|auto].
    unfold identity_model. destruct (altro_assert true (0 <? md_n md)) as [[]| | | | |] eqn:E2; try discriminate. rewrite (assert_weaken d _ E2).
    destruct (altro_assert true (0 <? md_m md)) as [[]| | | | |] eqn:E3; try discriminate. rewrite (assert_weaken d _ E3). auto.
  - unfold pr_set_constraint. destruct (altro_assert true _) as [[]| | | | |] eqn:E; try discriminate. rewrite (assert_weaken d _ E). auto.
Qed.
Lemma run_weaken d (os : list (pop F C)) s s' : pr_run true os s = Ok s' -> pr_run d os s = Ok s'.
Proof.
  rewrite !(run_expand _ os). pose proof (expand_simple os) as Hs. revert s Hs. generalize (flat_map expand os). clear os. intros os.
  induction os as [|o os IH]; intros s Hs; [auto|]. inversion Hs; subst. cbn [pr_run].
  destruct (pr_step true o s) as [s1| | | | |] eqn:E; try discriminate. rewrite (step_weaken d _ _ _ H1 E). cbn [bind]. auto.
Qed.
(** every accepted SetDynamics call names a model and a segment; the last segment's model has positive dimensions *)
Definition dyn_ok (N : Z) (e : Z * option (Model F)) : Prop :=
  0 <= fst e < N /\ exists md, snd e = Some md /\ (fst e = N - 1 -> 0 < md_n md /\ 0 < md_m md).
Lemma debug_dyn_ok N h0 s0 (os : list (pop F C)) h p : 0 <= N -> pr_new N h0 = Ok s0 -> pr_run true os s0 = Ok (h, p) -> Forall (dyn_ok N) (dyn_calls os).
Proof.
  intros HN H0 Hr. destruct (calls_expand os) as [_ <-]. rewrite run_expand in Hr. revert Hr.
  pose proof (expand_simple os) as Hs. revert Hs. generalize (flat_map expand os). clear os. intros os.
  revert h p. induction os as [|o os IH] using rev_ind; intros h p Hs Hr; [constructor|].
  rewrite run_app in Hr. apply Forall_app in Hs. destruct Hs as [Hs1 Hs2].
  destruct (pr_run true os s0) as [[h1 p1]| | | | |] eqn:E; try discriminate. specialize (IH _ _ Hs1 eq_refl).
  rewrite dyn_calls_app. apply Forall_app. split; [exact IH|].
  inversion Hs2 as [|? ? Ho _]; subst. destruct o; try (elim Ho); cbn [dyn_calls flat_map app]; try (apply Forall_nil). constructor; [|constructor].
  assert (Hc : contents N (length h0) os h1 p1) by (eapply contents_run; eauto).
  cbn [bind pr_run pr_step] in Hr. unfold pr_set_dynamics in Hr. unfold altro_assert at 1 in Hr. destruct m as [md|]; [|discriminate]. cbn [andb negb bind] in Hr.
  unfold assert_N, pr_segments in Hr. rewrite (ct_N _ _ _ _ _ Hc) in Hr. cbn [bind] in Hr. unfold altro_assert in Hr.
  unfold dyn_ok. cbn [fst snd]. destruct ((0 <=? k) && (k <? N)) eqn:E2; [|discriminate]. split; [lia|]. exists md. split; [reflexivity|].
  intros Hk. cbn [andb negb bind] in Hr. replace (k =? N - 1) with true in Hr by (symmetry; apply Z.eqb_eq; exact Hk).
  unfold identity_model, altro_assert in Hr. destruct (0 <? md_n md) eqn:E3; [|discriminate]. destruct (0 <? md_m md) eqn:E4; [|discriminate]. lia.
Qed.
Lemma last_at_in {A} (l : list (Z * option A)) k a : last_at l k = Some a -> In (k, Some a) l.
Proof.
  induction l as [|[j b] l IH] using rev_ind; [discriminate|]. rewrite last_at_snoc. intros H. apply in_or_app.
  destruct (j =? k) eqn:E; [right; left; apply Z.eqb_eq in E; congruence|left; auto].
Qed.

(** ** progress of the setters on indices in range *)
Lemma set_dyn_progress debug N loc os h p k (md : Model F) : contents (F:=F) (C:=C) N loc os h p -> 0 <= k < N -> (k = N - 1 -> 0 < md_n md /\ 0 < md_m md) ->
  exists p', pr_set_dynamics debug (Some md) k p = Ok p'.
Proof.
  intros [Q1 Q2 Q3 Q4 (Q5 & Q6 & Q7 & Q8) Q9 Q10 Q11 Q12] Hk Hpos. unfold pr_set_dynamics, assert_N, pr_segments. rewrite Q1.
  assert (A1 : altro_assert debug true = Ok tt) by (unfold altro_assert; destruct debug; reflexivity). rewrite A1. cbn [bind].
  replace ((0 <=? k) && (k <? N)) with true by (symmetry; zb). rewrite A1.
  assert (A2 : (if debug then Ok tt else Ok tt) = Ok tt) by (destruct debug; reflexivity). rewrite A2. cbn [bind].
  assert (Hms : exists ms, (if k =? N - 1 then do idm <- identity_model debug (md_n md) (md_m md) ; do _ <- vat (pr_models p) N ;
        Ok (upd (Z.to_nat N) (fun _ => Some idm) (pr_models p)) else Ok (pr_models p)) = Ok ms /\ length ms = Z.to_nat (N + 1)).
  { destruct (k =? N - 1) eqn:Ek; [|exists (pr_models p); auto]. destruct Hpos as [P1 P2]; [lia|]. unfold identity_model.
    replace (0 <? md_n md) with true by lia. replace (0 <? md_m md) with true by lia. rewrite A1. cbn [bind].
    rewrite (vat_z _ N _ ltac:(lia) (Q10 N ltac:(lia))). cbn [bind]. eexists. split; [reflexivity|]. now rewrite upd_length. }
  destruct Hms as (ms & -> & Hl). cbn [bind]. unfold vset, vget. destruct (k <? 0) eqn:E0; [lia|].
  destruct (nth_error ms (Z.to_nat k)) eqn:E1; [cbn [bind]; eexists; reflexivity|]. apply nth_error_None in E1. lia.
Qed.
Lemma set_cost_progress debug N loc os h p k c : contents (F:=F) (C:=C) N loc os h p -> 0 <= k <= N -> exists p', pr_set_cost debug c k p = Ok p'.
Proof.
  intros [Q1 Q2 Q3 Q4 (Q5 & Q6 & Q7 & Q8) Q9 Q10 Q11 Q12] Hk. unfold pr_set_cost, assert_N, pr_segments. rewrite Q1.
  assert (A1 : altro_assert debug true = Ok tt) by (unfold altro_assert; destruct debug; reflexivity). cbn [bind].
  replace ((0 <=? k) && (k <=? N)) with true by (symmetry; zb). rewrite A1.
  assert (A2 : (if debug then Ok tt else Ok tt) = Ok tt) by (destruct debug; reflexivity). rewrite A2. cbn [bind].
  unfold vset. rewrite (vget_z _ k _ ltac:(lia) (Q9 k ltac:(lia))). cbn [bind]. eexists. reflexivity.
Qed.
Lemma get_dyn_ok debug N loc os h p k (md : Model F) : contents (F:=F) (C:=C) N loc os h p -> 0 <= k <= N -> last_at (model_calls N (dyn_calls os)) k = Some md ->
  pr_get_dynamics debug p k = Ok (Some md).
Proof.
  intros [Q1 Q2 Q3 Q4 Q5 Q9 Q10 Q11 Q12] Hk Hm. unfold pr_get_dynamics, assert_N, pr_segments. rewrite Q1. cbn [bind].
  assert (A1 : altro_assert debug true = Ok tt) by (unfold altro_assert; destruct debug; reflexivity).
  replace ((0 <=? k) && (k <=? N)) with true by (symmetry; zb). rewrite A1.
  assert (A2 : (if debug then Ok tt else Ok tt) = Ok tt) by (destruct debug; reflexivity). rewrite A2. cbn [bind].
  rewrite (vget_z _ k _ ltac:(lia) (Q10 k Hk)). cbn [bind]. rewrite Hm, A1. reflexivity.
Qed.
Lemma get_cost_ok debug N loc os h p k : contents (F:=F) (C:=C) N loc os h p -> 0 <= k <= N -> pr_get_cost debug p k = Ok (cost_given os k).
Proof.
  intros [Q1 Q2 Q3 Q4 Q5 Q9 Q10 Q11 Q12] Hk. unfold pr_get_cost, assert_N, pr_segments. rewrite Q1. cbn [bind].
  assert (A1 : altro_assert debug true = Ok tt) by (unfold altro_assert; destruct debug; reflexivity).
  replace ((0 <=? k) && (k <=? N)) with true by (symmetry; zb). rewrite A1.
  assert (A2 : (if debug then Ok tt else Ok tt) = Ok tt) by (destruct debug; reflexivity). rewrite A2. cbn [bind].
  apply (vget_z _ k _ ltac:(lia) (Q9 k Hk)).
Qed.
(** NumConstraints *)
Definition con_dims (l : list (Con F)) : nat := fold_right (fun c a => (con_dim c + a)%nat) 0%nat l.
Lemma con_dims_fold l a : fold_left (fun c con => (c + con_dim (F:=F) con)%nat) l a = (a + con_dims l)%nat.
Proof. revert a. induction l as [|c l IH]; intros a; simpl; [lia|]. rewrite IH. lia. Qed.
Lemma num_at_ok debug N loc os h p k : contents (F:=F) (C:=C) N loc os h p -> 0 <= k <= N ->
  pr_num_constraints_at debug p k = Ok (con_dims (con_given false os k) + con_dims (con_given true os k))%nat.
Proof.
  intros [Q1 Q2 Q3 Q4 Q5 Q9 Q10 Q11 Q12] Hk. unfold pr_num_constraints_at, assert_N, pr_segments. rewrite Q1. cbn [bind].
  assert (A1 : altro_assert debug true = Ok tt) by (unfold altro_assert; destruct debug; reflexivity).
  replace ((0 <=? k) && (k <=? N)) with true by (symmetry; zb). rewrite A1.
  assert (A2 : (if debug then Ok tt else Ok tt) = Ok tt) by (destruct debug; reflexivity). rewrite A2. cbn [bind].
  rewrite (vat_z _ k _ ltac:(lia) (Q11 k Hk)), (vat_z _ k _ ltac:(lia) (Q12 k Hk)). cbn [bind]. rewrite !con_dims_fold. reflexivity.
Qed.
Lemma for_z_sum (f : Z -> nat -> res nat) (g : Z -> nat) l : (forall k c, In k l -> f k c = Ok (c + g k)%nat) ->
  forall c, for_z l f c = Ok (c + list_sum (map g l))%nat.
Proof.
  induction l as [|k l IH]; intros H c; simpl; [f_equal; lia|]. rewrite H by (left; reflexivity). cbn [bind].
  rewrite IH by (intros; apply H; right; assumption). f_equal. lia.
Qed.
Lemma num_ok debug N loc os h p : contents (F:=F) (C:=C) N loc os h p ->
  pr_num_constraints debug p = Ok (list_sum (map (fun k => (con_dims (con_given false os k) + con_dims (con_given true os k))%nat) (zseq 0 (Z.to_nat (N + 1))))).
Proof.
  intros Hc. unfold pr_num_constraints, pr_segments. rewrite (ct_N _ _ _ _ _ Hc). cbn [bind].
  rewrite (for_z_sum _ (fun k => (con_dims (con_given false os k) + con_dims (con_given true os k))%nat)); [reflexivity|].
  intros k c Hk. apply in_zseq in Hk. rewrite (num_at_ok debug N loc os h p k Hc) by lia. reflexivity.
Qed.
End Gen.

Section Build.
Context {F : Scalar}.
Notation U := (UCost F). Notation A := (ALCost F).
(** ** the dynamics loop and the cost loop of BuildAugLagProblem *)
Lemma dyn_loop debug N loc os h (p : Prob F U) : contents N loc os h p ->
  forall md : Z -> Model F, (forall k, 0 <= k < N -> last_at (model_calls N (dyn_calls os)) k = Some (md k)) -> (0 < md_n (md (N - 1)) /\ 0 < md_m (md (N - 1))) ->
  forall ks, (forall k, In k ks -> 0 <= k < N) -> forall os' h' (q : Prob F A), contents N loc os' h' q ->
  exists q', for_z ks (fun k q => do m <- pr_get_dynamics debug p k ; pr_set_dynamics debug m k q) q = Ok q' /\
    contents N loc (os' ++ map (fun k => PDyn (Some (md k)) k) ks) h' q'.
Proof.
  intros Hp md Hmd Hpos ks. induction ks as [|k ks IH]; intros Hks os' h' q Hq.
  - exists q. split; [reflexivity|]. rewrite app_nil_r. exact Hq.
  - cbn [for_z]. assert (Hk : 0 <= k < N) by (apply Hks; left; reflexivity).
    rewrite (get_dyn_ok debug N loc os h p k (md k) Hp) by (auto; lia). cbn [bind].
    destruct (set_dyn_progress debug N loc os' h' q k (md k) Hq Hk) as [q1 E1]. { intros ->. exact Hpos. }
    rewrite E1. cbn [bind].
    destruct (IH (fun j Hj => Hks j (or_intror Hj)) (os' ++ [PDyn (Some (md k)) k]) h' q1) as (q' & E2 & C2).
    { apply (contents_step N loc os' h' q debug (PDyn (Some (md k)) k) h' q1 Hq I). cbn [pr_step]. rewrite E1. reflexivity. }
    exists q'. split; [exact E2|]. rewrite <- app_assoc in C2. exact C2.
Qed.
Lemma cost_loop debug N loc os h (p : Prob F U) : contents N loc os h p ->
  forall al : Z -> A, (forall k, 0 <= k <= N -> alcost_of debug p k = Ok (al k)) ->
  forall ks, (forall k, In k ks -> 0 <= k <= N) -> forall os' h' (q : Prob F A) cs, contents N loc os' h' q ->
  exists q', for_z ks (fun k (s : Prob F A * list A) => do a <- alcost_of debug p k ; do q' <- pr_set_cost debug (Some a) k (fst s) ; Ok (q', snd s ++ [a])) (q, cs)
      = Ok (q', cs ++ map al ks) /\
    contents N loc (os' ++ map (fun k => PCost (Some (al k)) k) ks) h' q'.
Proof.
  intros Hp al Hal ks. induction ks as [|k ks IH]; intros Hks os' h' q cs Hq.
  - exists q. simpl. rewrite !app_nil_r. auto.
  - cbn [for_z fst snd]. assert (Hk : 0 <= k <= N) by (apply Hks; left; reflexivity). rewrite (Hal k Hk). cbn [bind].
    destruct (set_cost_progress debug N loc os' h' q k (Some (al k)) Hq Hk) as [q1 E1]. rewrite E1. cbn [bind].
    destruct (IH (fun j Hj => Hks j (or_intror Hj)) (os' ++ [PCost (Some (al k)) k]) h' q1 (cs ++ [al k])) as (q' & E2 & C2).
    { apply (contents_step N loc os' h' q debug (PCost (Some (al k)) k) h' q1 Hq I). cbn [pr_step]. rewrite E1. reflexivity. }
    exists q'. split; [rewrite E2, <- app_assoc; reflexivity|]. rewrite <- app_assoc in C2. exact C2.
Qed.
Lemma alcost_ok debug N loc os h (p : Prob F U) k md c : contents N loc os h p -> 0 <= k <= N ->
  last_at (model_calls N (dyn_calls os)) k = Some md -> cost_given os k = Some c ->
  alcost_of debug p k = Ok (al_make (Z.to_nat (md_n md)) (Z.to_nat (md_m md)) c (con_given false os k) (con_given true os k)).
Proof.
  intros Hp Hk Hm Hc. unfold alcost_of. rewrite (get_dyn_ok debug N loc os h p k md Hp Hk Hm). cbn [bind].
  rewrite (get_cost_ok debug N loc os h p k Hp Hk). cbn [bind]. rewrite Hc.
  assert (A1 : altro_assert debug true = Ok tt) by (unfold altro_assert; destruct debug; reflexivity). rewrite A1. cbn [bind].
  rewrite (vat_z _ k _ ltac:(lia) (ct_eq _ _ _ _ _ Hp k Hk)), (vat_z _ k _ ltac:(lia) (ct_ineq _ _ _ _ _ Hp k Hk)). reflexivity.
Qed.
Lemma h_set_same l (h : heap F) : h_set l (h_get l h) h = h.
Proof.
  unfold h_set, h_get. revert l. induction h as [|x h IH]; intros [|l]; simpl; auto. now rewrite IH.
Qed.

(** the setter calls that build the AL problem *)
Definition al_ops_list (N : Z) (x0 : list F) (md : Z -> Model F) (al : Z -> A) : list (pop F A) :=
  [PInit x0] ++ map (fun k => PDyn (Some (md k)) k) (zseq 0 (Z.to_nat N)) ++ map (fun k => PCost (Some (al k)) k) (zseq 0 (Z.to_nat (N + 1))).
Theorem build_al_ok debug N loc os h (p : Prob F U) (md : Z -> Model F) (c : Z -> U) cs : 1 <= N -> contents N loc os h p ->
  (forall k, 0 <= k <= N -> last_at (model_calls N (dyn_calls os)) k = Some (md k)) ->
  (forall k, 0 <= k <= N -> cost_given os k = Some (c k)) ->
  0 < md_n (md (N - 1)) /\ 0 < md_m (md (N - 1)) ->
  let al k := al_make (Z.to_nat (md_n (md k))) (Z.to_nat (md_m (md k))) (c k) (con_given false os k) (con_given true os k) in
  exists q, build_al debug true h p cs = Ok (h, q, cs ++ map al (zseq 0 (Z.to_nat (N + 1)))) /\
    contents N loc (al_ops_list N (init_given os) md al) h q.
Proof.
  intros HN Hp Hmd Hc Hpos al. unfold build_al, pr_segments. rewrite (ct_N _ _ _ _ _ Hp). cbn [bind].
  unfold pr_make. destruct (N + 1 <? 0) eqn:E0; [lia|]. cbn [bind].
  set (q0 := mkProb (Some N) (pr_init p) _ _ _ _).
  assert (Hh : pr_set_init (h_get (pr_init p) h) h q0 = h) by (unfold pr_set_init; apply h_set_same). rewrite Hh.
  assert (C0 : contents N loc [PInit (init_given os)] h q0).
  { destruct Hp as [Q1 Q2 Q3 Q4 Q5 Q9 Q10 Q11 Q12]. constructor; cbn [q0 pr_N pr_init pr_costs pr_models pr_eq pr_ineq]; auto.
    - rewrite !repeat_length. auto.
    - intros k Hk. rewrite nth_repeat by lia. reflexivity.
    - intros k Hk. rewrite nth_repeat by lia. reflexivity.
    - intros k Hk. rewrite nth_repeat by lia. reflexivity.
    - intros k Hk. rewrite nth_repeat by lia. reflexivity. }
  destruct (dyn_loop debug N loc os h p Hp md (fun k Hk => Hmd k ltac:(lia)) Hpos (zseq 0 (Z.to_nat N))
     (fun k Hk => ltac:(apply in_zseq in Hk; lia)) _ _ _ C0) as (q1 & E1 & C1).
  rewrite E1. cbn [bind].
  destruct (cost_loop debug N loc os h p Hp al (fun k Hk => alcost_ok debug N loc os h p k (md k) (c k) Hp Hk (Hmd k Hk) (Hc k Hk))
     (zseq 0 (Z.to_nat (N + 1))) (fun k Hk => ltac:(apply in_zseq in Hk; lia)) _ _ _ cs C1) as (q2 & E2 & C2).
  rewrite E2. cbn [bind]. exists q2. split; [reflexivity|]. unfold al_ops_list. rewrite app_assoc. exact C2.
Qed.
Lemma al_ops_cost N x0 md al k : 0 <= N -> 0 <= k <= N -> cost_given (al_ops_list N x0 md al) k = Some (al k).
Proof.
  intros HN Hk. unfold cost_given, al_ops_list. rewrite !cost_calls_app.
  assert (E1 : forall l, cost_calls (map (fun k => PDyn (F:=F) (C:=A) (Some (md k)) k) l) = []) by (induction l; simpl; auto).
  assert (E2 : forall l, cost_calls (map (fun k => PCost (F:=F) (C:=A) (Some (al k)) k) l) = map (fun k => (k, Some (al k))) l)
    by (induction l as [|a l IH]; simpl; [reflexivity|]; f_equal; exact IH).
  rewrite E1, E2. cbn [app cost_calls flat_map]. rewrite (last_at_zseq (fun k => Some (al k))).
  replace ((0 <=? k) && (k <? Z.of_nat (Z.to_nat (N + 1)))) with true by (symmetry; zb). reflexivity.
Qed.
Lemma al_ops_dyn N x0 md al : dyn_calls (al_ops_list N x0 md al) = map (fun k => (k, Some (md k))) (zseq 0 (Z.to_nat N)).
Proof.
  unfold al_ops_list. rewrite !dyn_calls_app.
  assert (E1 : forall l, dyn_calls (map (fun k => PDyn (F:=F) (C:=A) (Some (md k)) k) l) = map (fun k => (k, Some (md k))) l)
    by (induction l as [|a l IH]; simpl; [reflexivity|]; f_equal; exact IH).
  assert (E2 : forall l, dyn_calls (map (fun k => PCost (F:=F) (C:=A) (Some (al k)) k) l) = []) by (induction l; simpl; auto).
  rewrite E1, E2. cbn [app dyn_calls flat_map]. now rewrite app_nil_r.
Qed.
Lemma al_ops_model N x0 md al k : 1 <= N -> 0 <= k <= N ->
  last_at (model_calls N (dyn_calls (al_ops_list N x0 md al))) k = Some (if k =? N then ident_of (md (N - 1)) else md k).
Proof.
  intros HN Hk. rewrite al_ops_dyn. destruct (k =? N) eqn:E.
  - apply Z.eqb_eq in E. subst k. rewrite model_calls_N.
    + rewrite (last_at_zseq (fun k => Some (md k))).
      replace ((0 <=? N - 1) && (N - 1 <? Z.of_nat (Z.to_nat N))) with true by (symmetry; zb). reflexivity.
    + unfold dyn_in_range. apply Forall_forall. intros e He. apply in_map_iff in He. destruct He as (j & <- & Hj). apply in_zseq in Hj. simpl. lia.
  - rewrite model_calls_lt by lia. rewrite (last_at_zseq (fun k => Some (md k))).
    replace ((0 <=? k) && (k <? Z.of_nat (Z.to_nat N))) with true by (symmetry; zb). reflexivity.
Qed.
Lemma al_ops_con N x0 md al b k : con_given b (al_ops_list N x0 md al) k = [].
Proof.
  unfold con_given, al_ops_list. rewrite !flat_map_app. set (f := fun o : pop F A => _).
  assert (E1 : forall l, flat_map f (map (fun k => PDyn (F:=F) (C:=A) (Some (md k)) k) l) = []) by (induction l; simpl; auto).
  assert (E2 : forall l, flat_map f (map (fun k => PCost (F:=F) (C:=A) (Some (al k)) k) l) = []) by (induction l; simpl; auto).
  rewrite E1, E2. reflexivity.
Qed.
Lemma al_ops_init N x0 md al : init_given (al_ops_list N x0 md al) = x0.
Proof.
  unfold init_given, al_ops_list. rewrite !fold_left_app.
  assert (E1 : forall l x, fold_left (fun acc (o : pop F A) => match o with PInit x0 => x0 | _ => acc end) (map (fun k => PDyn (F:=F) (C:=A) (Some (md k)) k) l) x = x)
    by (induction l; simpl; auto).
  assert (E2 : forall l x, fold_left (fun acc (o : pop F A) => match o with PInit x0 => x0 | _ => acc end) (map (fun k => PCost (F:=F) (C:=A) (Some (al k)) k) l) x = x)
    by (induction l; simpl; auto).
  rewrite E2, E1. reflexivity.
Qed.
End Build.
