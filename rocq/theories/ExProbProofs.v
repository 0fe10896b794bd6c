(** Histories of setter calls made by loops, and what a problem then contains. *)
From Coq Require Import ZArith List Bool Lia.
From Verif Require Import Base Lin ConModel LogModel StatsModel TrajModel IlqrModel CostInst AlModel DynModel ExampleModel ProblemModel ProblemSpec ProblemProofs ProblemProofs2 ProblemProofs3 ProblemProofs4 ExProbModel ExProbSpec.
Import ListNotations.
Local Open Scope Z_scope.

Section Ops.
Context {F : Scalar} {C : Type}.
Notation op := (pop F C).
Definition valid_op (N : Z) (o : op) : Prop :=
  match o with
  | PInit _ => True
  | PCost _ k => 0 <= k <= N
  | PDyn (Some md) k => 0 <= k < N /\ 0 < md_n md /\ 0 < md_m md
  | PCon _ con k => (0 < con_dim con)%nat /\ 0 <= k <= N
  | _ => False
  end.
Lemma valid_simple N o : valid_op N o -> simple o.
Proof. destruct o as [| | |[|]| |]; cbn; auto. Qed.
Lemma assert_true d : altro_assert d true = Ok tt.
Proof. destruct d; reflexivity. Qed.
Lemma step_ok d N loc os h p o : contents (F:=F) (C:=C) N loc os h p -> valid_op N o -> exists s', pr_step d o (h, p) = Ok s'.
Proof.
  intros Hc Ho. destruct o as [x0|c k|cs k|[md|] k|ms k|K con k]; cbn [valid_op] in Ho; try contradiction; cbn [pr_step].
  - eauto.
  - destruct (set_cost_progress d N loc os h p k c Hc Ho) as [p' ->]. cbn. eauto.
  - destruct Ho as (H1 & H2). destruct (set_dyn_progress d N loc os h p k md Hc H1 (fun _ => H2)) as [p' ->]. cbn. eauto.
  - destruct Ho as (H1 & H2). unfold pr_set_constraint. apply Nat.ltb_lt in H1. rewrite H1, assert_true. cbn [bind].
    destruct K; unfold vset; rewrite ?(vget_z _ k _ (proj1 H2) (ct_eq _ _ _ _ _ Hc k H2)), ?(vget_z _ k _ (proj1 H2) (ct_ineq _ _ _ _ _ Hc k H2)); cbn; eauto.
Qed.
Lemma run_ok d N loc os : Forall (valid_op N) os -> forall os0 h p, Forall simple os0 -> contents (F:=F) (C:=C) N loc os0 h p -> exists s', pr_run d os (h, p) = Ok s'.
Proof.
  induction os as [|o os IH]; intros HF os0 h p HS HC; [cbn; eauto|]. inversion HF; subst. cbn [pr_run].
  destruct (step_ok d N loc os0 h p o HC) as ([h' p'] & E); auto. rewrite E. cbn [bind].
  apply (IH H2 (os0 ++ [o]) h' p').
  - apply Forall_app. split; auto. constructor; auto. eapply valid_simple; eauto.
  - eapply contents_step; eauto. eapply valid_simple; eauto.
Qed.
Lemma new_ok N (h : heap F) : 0 <= N -> exists p, pr_new (C:=C) N h = Ok (h ++ [[]], p).
Proof. intros HN. unfold pr_new, h_new, pr_make. destruct (N + 1 <? 0) eqn:E; [lia|]. cbn. eauto. Qed.
(** a history of calls with valid arguments on a new problem succeeds *)
Theorem valid_run d N (h0 : heap F) s0 os : 0 <= N -> pr_new N h0 = Ok s0 -> Forall (valid_op N) os -> exists h p, pr_run d os s0 = Ok (h, p).
Proof.
  intros HN E HF. destruct s0 as [h p]. destruct (run_ok d N (length h0) os HF [] h p (Forall_nil _) (contents_new N h0 h p HN E)) as [[h' p'] ->]. eauto.
Qed.

(** loops *)
Lemma for_z_ext {A} (f g : Z -> A -> res A) l : (forall k a, In k l -> f k a = g k a) -> forall a, for_z l f a = for_z l g a.
Proof. induction l as [|k l IH]; intros H a; cbn; [reflexivity|]. rewrite H by (left; auto). destruct (g k a); cbn; auto. apply IH. intros; apply H; right; auto. Qed.
Lemma for_z_run d (o : Z -> op) l s : for_z l (fun k => pr_step d (o k)) s = pr_run d (map o l) s.
Proof. revert s. induction l as [|k l IH]; intros s; cbn; [reflexivity|]. destruct (pr_step d (o k) s); cbn; auto. Qed.
Lemma step_run d (o : op) s : pr_step d o s = pr_run d [o] s.
Proof. cbn. destruct (pr_step d o s); reflexivity. Qed.

(** what the parts of such a history say *)
Lemma cc_con' (o : Z -> op) l : (forall k, cost_calls [o k] = []) -> cost_calls (map o l) = [].
Proof. intros H. induction l as [|k l IH]; [reflexivity|]. change (cost_calls ([o k] ++ map o l) = []). rewrite cost_calls_app, H, IH. reflexivity. Qed.
Lemma dc_con' (o : Z -> op) l : (forall k, dyn_calls [o k] = []) -> dyn_calls (map o l) = [].
Proof. intros H. induction l as [|k l IH]; [reflexivity|]. change (dyn_calls ([o k] ++ map o l) = []). rewrite dyn_calls_app, H, IH. reflexivity. Qed.
Lemma cc_costs (c : Z -> C) l : cost_calls (map (fun k => PCost (F:=F) (Some (c k)) k) l) = map (fun k => (k, Some (c k))) l.
Proof. induction l as [|a l IH]; cbn; [reflexivity|]. f_equal. exact IH. Qed.
Lemma dc_dyns (md : Z -> Model F) l : dyn_calls (map (fun k => PDyn (C:=C) (Some (md k)) k) l) = map (fun k => (k, Some (md k))) l.
Proof. induction l as [|a l IH]; cbn; [reflexivity|]. f_equal. exact IH. Qed.
Lemma given_app b (a c : list op) k : con_given b (a ++ c) k = con_given b a k ++ con_given b c k.
Proof. unfold con_given. apply flat_map_app. Qed.
Lemma given_none b (o : Z -> op) l k : (forall j, con_given b [o j] k = []) -> con_given b (map o l) k = [].
Proof. intros H. induction l as [|j l IH]; [reflexivity|]. change (con_given b ([o j] ++ map o l) k = []). rewrite given_app, H, IH. reflexivity. Qed.
Lemma given_cons b K (con : Con F) n : forall a k, con_given b (map (fun k => PCon (C:=C) K con k) (zseq a n)) k =
  if (a <=? k) && (k <? a + Z.of_nat n) && Bool.eqb b (match K with NegativeOrthant => true | _ => false end) then [con] else [].
Proof.
  induction n as [|n IH]; intros a k.
  - cbn. destruct ((a <=? k) && (k <? a + 0)) eqn:E; [lia|reflexivity].
  - rewrite zseq_S. cbn [map]. change (?x :: ?l) with ([x] ++ l) at 1. rewrite given_app, IH. cbn [con_given flat_map app].
    destruct (Bool.eqb b _); rewrite ?andb_true_r, ?andb_false_r; [|reflexivity].
    destruct (Z.eqb_spec a k) as [->|Hne].
    + assert (E1 : (k + 1 <=? k) = false) by (apply Z.leb_gt; lia). assert (E2 : (k <=? k) = true) by (apply Z.leb_le; lia).
      assert (E3 : (k <? k + Z.of_nat (S n)) = true) by (apply Z.ltb_lt; lia). rewrite E1, E2, E3. reflexivity.
    + assert (E : (a <=? k) && (k <? a + Z.of_nat (S n)) = (a + 1 <=? k) && (k <? a + 1 + Z.of_nat n)).
      { apply Bool.eq_iff_eq_true. rewrite !andb_true_iff, !Z.leb_le, !Z.ltb_lt. lia. }
      rewrite E. reflexivity.
Qed.
Lemma init_skip (o : Z -> op) l x : (forall k y, fold_left (fun acc (o : op) => match o with PInit x0 => x0 | _ => acc end) [o k] y = y) ->
  fold_left (fun acc (o : op) => match o with PInit x0 => x0 | _ => acc end) (map o l) x = x.
Proof. intros H. revert x. induction l as [|k l IH]; intros x; [reflexivity|]. cbn [map]. change (o k :: map o l) with ([o k] ++ map o l). rewrite fold_left_app, H. apply IH. Qed.
End Ops.

(** the shape shared by the two example problems: obstacles first, then costs, dynamics, bounds, goal; the initial state
    before the bounds or at the end *)
Section Shape.
Context {F : Scalar}.
Notation op := (pop F (UCost F)).
Definition shape (N : Z) (obs : option (Con F)) (c cT : UCost F) (md : Model F) (bg : option (Con F * Con F)) (x0 : list F) (late : bool) : list op :=
  (match obs with Some o => map (fun k => PCon Inequality o k) (zseq 1 (Z.to_nat (N - 1))) | None => [] end) ++
  map (fun k => PCost (Some c) k) (zseq 0 (Z.to_nat N)) ++ [PCost (Some cT) N] ++
  map (fun k => PDyn (Some md) k) (zseq 0 (Z.to_nat N)) ++ (if late then [] else [PInit x0]) ++
  (match bg with Some (b, g) => map (fun k => PCon Inequality b k) (zseq 0 (Z.to_nat N)) ++ [PCon Equality g N] | None => [] end) ++
  (if late then [PInit x0] else []).
Context (N : Z) (HN : 1 <= N) (obs : option (Con F)) (c cT : UCost F) (md : Model F) (bg : option (Con F * Con F)) (x0 : list F) (late : bool).
Let os := shape N obs c cT md bg x0 late.
Definition sh_cost (k : Z) : UCost F := if k =? N then cT else c.
Definition sh_eq (k : Z) : list (Con F) := match bg with Some (_, g) => if k =? N then [g] else [] | None => [] end.
Definition sh_ineq (k : Z) : list (Con F) :=
  (match obs with Some o => if (1 <=? k) && (k <? N) then [o] else [] | None => [] end) ++
  (match bg with Some (b, _) => if k <? N then [b] else [] | None => [] end).

Lemma sh_cost_given k : 0 <= k <= N -> cost_given os k = Some (sh_cost k).
Proof.
  intros Hk. unfold cost_given, os, shape. rewrite !cost_calls_app.
  assert (E1 : cost_calls (match obs with Some o => map (fun k => PCon Inequality o k) (zseq 1 (Z.to_nat (N - 1))) | None => [] end : list op) = []) by (destruct obs; [apply cc_con'; reflexivity|reflexivity]).
  rewrite E1, (cc_costs (fun _ => c)), (cc_con' (fun k => PDyn (Some md) k)) by reflexivity.
  assert (E2 : cost_calls ((if late then [] else [PInit x0]) : list op) = []) by (destruct late; reflexivity). rewrite E2.
  assert (E3 : cost_calls ((if late then [PInit x0] else []) : list op) = []) by (destruct late; reflexivity). rewrite E3.
  assert (E4 : cost_calls (match bg with Some (b, g) => map (fun k => PCon Inequality b k) (zseq 0 (Z.to_nat N)) ++ [PCon Equality g N] | None => [] end : list op) = []).
  { destruct bg as [[b g]|]; [|reflexivity]. rewrite cost_calls_app, cc_con' by reflexivity. reflexivity. }
  rewrite E4. cbn [app]. rewrite app_nil_r. change (cost_calls [PCost (Some cT) N]) with [(N, Some cT)].
  rewrite last_at_snoc, (last_at_zseq (fun _ => Some c)). unfold sh_cost. rewrite Z.eqb_sym. destruct (Z.eqb_spec k N); [reflexivity|].
  replace ((0 <=? k) && (k <? Z.of_nat (Z.to_nat N))) with true by (symmetry; zb). reflexivity.
Qed.
Lemma sh_dyn_calls : dyn_calls os = map (fun k => (k, Some md)) (zseq 0 (Z.to_nat N)).
Proof.
  unfold os, shape. rewrite !dyn_calls_app.
  assert (E1 : dyn_calls (match obs with Some o => map (fun k => PCon Inequality o k) (zseq 1 (Z.to_nat (N - 1))) | None => [] end : list op) = []) by (destruct obs; [apply dc_con'; reflexivity|reflexivity]).
  rewrite E1, (dc_con' (fun k => PCost (Some c) k)), (dc_dyns (fun _ => md)) by reflexivity.
  assert (E2 : dyn_calls ((if late then [] else [PInit x0]) : list op) = []) by (destruct late; reflexivity). rewrite E2.
  assert (E3 : dyn_calls ((if late then [PInit x0] else []) : list op) = []) by (destruct late; reflexivity). rewrite E3.
  assert (E4 : dyn_calls (match bg with Some (b, g) => map (fun k => PCon Inequality b k) (zseq 0 (Z.to_nat N)) ++ [PCon Equality g N] | None => [] end : list op) = []).
  { destruct bg as [[b g]|]; [|reflexivity]. rewrite dyn_calls_app, dc_con' by reflexivity. reflexivity. }
  rewrite E4. cbn [app dyn_calls flat_map]. now rewrite !app_nil_r.
Qed.
Lemma sh_dyn_given k : 0 <= k < N -> dyn_given os k = Some md.
Proof. intros Hk. unfold dyn_given. rewrite sh_dyn_calls, (last_at_zseq (fun _ => Some md)). replace ((0 <=? k) && (k <? Z.of_nat (Z.to_nat N))) with true by (symmetry; zb). reflexivity. Qed.
Lemma sh_init_given : init_given os = x0.
Proof.
  unfold init_given, os, shape. rewrite !fold_left_app.
  assert (E1 : forall x, fold_left (fun acc (o : op) => match o with PInit x0 => x0 | _ => acc end) (match obs with Some o => map (fun k => PCon Inequality o k) (zseq 1 (Z.to_nat (N - 1))) | None => [] end) x = x).
  { intros x. destruct obs; [apply init_skip; reflexivity|reflexivity]. }
  rewrite E1, (init_skip (fun k => PCost (Some c) k)) by reflexivity. cbn [fold_left]. rewrite (init_skip (fun k => PDyn (Some md) k)) by reflexivity.
  assert (E4 : forall x, fold_left (fun acc (o : op) => match o with PInit x0 => x0 | _ => acc end) (match bg with Some (b, g) => map (fun k => PCon Inequality b k) (zseq 0 (Z.to_nat N)) ++ [PCon Equality g N] | None => [] end) x = x).
  { intros x. destruct bg as [[b g]|]; [|reflexivity]. rewrite fold_left_app, init_skip by reflexivity. reflexivity. }
  destruct late; cbn [fold_left]; rewrite ?E4; reflexivity.
Qed.
Lemma sh_con_given b k : 0 <= k <= N -> con_given b os k = if b then sh_ineq k else sh_eq k.
Proof.
  intros Hk. unfold os, shape. rewrite !given_app.
  rewrite (given_none b (fun k => PCost (Some c) k)), (given_none b (fun k => PDyn (Some md) k)) by reflexivity.
  assert (E2 : con_given b ((if late then [] else [PInit x0]) : list op) k = []) by (destruct late; reflexivity). rewrite E2.
  assert (E3 : con_given b ((if late then [PInit x0] else []) : list op) k = []) by (destruct late; reflexivity). rewrite E3.
  change (con_given b [PCost (Some cT) N] k) with (@nil (Con F)). cbn [app]. rewrite app_nil_r.
  unfold sh_ineq, sh_eq.
  assert (E1 : con_given b (match obs with Some o => map (fun k => PCon Inequality o k) (zseq 1 (Z.to_nat (N - 1))) | None => [] end : list op) k =
    if b then match obs with Some o => if (1 <=? k) && (k <? N) then [o] else [] | None => [] end else []).
  { destruct obs; [|destruct b; reflexivity]. rewrite given_cons. replace (1 + Z.of_nat (Z.to_nat (N - 1))) with N by lia. cbn.
    destruct b; cbn; rewrite ?andb_true_r, ?andb_false_r; reflexivity. }
  rewrite E1. destruct bg as [[bd g]|].
  - rewrite given_app, given_cons. rewrite Z.add_0_l, Z2Nat.id by lia. cbn. rewrite (Z.eqb_sym N k).
    destruct b; cbn; rewrite ?andb_true_r, ?andb_false_r; cbn.
    + f_equal. replace (0 <=? k) with true by (symmetry; apply Z.leb_le; lia). cbn. rewrite app_nil_r. reflexivity.
    + destruct (k =? N); reflexivity.
  - cbn. destruct b; rewrite ?app_nil_r; reflexivity.
Qed.
Context (Hmd : 0 < md_n md /\ 0 < md_m md) (Hx0 : md_n md = Z.of_nat (length x0)).
Context (Ho : match obs with Some o => (0 < con_dim o)%nat | None => True end) (Hb : match bg with Some (b, g) => (0 < con_dim b)%nat /\ (0 < con_dim g)%nat | None => True end).
Lemma sh_valid : Forall (valid_op N) os.
Proof.
  unfold os, shape. rewrite !Forall_app. repeat match goal with |- _ /\ _ => split end.
  - destruct obs; [|constructor]. apply Forall_map, Forall_forall. intros k Hk. apply in_zseq in Hk. cbn. split; [auto|lia].
  - apply Forall_map, Forall_forall. intros k Hk. apply in_zseq in Hk. cbn. lia.
  - constructor; [|constructor]. cbn. lia.
  - apply Forall_map, Forall_forall. intros k Hk. apply in_zseq in Hk. cbn. split; [lia|auto].
  - destruct late; repeat constructor.
  - destruct bg as [[b g]|]; [|constructor]. destruct Hb. apply Forall_app. split.
    + apply Forall_map, Forall_forall. intros k Hk. apply in_zseq in Hk. cbn. split; [auto|lia].
    + constructor; [|constructor]. cbn. split; [auto|lia].
  - destruct late; repeat constructor.
Qed.
Lemma sh_complete : complete N os.
Proof.
  split; [intros k Hk; rewrite sh_dyn_given by lia; discriminate|]. split; [intros k Hk; rewrite sh_cost_given by lia; discriminate|].
  rewrite sh_init_given. split; [destruct x0; [cbn in Hx0; lia|discriminate]|].
  intros m E. rewrite sh_dyn_given in E by lia. injection E as <-. exact Hx0.
Qed.
Context (h0 : heap F) (s0 : heap F * Prob F (UCost F)) (E0 : pr_new N h0 = Ok s0).
(** the problem made by such a history *)
Theorem sh_run : exists h p, (forall d, pr_run d os s0 = Ok (h, p)) /\ pr_is_fully_defined h p = Ok true /\ contents N (length h0) os h p.
Proof.
  destruct (valid_run true N h0 s0 os ltac:(lia) E0 sh_valid) as (h & p & E). exists h, p.
  assert (A : forall d, pr_run d os s0 = Ok (h, p)) by (intros d'; apply run_weaken; exact E).
  split; [exact A|]. split; [|apply (contents_run true N h0 s0 os h p ltac:(lia) E0 E)].
  destruct (fully_defined_run true N h0 s0 os h p HN E0 E) as [_ H]. destruct H as (b & -> & Hb').
  - intros [_ H]. rewrite sh_dyn_given in H by lia. discriminate.
  - f_equal. apply Hb'. exact sh_complete.
Qed.
Theorem sh_holds h p : contents N (length h0) os h p -> holds N h p x0 md sh_cost sh_eq sh_ineq.
Proof.
  intros Hc. constructor.
  - unfold pr_segments. now rewrite (ct_N _ _ _ _ _ Hc).
  - rewrite (ct_loc _ _ _ _ _ Hc), (ct_init _ _ _ _ _ Hc). apply sh_init_given.
  - intros k Hk. rewrite (ct_model _ _ _ _ _ Hc) by lia. rewrite model_calls_lt by lia. f_equal. apply sh_dyn_given. lia.
  - rewrite (ct_model _ _ _ _ _ Hc) by lia. rewrite model_calls_N.
    + change (last_at (dyn_calls os) (N - 1)) with (dyn_given os (N - 1)). rewrite sh_dyn_given by lia. reflexivity.
    + rewrite sh_dyn_calls. apply Forall_forall. intros e He. apply in_map_iff in He. destruct He as (j & <- & Hj). apply in_zseq in Hj. cbn. lia.
  - intros k Hk. rewrite (ct_cost _ _ _ _ _ Hc) by lia. f_equal. apply sh_cost_given. lia.
  - intros k Hk. rewrite (ct_eq _ _ _ _ _ Hc) by lia. f_equal. apply (sh_con_given false). lia.
  - intros k Hk. rewrite (ct_ineq _ _ _ _ _ Hc) by lia. f_equal. apply (sh_con_given true). lia.
Qed.
End Shape.
