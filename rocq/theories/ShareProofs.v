(** Tasks with disjoint footprints do not see each other. *)
From Coq Require Import List ZArith Bool Lia Arith.
From Verif Require Import Base Lin RLin TrajModel IlqrModel DynModel PoolSpec PoolModel PoolProofs TaskModel TaskSpec ParModel ParProofs ParProofs2 ThrowProofs ShareModel.
Import ListNotations.

(** a history seen through a relation [eqv] that the actions of one task respect and those of the others do not disturb *)
Section Frame.
Context {M : Type} (eqv : M -> M -> Prop) (ER : forall m, eqv m m) (ET : forall a b c, eqv a b -> eqv b c -> eqv a c) (ES : forall a b, eqv a b -> eqv b a).
Lemma run_resp (l : list (M -> M)) : (forall a, In a l -> forall m m', eqv m m' -> eqv (a m) (a m')) -> forall m m', eqv m m' -> eqv (fold_left (fun s a => a s) l m) (fold_left (fun s a => a s) l m').
Proof. induction l as [|a l IH]; intros P m m' E; [exact E|]. cbn. apply IH; [intros; apply P; [right|]; assumption|]. apply P; [left; reflexivity|exact E]. Qed.
Lemma run_skip (l : list (M -> M)) : (forall a, In a l -> forall m, eqv (a m) m) -> forall m, eqv (fold_left (fun s a => a s) l m) m.
Proof. induction l as [|a l IH]; intros P m; [apply ER|]. cbn. eapply ET; [apply IH; intros; apply P; right; assumption|]. apply P. left. reflexivity. Qed.
Lemma frame_replay (bs : list (body M)) t : forall H,
  (forall j b a, In (EAct t j) H -> nth_error bs t = Some b -> nth_error b j = Some a -> forall m m', eqv m m' -> eqv (a m) (a m')) ->
  (forall id j b a, In (EAct id j) H -> id <> t -> nth_error bs id = Some b -> nth_error b j = Some a -> forall m, eqv (a m) m) ->
  forall m m', eqv m m' -> eqv (replay bs H m) (replay bs (filter (about t) H) m').
Proof.
  unfold replay. induction H as [|e H IH]; intros P Q m m' E; [exact E|]. cbn [filter fold_left].
  assert (IH' : forall a b, eqv a b -> eqv (fold_left (fun m e => act bs e m) H a) (fold_left (fun m e => act bs e m) (filter (about t) H) b)).
  { apply IH; intros; [eapply P|eapply Q]; eauto; right; assumption. }
  destruct (about t e) eqn:AB; cbn [fold_left]; apply IH'.
  - destruct e; cbn [act]; try exact E. cbn in AB. apply Nat.eqb_eq in AB. subst id. destruct (nth_error bs t) as [b|] eqn:B; [|exact E]. destruct (nth_error b j) as [a|] eqn:A; [|exact E]. eapply P; eauto. left. reflexivity.
  - destruct e; cbn [act]; try exact E. cbn in AB. apply Nat.eqb_neq in AB. destruct (nth_error bs id) as [b|] eqn:B; [|exact E]. destruct (nth_error b j) as [a|] eqn:A; [|exact E]. eapply ET; [|exact E]. eapply Q; eauto. left. reflexivity.
Qed.
Lemma replay_life (bs : list (body M)) t b m : nth_error bs t = Some b -> replay bs (life t b) m = fold_left (fun s a => a s) b m.
Proof.
  intros B. unfold replay, life. cbn [fold_left act]. rewrite fold_left_app. cbn [fold_left act].
  assert (G : forall l p m, b = p ++ l -> fold_left (fun m e => act bs e m) (map (EAct t) (seq (length p) (length l))) m = fold_left (fun s a => a s) l m).
  { induction l as [|a l IH]; intros p m' X; [reflexivity|]. cbn [length seq map fold_left act]. rewrite B, X, nth_error_app2, Nat.sub_diag by lia. cbn [nth_error].
    replace (S (length p)) with (length (p ++ [a])) by (rewrite app_length; cbn; lia). apply IH. rewrite <- app_assoc. exact X. }
  exact (G b [] m eq_refl).
Qed.
(** one round of the pool *)
Lemma frame_round debug W H1 s1 sched H2 s2 i b : solver_run debug W H1 s1 -> (forall id, id < length (added H1) -> In (EFin id) H1) ->
  p_exec debug sched s1 = Ok (H2 ++ [EWaited], s2) -> no_timeout H2 -> nth_error (added H2) i = Some b ->
  (forall a, In a b -> forall m m', eqv m m' -> eqv (a m) (a m')) ->
  (forall i' b' a, i' <> i -> nth_error (added H2) i' = Some b' -> In a b' -> forall m, eqv (a m) m) ->
  eqv (p_mem s2) (fold_left (fun s a => a s) b (p_mem s1)).
Proof.
  intros R FIN E NT B P Q. destruct (round debug W H1 s1 sched H2 s2 R FIN E NT) as (R1 & R2 & R3 & R4). set (b0 := length (added H1)) in *.
  assert (NB : nth_error (added H1 ++ added H2) (b0 + i) = Some b) by (rewrite nth_error_app2 by (unfold b0; lia); replace (b0 + i - length (added H1)) with i by (unfold b0; lia); exact B).
  rewrite R4. rewrite <- (replay_life (added H1 ++ added H2) (b0 + i) b (p_mem s1) NB), <- (R2 i b B). apply frame_replay; [| |apply ER].
  - intros j b' a _ X A. rewrite NB in X. injection X as <-. apply P. eapply nth_error_In; exact A.
  - intros id j b' a J D X A.
    assert (IN : In (EAct id j) (filter (about id) H2)) by (apply filter_In; split; [exact J|cbn; apply Nat.eqb_refl]).
    destruct (Nat.lt_ge_cases id b0) as [L|L]; [rewrite (R1 id L) in IN; destruct IN|].
    apply (Q (id - b0) b'); [lia| |eapply nth_error_In; exact A]. rewrite nth_error_app2 in X by exact L. exact X.
Qed.
End Frame.

Section P.
Context {F : Scalar} (n m : nat).
Notation W := (Scr F * mat F)%type.
Notation run := (fold_left (fun (c : W) f => f c)).
(** alone, the statements compute the Jacobian of DynModel *)
Lemma rk_alone cd x u t h s J : snd (run (rk_stmts n m cd x u t h) (s, J)) = snd (rk4_jac n m cd (sc_k s) x u t h J).
Proof.
  unfold rk_stmts, rk4_jac, rk_stages. cbn [fold_left]. unfold wj at 1. cbn [snd]. apply mstore_ext. intros i j Hi Hj. unfold wj at 1. cbn [snd fst]. destruct (Nat.ltb j n) eqn:L.
  - rewrite mstore_lt by assumption. rewrite L. reflexivity.
  - reflexivity.
Qed.
Lemma eu_alone cd x u t h s J : run (eu_stmts n m cd x u t h) (s, J) = (s, euler_jac n m cd x u t h J).
Proof. reflexivity. Qed.

Context (dm : nat -> DM F) (ob : Z -> nat) (N : Z) (Zt : Z -> KP F).
Notation at_kp := (at_kp ob). Notation kp_stmts := (kp_stmts n m dm ob N Zt). Notation SM := (SMem F).
Notation runs := (fold_left (fun (s : SM) a => a s)).
Definition used (k : Z) : bool := ((0 <=? k) && (k <? N))%Z.
(** only the Jacobian of k and the object of k matter to, and are changed by, the statements of k *)
Lemma at_jac k f (s : SM) j : j <> k -> sm_jac (at_kp k f s) j = sm_jac s j.
Proof. intros D. unfold ShareModel.at_kp. cbn. apply Z.eqb_neq in D. rewrite D. reflexivity. Qed.
Lemma at_scr k f (s : SM) o : o <> ob k -> sm_scr (at_kp k f s) o = sm_scr s o.
Proof. intros D. unfold ShareModel.at_kp. cbn. unfold put. apply Nat.eqb_neq in D. rewrite D. reflexivity. Qed.
Lemma at_own k f (s : SM) : (sm_scr (at_kp k f s) (ob k), sm_jac (at_kp k f s) k) = f (sm_scr s (ob k), sm_jac s k).
Proof. unfold ShareModel.at_kp, put. cbn. rewrite Nat.eqb_refl, Z.eqb_refl. destruct (f _); reflexivity. Qed.
Lemma at_run k fs : forall s : SM, let s' := runs (map (at_kp k) fs) s in (sm_scr s' (ob k), sm_jac s' k) = run fs (sm_scr s (ob k), sm_jac s k).
Proof. induction fs as [|f fs IH]; intros s; [reflexivity|]. cbn [map fold_left]. cbv zeta. rewrite IH, at_own. reflexivity. Qed.
Lemma stmts_in k a : In a (kp_stmts k) -> used k = true /\ exists f, a = at_kp k f /\ In f (stmts n m (dm (ob k)) (Zt k)).
Proof. unfold ShareModel.kp_stmts. fold (used k). destruct (used k); [|intros []]. intros J. apply in_map_iff in J. destruct J as (f & <- & J). split; [reflexivity|]. exists f. auto. Qed.
Lemma block_in b a : In a (sh_block n m dm ob N Zt b) -> exists k, inb k b = true /\ used k = true /\ exists f, a = at_kp k f /\ In f (stmts n m (dm (ob k)) (Zt k)).
Proof.
  unfold sh_block. intros J. apply in_flat_map in J. destruct J as (k & K & J). apply stmts_in in J. destruct J as [U X]. exists k. split; [|split; assumption]. apply in_zrange in K. unfold inb. apply andb_true_iff. split; [apply Z.leb_le|apply Z.ltb_lt]; lia.
Qed.
(** statements of ExplicitEuler neither read nor write members *)
Lemma eu_blind (d : DM F) (z : KP F) f s s' J : dm_rk d = false -> In f (stmts n m d z) -> fst (f (s, J)) = s /\ snd (f (s, J)) = snd (f (s', J)).
Proof. unfold stmts. intros E. rewrite E. intros [<-|[<-|[]]]; split; reflexivity. Qed.
(** agreement on the footprint of a block: its Jacobians and its Runge-Kutta objects *)
Definition agree (b : Z * Z) (s s' : SM) : Prop :=
  forall k, inb k b = true -> sm_jac s k = sm_jac s' k /\ (used k = true -> dm_rk (dm (ob k)) = true -> sm_scr s (ob k) = sm_scr s' (ob k)).
Lemma agree_refl b s : agree b s s. Proof. intros k _. auto. Qed.
Lemma agree_trans b s1 s2 s3 : agree b s1 s2 -> agree b s2 s3 -> agree b s1 s3.
Proof. intros A B k K. destruct (A k K) as [A1 A2], (B k K) as [B1 B2]. split; [congruence|]. intros U R. rewrite A2, B2 by assumption. reflexivity. Qed.
Lemma agree_sym b s1 s2 : agree b s1 s2 -> agree b s2 s1.
Proof. intros A k K. destruct (A k K) as [A1 A2]. split; [congruence|]. intros U R. symmetry. auto. Qed.
Lemma own_resp b a : In a (sh_block n m dm ob N Zt b) -> forall s s', agree b s s' -> agree b (a s) (a s').
Proof.
  intros J s s' A. apply block_in in J. destruct J as (k & K & U & f & -> & JF). destruct (A k K) as [AJ AS].
  assert (X : snd (f (sm_scr s (ob k), sm_jac s k)) = snd (f (sm_scr s' (ob k), sm_jac s' k)) /\ (dm_rk (dm (ob k)) = true -> fst (f (sm_scr s (ob k), sm_jac s k)) = fst (f (sm_scr s' (ob k), sm_jac s' k)))).
  { rewrite AJ. destruct (dm_rk (dm (ob k))) eqn:RK; [rewrite (AS U eq_refl); auto|]. split; [|discriminate]. apply (eu_blind _ _ _ _ _ _ RK JF). }
  destruct X as [X1 X2]. intros k' K'. destruct (A k' K') as [AJ' AS']. split.
  - unfold ShareModel.at_kp. cbn. destruct (k' =? k)%Z; [exact X1|exact AJ'].
  - intros U' R'. unfold ShareModel.at_kp, put. cbn. destruct (Nat.eqb_spec (ob k') (ob k)) as [EO|EO]; [|auto]. rewrite EO in R'. auto.
Qed.
(** a statement of a knot point outside the block that does not use a Runge-Kutta object of the block *)
Lemma other_skip b k f s : inb k b = false -> used k = true -> (forall k', inb k' b = true -> used k' = true -> dm_rk (dm (ob k')) = true -> ob k' <> ob k) -> agree b (at_kp k f s) s.
Proof.
  intros I U SEP k' K'. split; [apply at_jac; congruence|]. intros U' R'. apply at_scr. apply SEP; assumption.
Qed.
Definition apart (tasks : list (Z * Z)) : Prop := forall i i' b b' k k', nth_error tasks i = Some b -> nth_error tasks i' = Some b' -> i <> i' ->
  inb k b = true -> inb k' b' = true -> used k = true -> used k' = true -> dm_rk (dm (ob k)) = true -> ob k <> ob k'.
Lemma share_round debug Wk H1 s1 sched H2 s2 tasks i b : solver_run debug Wk H1 s1 -> (forall id, id < length (added H1) -> In (EFin id) H1) ->
  p_exec debug sched s1 = Ok (H2 ++ [EWaited], s2) -> no_timeout H2 -> added H2 = sh_tasks n m dm ob N tasks Zt -> exact_cover N tasks -> apart tasks -> nth_error tasks i = Some b ->
  agree b (p_mem s2) (runs (sh_block n m dm ob N Zt b) (p_mem s1)).
Proof.
  intros R FIN E NT AD [CV1 CV2] AP NB.
  apply (frame_round (agree b) (agree_refl b) (agree_trans b) debug Wk H1 s1 sched H2 s2 i (sh_block n m dm ob N Zt b) R FIN E NT).
  - rewrite AD. unfold sh_tasks. rewrite nth_error_map, NB. reflexivity.
  - apply own_resp.
  - intros i' b' a D NB' J s. rewrite AD in NB'. unfold sh_tasks in NB'. rewrite nth_error_map in NB'. destruct (nth_error tasks i') as [c|] eqn:NC; [|discriminate]. cbn in NB'. injection NB' as <-.
    apply block_in in J. destruct J as (k & K & U & f & -> & _). apply other_skip; [|exact U|].
    + destruct (inb k b) eqn:I; [|reflexivity]. exfalso. pose proof (CV2 k b (nth_error_In _ _ NB) I) as KN. destruct (unique_block k tasks (CV1 k KN)) as (q & bq & _ & _ & UQ). apply D. rewrite (UQ i b NB I), (UQ i' c NC K). reflexivity.
    + intros k' K' U' R'. eapply AP; [exact NB|exact NC|congruence|eassumption..].
Qed.
Lemma zrange_app a b c : (a <= b <= c)%Z -> zrange a c = zrange a b ++ zrange b c.
Proof.
  intros K. unfold zrange. replace (Z.to_nat (c - a)) with (Z.to_nat (b - a) + Z.to_nat (c - b)) by lia. rewrite seq_app, map_app. f_equal. cbn [Nat.add].
  replace (Z.to_nat (b - a)) with (Z.to_nat (b - a) + 0) by lia. generalize (Z.to_nat (c - b)) as q. generalize 0 as o. intros o q. revert o. induction q as [|q IH]; intros o; [reflexivity|]. cbn [seq map]. f_equal; [lia|]. replace (S (Z.to_nat (b - a) + o)) with (Z.to_nat (b - a) + S o) by lia. apply IH.
Qed.
Lemma serial_agree tasks i b : exact_cover N tasks -> (forall b, In b tasks -> 0 <= fst b)%Z -> apart tasks -> nth_error tasks i = Some b -> (fst b < snd b)%Z -> forall s,
  agree b (sh_serial n m dm ob N Zt s) (runs (sh_block n m dm ob N Zt b) s).
Proof.
  intros [CV1 CV2] POS AP NB LT s. pose proof (nth_error_In _ _ NB) as IB. pose proof (POS b IB) as P0.
  assert (UP : (snd b <= N + 1)%Z). { assert (0 <= snd b - 1 <= N)%Z; [|lia]. apply (CV2 _ b IB). unfold inb. apply andb_true_iff. split; [apply Z.leb_le|apply Z.ltb_lt]; lia. }
  assert (SK : forall l, (forall k, In k l -> inb k b = false) -> forall s, agree b (runs (flat_map kp_stmts l) s) s).
  { intros l V. apply (run_skip (agree b) (agree_refl b) (agree_trans b)). intros a J s'. apply in_flat_map in J. destruct J as (k & K & J). apply stmts_in in J. destruct J as (U & f & -> & _).
    apply other_skip; [apply V; exact K|exact U|]. intros k' K' U' R'.
    unfold used in U. apply andb_true_iff in U. destruct U as [U1 U2]. apply Z.leb_le in U1. apply Z.ltb_lt in U2. destruct (unique_block k tasks (CV1 k ltac:(lia))) as (q & bq & NQ & IQ & _).
    apply (AP i q b bq k' k NB NQ); auto; [|unfold used; apply andb_true_iff; split; [apply Z.leb_le|apply Z.ltb_lt]; lia]. intros ->. rewrite NQ in NB. injection NB as ->. rewrite (V k K) in IQ. discriminate. }
  unfold sh_serial, sh_block at 1. cbn [fst snd]. rewrite (zrange_app 0 (fst b) (N + 1)), (zrange_app (fst b) (snd b) (N + 1)) by lia. rewrite !flat_map_app, !fold_left_app.
  eapply agree_trans; [apply SK|].
  - intros k K. apply in_zrange in K. unfold inb. apply andb_false_iff. right. apply Z.ltb_ge. lia.
  - apply (run_resp (agree b) (sh_block n m dm ob N Zt b)); [apply own_resp|]. apply SK. intros k K. apply in_zrange in K. unfold inb. apply andb_false_iff. left. apply Z.leb_gt. lia.
Qed.
(** one knot point of the single-threaded loop *)
Lemma runs_jac l k : ~ In k l -> forall s, sm_jac (runs (flat_map kp_stmts l) s) k = sm_jac s k.
Proof.
  intros V s. refine (run_skip (fun a b : SM => sm_jac a k = sm_jac b k) _ _ (flat_map kp_stmts l) _ s); [reflexivity|intros; congruence|]. intros a J s'. apply in_flat_map in J. destruct J as (j & K & J). apply stmts_in in J. destruct J as (_ & f & -> & _). apply at_jac. intros ->. exact (V K).
Qed.
Lemma serial_kp k s : (0 <= k < N)%Z -> exists o, sm_jac (sh_serial n m dm ob N Zt s) k = snd (run (stmts n m (dm (ob k)) (Zt k)) (o, sm_jac s k)).
Proof.
  intros K. unfold sh_serial, sh_block. cbn [fst snd]. rewrite (zrange_split 0 (N + 1) k) by lia. rewrite flat_map_app, fold_left_app. cbn [flat_map]. rewrite fold_left_app.
  rewrite runs_jac by (intros J; apply in_zrange in J; lia). set (s0 := runs (flat_map kp_stmts (zrange 0 k)) s). exists (sm_scr s0 (ob k)).
  unfold ShareModel.kp_stmts at 1. replace ((0 <=? k)%Z && (k <? N)%Z) with true by (symmetry; apply andb_true_iff; split; [apply Z.leb_le|apply Z.ltb_lt]; lia).
  assert (E0 : sm_jac s0 k = sm_jac s k) by (apply runs_jac; intros J; apply in_zrange in J; lia). rewrite <- E0. rewrite <- (at_run k (stmts n m (dm (ob k)) (Zt k)) s0). reflexivity.
Qed.
Lemma serial_out k s : ~ (0 <= k < N)%Z -> sm_jac (sh_serial n m dm ob N Zt s) k = sm_jac s k.
Proof.
  intros K. refine (run_skip (fun a b : SM => sm_jac a k = sm_jac b k) _ _ _ _ s); [reflexivity|intros; congruence|]. intros a J s'. apply block_in in J. destruct J as (j & _ & U & f & -> & _). apply at_jac. intros ->.
  unfold used in U. apply andb_true_iff in U. destruct U as [U1 U2]. apply Z.leb_le in U1. apply Z.ltb_lt in U2. lia.
Qed.
End P.
