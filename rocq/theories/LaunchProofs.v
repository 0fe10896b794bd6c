(** The launcher's tasks on the pool. *)
From Coq Require Import List ZArith Bool Lia Arith FinFun.
From Verif Require Import Base Lin StatsModel TrajModel IlqrModel PoolSpec PoolModel PoolProofs TaskModel TaskSpec ParModel ParProofs ParProofs2 TaskProofs LaunchModel.
Import ListNotations.

Definition wact (d : nat * (WorkItem -> WorkItem)) : wmem -> wmem := on_work (Z.of_nat (fst d)) (snd d).
Definition wdesc (b : Z * Z) : list (nat * (WorkItem -> WorkItem)) := flat_map (fun i => map (pair (Z.to_nat i)) kernel) (zrange (fst b) (snd b)).
Lemma work_desc b : (0 <= fst b)%Z -> work_block b = map wact (wdesc b).
Proof.
  intros P. unfold work_block, wdesc. assert (G : forall l, (forall i, In i l -> 0 <= i)%Z -> flat_map (fun i => map (on_work i) kernel) l = map wact (flat_map (fun i => map (pair (Z.to_nat i)) kernel) l)).
  { induction l as [|i l IH]; intros V; [reflexivity|]. cbn [flat_map]. rewrite map_app, <- IH by (intros; apply V; right; assumption). f_equal. rewrite map_map. apply map_ext. intros f. unfold wact. cbn [fst snd]. rewrite Z2Nat.id by (apply V; left; reflexivity). reflexivity. }
  apply G. intros i J. apply in_zrange in J. lia.
Qed.
Lemma wdesc_in b d : In d (wdesc b) -> exists i, (fst b <= i < snd b)%Z /\ fst d = Z.to_nat i.
Proof. unfold wdesc. intros J. apply in_flat_map in J. destruct J as (i & J1 & J2). apply in_zrange in J1. apply in_map_iff in J2. destruct J2 as (f & <- & _). exists i. auto. Qed.
Lemma wdesc_cell b k : (0 <= fst b)%Z -> inb (Z.of_nat k) b = true -> filter (at_cell k) (wdesc b) = map (pair k) kernel.
Proof.
  intros P I. unfold wdesc. apply andb_true_iff in I. destruct I as [I1 I2]. apply Z.leb_le in I1. apply Z.ltb_lt in I2.
  assert (J : In (Z.of_nat k) (zrange (fst b) (snd b))) by (apply in_zrange; lia). pose proof (zrange_nodup (fst b) (snd b)) as ND.
  assert (POS : forall x, In x (zrange (fst b) (snd b)) -> (0 <= x)%Z) by (intros x X; apply in_zrange in X; lia).
  revert J ND POS. generalize (zrange (fst b) (snd b)). intros l J ND POS. set (g := fun i : Z => map (pair (Z.to_nat i)) kernel).
  assert (OTHER : forall x, (0 <= x)%Z -> x <> Z.of_nat k -> filter (at_cell k) (g x) = []).
  { intros x X NE. unfold g. cbn. unfold at_cell. cbn. replace (Nat.eqb (Z.to_nat x) k) with false by (symmetry; apply Nat.eqb_neq; lia). reflexivity. }
  assert (SAME : filter (at_cell k) (g (Z.of_nat k)) = map (pair k) kernel).
  { unfold g. rewrite Nat2Z.id. cbn. unfold at_cell. cbn. rewrite Nat.eqb_refl. reflexivity. }
  assert (NONE : forall l0, (forall x, In x l0 -> (0 <= x)%Z /\ x <> Z.of_nat k) -> filter (at_cell k) (flat_map g l0) = []).
  { induction l0 as [|x l0 IH]; intros V; [reflexivity|]. cbn [flat_map]. rewrite filter_app, IH by (intros; apply V; right; assumption). destruct (V x (or_introl eq_refl)). rewrite OTHER by assumption. reflexivity. }
  induction l as [|x l IH]; [destruct J|]. cbn [flat_map]. rewrite filter_app. inversion ND; subst. destruct J as [-> |J].
  - rewrite SAME, NONE, app_nil_r; [reflexivity|]. intros y Y. split; [apply POS; right; exact Y|]. intros ->. contradiction.
  - rewrite OTHER, IH; auto; [intros y Y; apply POS; right; exact Y|apply POS; left; reflexivity|intros ->; contradiction].
Qed.
Lemma on_work_cell i f ws : i < length ws -> on_work (Z.of_nat i) f (Ok ws) = Ok (upd i f ws).
Proof.
  intros L. unfold on_work. cbn [bind]. replace (Z.of_nat i <? 0)%Z with false by (symmetry; apply Z.ltb_ge; lia). rewrite Nat2Z.id.
  destruct (nth_error ws i) as [w|] eqn:E; [|apply nth_error_None in E; lia]. f_equal. apply list_ext. intros k. destruct (Nat.eq_dec i k) as [->|N].
  - rewrite !nth_error_upd_same, E. reflexivity.
  - rewrite !nth_error_upd_other by exact N. reflexivity.
Qed.
Lemma wreplay (bs : list (body wmem)) (D : nat -> nat -> option (nat * (WorkItem -> WorkItem))) : forall H ws,
  (forall id j, In (EAct id j) H -> exists b d, nth_error bs id = Some b /\ nth_error b j = Some (wact d) /\ D id j = Some d /\ fst d < length ws) ->
  replay bs H (Ok ws : wmem) = Ok (cells_run (trace D H) ws).
Proof.
  induction H as [|e H IH]; intros ws V; [reflexivity|].
  assert (V' : forall id j, In (EAct id j) H -> exists b d, nth_error bs id = Some b /\ nth_error b j = Some (wact d) /\ D id j = Some d /\ fst d < length ws) by (intros; apply V; right; assumption).
  destruct e as [| |id j| | | | | | | | | | | | | |]; try (exact (IH ws V')).
  destruct (V id j (or_introl eq_refl)) as (b & d & B & A & DD & LT). cbn [replay fold_left act]. rewrite B, A. unfold wact. rewrite on_work_cell by exact LT. fold (replay bs H (Ok (upd (fst d) (snd d) ws) : wmem)). rewrite IH.
  - cbn [trace flat_map]. rewrite DD. reflexivity.
  - rewrite upd_length. exact V'.
Qed.
(** one round on any blocks that cover the items 0 .. M - 1 exactly once *)
Definition bump (M : Z) (k : nat) (w : WorkItem) : WorkItem := if (Z.of_nat k <? M)%Z then (fst w + 1, fst w)%Z else w.
Lemma wround debug W H1 s1 sched H2 s2 (M : Z) tasks ws : solver_run debug W H1 s1 -> (forall id, id < length (added H1) -> In (EFin id) H1) ->
  (M <= Z.of_nat (length ws))%Z -> (forall k, length (filter (inb k) tasks) = if ((0 <=? k) && (k <? M))%Z then 1 else 0) -> (forall b, In b tasks -> 0 <= fst b)%Z ->
  p_mem s1 = Ok ws -> p_exec debug sched s1 = Ok (H2 ++ [EWaited], s2) -> added H2 = map work_block tasks -> no_timeout H2 ->
  exists ws', p_mem s2 = Ok ws' /\ forall k, nth_error ws' k = option_map (bump M k) (nth_error ws k).
Proof.
  intros R FIN LM CV POS MEM E AD NT. destruct (round debug W H1 s1 sched H2 s2 R FIN E NT) as (R1 & R2 & R3 & R4). rewrite R4, MEM. set (b0 := length (added H1)) in *.
  set (D := fun id j => if Nat.ltb id b0 then None else match nth_error tasks (id - b0) with Some b => nth_error (wdesc b) j | None => None end).
  assert (PB : forall i b, nth_error tasks i = Some b -> (0 <= fst b)%Z) by (intros i b J; apply POS; eapply nth_error_In; eauto).
  assert (INB : forall k b, In b tasks -> inb k b = true -> (0 <= k < M)%Z).
  { intros k b J I. specialize (CV k). destruct ((0 <=? k)%Z && (k <? M)%Z) eqn:C; [apply andb_true_iff in C; destruct C as [C1 C2]; apply Z.leb_le in C1; apply Z.ltb_lt in C2; lia|].
    exfalso. assert (X : In b (filter (inb k) tasks)) by (apply filter_In; auto). destruct (filter (inb k) tasks); [exact X|discriminate]. }
  assert (NEWB : forall i b, nth_error tasks i = Some b -> nth_error (added H2) i = Some (map wact (wdesc b))).
  { intros i b J. rewrite AD, nth_error_map, J. cbn. f_equal. apply work_desc. eapply PB; eauto. }
  assert (NEWL : forall i b, nth_error tasks i = Some b -> nth_error (added H1 ++ added H2) (b0 + i) = Some (map wact (wdesc b))).
  { intros i b J. rewrite nth_error_app2 by (unfold b0; lia). replace (b0 + i - length (added H1)) with i by (unfold b0; lia). apply NEWB. exact J. }
  assert (LT : length (added H2) = length tasks) by (rewrite AD; apply map_length).
  assert (DIN : forall i b j d, nth_error tasks i = Some b -> nth_error (wdesc b) j = Some d -> inb (Z.of_nat (fst d)) b = true).
  { intros i b j d J N. apply nth_error_In, wdesc_in in N. destruct N as (x & X1 & X2). pose proof (PB _ _ J). unfold inb. apply andb_true_iff. split; [apply Z.leb_le|apply Z.ltb_lt]; lia. }
  exists (cells_run (trace D H2) ws). split; [apply (wreplay (added H1 ++ added H2) D H2 ws)|].
  2:{ intros k. rewrite cells_nth. destruct (nth_error ws k) as [w|] eqn:NW; [|reflexivity]. cbn [option_map]. f_equal. unfold bump.
    destruct (Z.ltb_spec (Z.of_nat k) M) as [KM|KM].
    + assert (C1 : length (filter (inb (Z.of_nat k)) tasks) = 1) by (rewrite CV; replace (0 <=? Z.of_nat k)%Z with true by (symmetry; apply Z.leb_le; lia); replace (Z.of_nat k <? M)%Z with true by (symmetry; apply Z.ltb_lt; lia); reflexivity).
      destruct (unique_block (Z.of_nat k) tasks C1) as (i & b & NB & IB & U). rewrite (trace_task D k (b0 + i) H2).
      * rewrite (R2 _ _ (NEWB _ _ NB)). assert (TL : trace D (life (b0 + i) (map wact (wdesc b))) = wdesc b).
        { apply (trace_life D (b0 + i) (map wact (wdesc b)) (wdesc b)); [rewrite map_length; reflexivity|].
          intros j. unfold D. replace (Nat.ltb (b0 + i) b0) with false by (symmetry; apply Nat.ltb_ge; lia). replace (b0 + i - b0) with i by lia. rewrite NB. reflexivity. }
        etransitivity; [refine (f_equal (fun l => fold_left _ (map snd (filter (at_cell k) l)) w) TL)|]. rewrite wdesc_cell; [|eapply PB; eauto|exact IB]. reflexivity.
      * intros id j d DD FD. unfold D in DD. destruct (Nat.ltb_spec id b0) as [A|A]; [discriminate|]. destruct (nth_error tasks (id - b0)) as [b'|] eqn:NB'; [|discriminate].
        assert (id - b0 = i); [|lia]. eapply U; [exact NB'|]. rewrite <- FD. eapply DIN; eauto.
    + assert (Z0 : filter (at_cell k) (trace D H2) = []).
      { assert (G : forall d, In d (trace D H2) -> at_cell k d = false).
        { intros d J. unfold trace in J. apply in_flat_map in J. destruct J as (e & _ & J). destruct e; try (destruct J; fail). unfold D in J. destruct (Nat.ltb_spec id b0) as [A|A]; [destruct J|]. destruct (nth_error tasks (id - b0)) as [b'|] eqn:NB'; [|destruct J]. destruct (nth_error (wdesc b') j) as [d'|] eqn:ND; [|destruct J]. destruct J as [->|[]].
          pose proof (DIN _ _ _ _ NB' ND) as I. apply nth_error_In in NB'. pose proof (INB _ _ NB' I). unfold at_cell. apply Nat.eqb_neq. lia. }
        induction (trace D H2) as [|d l IH]; [reflexivity|]. cbn. rewrite G by (left; reflexivity). apply IH. intros d' J. apply G. right. exact J. }
      rewrite Z0. reflexivity. }
  - intros id j J. assert (IN : In (EAct id j) (filter (about id) H2)) by (apply filter_In; split; [exact J|cbn; apply Nat.eqb_refl]).
    destruct (Nat.lt_ge_cases id b0) as [A|A]; [rewrite (R1 id A) in IN; destruct IN|].
    destruct (Nat.lt_ge_cases id (b0 + length (added H2))) as [B|B]; [|rewrite (R3 id B) in IN; destruct IN].
    destruct (nth_error tasks (id - b0)) as [b|] eqn:NB; [|apply nth_error_None in NB; lia].
    specialize (NEWL _ _ NB). specialize (R2 _ _ (NEWB _ _ NB)). replace (b0 + (id - b0)) with id in * by lia. rewrite R2 in IN.
    unfold life in IN. destruct IN as [X|[X|X]]; try discriminate. apply in_app_or in X. destruct X as [X|[X|[]]]; [|discriminate]. apply in_map_iff in X. destruct X as (j' & X & JS). injection X as ->. apply in_seq in JS. rewrite map_length in JS.
    destruct (nth_error (wdesc b) j) as [d|] eqn:ND; [|apply nth_error_None in ND; lia]. exists (map wact (wdesc b)), d. split; [exact NEWL|]. split; [rewrite nth_error_map, ND; reflexivity|].
    split; [unfold D; replace (Nat.ltb id b0) with false by (symmetry; apply Nat.ltb_ge; lia); rewrite NB; exact ND|]. pose proof (DIN _ _ _ _ NB ND) as I. apply nth_error_In in NB. pose proof (INB _ _ NB I). lia.
Qed.
Lemma fin_after {M} debug W (H1 : list (pev M)) s1 sched H2 s2 : solver_run debug W H1 s1 -> (forall id, id < length (added H1) -> In (EFin id) H1) ->
  p_exec debug sched s1 = Ok (H2 ++ [EWaited], s2) -> no_timeout H2 -> forall id, id < length (added (H1 ++ H2 ++ [EWaited])) -> In (EFin id) (H1 ++ H2 ++ [EWaited]).
Proof.
  intros R FIN E NT. destruct (round debug W H1 s1 sched H2 s2 R FIN E NT) as (_ & R2 & _ & _). intros id J. rewrite !added_app, !app_length in J. change (length (added [EWaited])) with 0 in J. apply in_or_app.
  destruct (Nat.lt_ge_cases id (length (added H1))) as [K|K]; [left; apply FIN; exact K|right]. apply in_or_app. left. destruct (nth_error (added H2) (id - length (added H1))) as [b|] eqn:B; [|apply nth_error_None in B; lia].
  specialize (R2 _ _ B). replace (length (added H1) + (id - length (added H1))) with id in R2 by lia. apply (filter_In (about id)). rewrite R2. unfold life. right. right. apply in_or_app. right. left. reflexivity.
Qed.
(** any number of rounds *)
Lemma rounds_inv debug W l M k H s : chain (la_inds l) -> hd_error (la_inds l) = Some 0%Z -> last (la_inds l) 0%Z = M -> (M <= Z.of_nat (length (la_work l)))%Z -> rounds debug W l k H s ->
  solver_run debug W H s /\ (forall id, id < length (added H) -> In (EFin id) H) /\
  exists ws, p_mem s = Ok ws /\ length ws = length (la_work l) /\ forall i, option_map fst (nth_error ws i) = option_map (fun w => fst w + if Z.of_nat i <? M then Z.of_nat k else 0)%Z (nth_error (la_work l) i).
Proof.
  intros CH HD LA LM R. induction R as [|k H s sched H' s' R IH E AD NT].
  - split; [constructor|]. split; [intros id J; cbn in J; lia|]. exists (la_work l). split; [reflexivity|]. split; [reflexivity|]. intros i. destruct (nth_error (la_work l) i) as [w|]; [|reflexivity]. cbn [option_map]. f_equal. destruct (Z.of_nat i <? M)%Z; cbn; lia.
  - destruct IH as (S1 & FIN & ws & ME & LW & C). split; [eapply SR_pool; eauto|]. split; [eapply fin_after; eauto|].
    destruct (la_inds l) as [|a r] eqn:IL; [discriminate|]. cbn in HD. injection HD as ->.
    destruct (wround debug W H s sched H' s' M (blocks (la_inds l)) ws) as (ws' & ME' & C'); auto.
    + rewrite LW. exact LM.
    + intros x. rewrite IL, (chain_count r 0%Z 0%Z x CH), LA. reflexivity.
    + intros b J. rewrite IL in J. destruct (chain_blocks r 0%Z 0%Z b CH J). lia.
    + exists ws'. split; [exact ME'|]. assert (LE : length ws' = length ws).
      { destruct (Nat.lt_trichotomy (length ws') (length ws)) as [X|[X|X]]; [|exact X|].
        - specialize (C' (length ws')). rewrite (proj2 (nth_error_None ws' _)) in C' by lia. destruct (nth_error ws (length ws')) eqn:Q; [discriminate|]. apply nth_error_None in Q. lia.
        - specialize (C' (length ws)). rewrite (proj2 (nth_error_None ws _)) in C' by lia. apply nth_error_None in C'. lia. }
      split; [congruence|]. intros i. rewrite C'. specialize (C i). destruct (nth_error ws i) as [w|]; [|destruct (nth_error (la_work l) i); [discriminate|reflexivity]].
      destruct (nth_error (la_work l) i) as [w0|]; [|discriminate]. cbn [option_map] in *. injection C as C. f_equal. unfold bump. destruct (Z.of_nat i <? M)%Z; cbn [fst]; lia.
Qed.
(** sums *)
Lemma sum_from_ok : forall (ws : list WorkItem) acc, (0 <= acc)%Z -> (forall w, In w ws -> 0 <= fst w)%Z -> let t := (acc + fold_right (fun w s => fst w + s) 0 ws)%Z in
  (t < 2 ^ 31)%Z -> sum_from acc ws = Ok t.
Proof.
  induction ws as [|w ws IH]; intros acc A P t T; [unfold t; cbn; f_equal; lia|]. cbn [sum_from]. unfold t in *. cbn [fold_right] in *. pose proof (P w (or_introl eq_refl)) as PW.
  assert (S0 : (0 <= fold_right (fun w s => fst w + s) 0 ws)%Z). { clear - P. induction ws as [|v ws IH]; cbn [fold_right]; [lia|]. pose proof (P v (or_intror (or_introl eq_refl))). assert (0 <= fold_right (fun w s => fst w + s) 0 ws)%Z; [|lia]. apply IH. intros x [->|X]; apply P; [left|right; right]; auto. }
  replace (int_ok (fst w)) with true by (symmetry; unfold int_ok; apply andb_true_iff; split; [apply Z.leb_le; lia|apply Z.ltb_lt; lia]).
  replace (int_ok (acc + fst w)) with true by (symmetry; unfold int_ok; apply andb_true_iff; split; [apply Z.leb_le; lia|apply Z.ltb_lt; lia]). cbn [andb].
  rewrite IH; [f_equal; lia|lia|intros; apply P; right; assumption|lia].
Qed.
Lemma sum_shape : forall (ws : list WorkItem) (o m c : nat), m <= o + length ws -> o <= m -> (forall i, i < length ws -> option_map fst (nth_error ws i) = Some (if Z.of_nat (o + i) <? Z.of_nat m then Z.of_nat c else 0)%Z) ->
  fold_right (fun w s => fst w + s)%Z 0%Z ws = (Z.of_nat c * (Z.of_nat m - Z.of_nat o))%Z.
Proof.
  induction ws as [|w ws IH]; intros o m c L O C; cbn [fold_right length] in *; [replace m with o by lia; lia|].
  pose proof (C 0 ltac:(lia)) as C0. cbn in C0. injection C0 as C0. rewrite Nat.add_0_r in C0. destruct (Nat.eq_dec o m) as [->|N].
  - rewrite C0, Z.ltb_irrefl. cbn [Z.add].
    assert (G : forall (l : list WorkItem), (forall i, i < length l -> option_map fst (nth_error l i) = Some 0%Z) -> fold_right (fun w s => fst w + s)%Z 0%Z l = 0%Z).
    { induction l as [|v l IHl]; intros X; [reflexivity|]. cbn [fold_right]. pose proof (X 0 ltac:(cbn; lia)) as X0. cbn in X0. injection X0 as X0. rewrite X0, IHl; [reflexivity|]. intros i J. exact (X (S i) ltac:(cbn; lia)). }
    rewrite G; [lia|]. intros i J. specialize (C (S i) ltac:(lia)). cbn [nth_error] in C. rewrite C. replace (Z.of_nat (m + S i) <? Z.of_nat m)%Z with false by (symmetry; apply Z.ltb_ge; lia). reflexivity.
  - rewrite (IH (S o) m c); [|lia|lia|].
    + rewrite C0. replace (Z.of_nat o <? Z.of_nat m)%Z with true by (symmetry; apply Z.ltb_lt; lia). lia.
    + intros i J. specialize (C (S i) ltac:(lia)). cbn [nth_error] in C. rewrite C. replace (o + S i) with (S o + i) by lia. reflexivity.
Qed.
(** the serial block *)
Lemma wserial b ws : (0 <= fst b)%Z -> (snd b <= Z.of_nat (length ws))%Z -> exists ws', fold_left (fun s a => a s) (work_block b) (Ok ws : wmem) = Ok ws' /\
  forall k, nth_error ws' k = option_map (fun w => if inb (Z.of_nat k) b then (fst w + 1, fst w)%Z else w) (nth_error ws k).
Proof.
  intros P L. rewrite (work_desc b P).
  assert (G : forall ds ws, (forall d, In d ds -> fst d < length ws) -> fold_left (fun s a => a s) (map wact ds) (Ok ws : wmem) = Ok (cells_run ds ws)).
  { induction ds as [|d ds IH]; intros w V; [reflexivity|]. cbn [map fold_left]. unfold wact at 2. rewrite on_work_cell by (apply V; left; reflexivity). rewrite IH; [reflexivity|]. intros d' J. rewrite upd_length. apply V. right. exact J. }
  rewrite G by (intros d J; apply wdesc_in in J; destruct J as (i & I1 & I2); lia). eexists. split; [reflexivity|]. intros k. rewrite cells_nth. destruct (nth_error ws k) as [w|]; [|reflexivity]. cbn [option_map]. f_equal.
  destruct (inb (Z.of_nat k) b) eqn:I; [rewrite wdesc_cell by assumption; reflexivity|].
  assert (Z0 : filter (at_cell k) (wdesc b) = []).
  { assert (Q : forall d, In d (wdesc b) -> at_cell k d = false).
    { intros d J. apply wdesc_in in J. destruct J as (x & X1 & X2). unfold at_cell. apply Nat.eqb_neq. intros X. rewrite X in X2. unfold inb in I. apply andb_false_iff in I. destruct I as [I|I]; [apply Z.leb_gt in I|apply Z.ltb_ge in I]; lia. }
    induction (wdesc b) as [|d l IH]; [reflexivity|]. cbn. rewrite Q by (left; reflexivity). apply IH. intros d' J. apply Q. right. exact J. }
  rewrite Z0. reflexivity.
Qed.
