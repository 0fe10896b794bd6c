(** Parallel update = serial update. *)
From Coq Require Import List ZArith Bool Lia Arith.
From Verif Require Import Base Lin StatsModel TrajModel IlqrModel PoolSpec PoolModel PoolProofs TaskModel TaskSpec ParModel ParProofs ParProofs2.
Import ListNotations.

Section P.
Context {F : Scalar} {CS : Type} (ops : CostOps F CS) (n m : nat).
Notation KPF := (KPF F CS). Notation mem := (@mem F CS).
Notation C := (KPF * F)%type.
Notation bdesc := (block_desc ops n m).

Lemma expand_length : forall (ks : list KPF) (Zt : Traj F), length ks = length Zt -> length (fst (expand_all ops n m ks Zt)) = length ks /\ length (snd (expand_all ops n m ks Zt)) = length ks.
Proof.
  induction ks as [|a ks IH]; intros [|z Zt] L; try discriminate; [split; reflexivity|]. cbn [expand_all]. injection L as L. specialize (IH Zt L). destruct (expand_kp ops n m z a). destruct (expand_all ops n m ks Zt). cbn in *. destruct IH. split; congruence.
Qed.
Lemma expand_nth : forall (ks : list KPF) (Zt : Traj F) k, nth_error (combine (snd (expand_all ops n m ks Zt)) (fst (expand_all ops n m ks Zt))) k =
  match nth_error ks k, nth_error Zt k with Some a, Some z => let (J, a') := expand_kp ops n m z a in Some (a', J) | _, _ => None end.
Proof.
  induction ks as [|a ks IH]; intros [|z Zt] k; cbn [expand_all].
  - destruct k; reflexivity.
  - destruct k; reflexivity.
  - cbn. destruct k; cbn; [reflexivity|]. destruct (nth_error ks k); reflexivity.
  - destruct (expand_kp ops n m z a) as [J a'] eqn:E. specialize (IH Zt). destruct (expand_all ops n m ks Zt) as [Js ks']. cbn [fst snd combine] in *. destruct k as [|k]; [cbn; rewrite E; reflexivity|]. cbn. apply IH.
Qed.
Lemma actions_fold k z (a : KPF) (c : F) : fold_left (fun c f => f c) (map (@snd nat (C -> C)) (map (pair k) (kp_actions ops n m z))) (a, c) = let (J, a') := expand_kp ops n m z a in (a', J).
Proof. rewrite map_map, map_id. cbn. unfold expand_kp. reflexivity. Qed.
(** any list of actions that does, on each cell, what the loop does *)
Lemma desc_expand ds (ks : list KPF) (cs : list F) (Zt : Traj F) ks' cs' : length ks = length cs -> length ks = length Zt -> length ks' = length ks -> length cs' = length cs ->
  combine ks' cs' = cells_run ds (combine ks cs) -> (forall k z, nth_error Zt k = Some z -> filter (at_cell k) ds = map (pair k) (kp_actions ops n m z)) ->
  (ks', cs') = (snd (expand_all ops n m ks Zt), fst (expand_all ops n m ks Zt)).
Proof.
  intros L1 L2 L3 L4 E A. destruct (expand_length ks Zt L2) as [EL1 EL2].
  destruct (combine_inj ks' (snd (expand_all ops n m ks Zt)) cs' (fst (expand_all ops n m ks Zt))) as [-> ->]; [lia|lia| |reflexivity].
  rewrite E. apply list_ext. intros k. rewrite cells_nth, expand_nth. destruct (nth_error ks k) as [a|] eqn:NA.
  - assert (K : k < length ks) by (apply nth_error_Some; congruence). destruct (nth_error Zt k) as [z|] eqn:NZ; [|apply nth_error_None in NZ; lia]. destruct (nth_error cs k) as [c|] eqn:NC; [|apply nth_error_None in NC; lia].
    rewrite (nth_combine _ _ _ _ _ NA NC). cbn [option_map]. rewrite (A k z NZ), actions_fold. destruct (expand_kp ops n m z a). reflexivity.
  - assert (NN : nth_error (combine ks cs) k = None) by (apply nth_error_None; apply nth_error_None in NA; rewrite combine_length; lia). rewrite NN. reflexivity.
Qed.
Lemma serial_expand (N : Z) (ks : list KPF) (cs : list F) (Zt : Traj F) : Z.of_nat (length ks) = (N + 1)%Z -> length cs = length ks -> length Zt = length ks ->
  update_serial ops n m N Zt (Ok (ks, cs)) = Ok (snd (expand_all ops n m ks Zt), fst (expand_all ops n m ks Zt)).
Proof.
  intros L1 L2 L3. unfold update_serial, run_body. rewrite block_acts_desc.
  2:{ intros k I. unfold inb in I. cbn [fst snd] in I. apply andb_true_iff in I. destruct I as [I1 I2]. apply Z.leb_le in I1. apply Z.ltb_lt in I2. lia. }
  destruct (run_desc (bdesc Zt (0, N + 1)%Z) ks cs) as (ks' & cs' & E & LK & LC & CE); [congruence| |].
  - intros d J. apply block_desc_in in J. destruct J as (k & _ & -> & J). lia.
  - rewrite E. f_equal. apply (desc_expand (bdesc Zt (0, N + 1)%Z) ks cs); auto. intros k z NZ. apply block_desc_cell; auto; [cbn; lia|]. assert (k < length Zt) by (apply nth_error_Some; congruence). unfold inb. cbn [fst snd]. apply andb_true_iff. split; [apply Z.leb_le|apply Z.ltb_lt]; lia.
Qed.

(** replaying a history whose actions are described by D *)
Lemma replay_trace (bs : list (body mem)) (D : nat -> nat -> option (nat * (C -> C))) L : forall H ks cs, length ks = L -> length cs = L ->
  (forall id j, In (EAct id j) H -> exists b d, nth_error bs id = Some b /\ nth_error b j = Some (act_of d) /\ D id j = Some d /\ fst d < L) ->
  exists ks' cs', replay bs H (Ok (ks, cs) : mem) = Ok (ks', cs') /\ length ks' = L /\ length cs' = L /\ combine ks' cs' = cells_run (trace D H) (combine ks cs).
Proof.
  induction H as [|e H IH]; intros ks cs L1 L2 V; [exists ks, cs; repeat split; auto|].
  assert (V' : forall id j, In (EAct id j) H -> exists b d, nth_error bs id = Some b /\ nth_error b j = Some (act_of d) /\ D id j = Some d /\ fst d < L) by (intros; apply V; right; assumption).
  destruct e as [| |id j| | | | | | | | | | | | | |]; try (exact (IH ks cs L1 L2 V')).
  destruct (V id j (or_introl eq_refl)) as (b & d & B & A & DD & LT). cbn [replay fold_left act]. rewrite B, A.
  destruct (on_cell (fst d) (snd d) ks cs) as (ks1 & cs1 & E & LK & LC & CE); [congruence|lia|]. change (act_of d (Ok (ks, cs))) with (on (Z.of_nat (fst d)) (snd d) (Ok (ks, cs) : mem)). rewrite E.
  destruct (IH ks1 cs1) as (ks' & cs' & E' & LK' & LC' & CE'); [congruence|congruence|exact V'|]. exists ks', cs'. fold (replay bs H (Ok (ks1, cs1) : mem)). split; [exact E'|]. split; [exact LK'|]. split; [exact LC'|].
  rewrite CE', CE. cbn [trace flat_map]. rewrite DD. reflexivity.
Qed.

(** the tasks of one update, executed by the pool in any order and interleaving *)
Lemma par_round debug W H1 s1 sched H2 s2 (N : Z) tasks ks cs Zt : solver_run debug W H1 s1 -> (forall id, id < length (added H1) -> In (EFin id) H1) ->
  Z.of_nat (length ks) = (N + 1)%Z -> length cs = length ks -> length Zt = length ks -> exact_cover N tasks -> (forall b, In b tasks -> 0 <= fst b)%Z ->
  p_mem s1 = Ok (ks, cs) -> p_exec debug sched s1 = Ok (H2 ++ [EWaited], s2) -> added H2 = map (block_acts ops n m Zt) tasks -> no_timeout H2 ->
  p_mem s2 = Ok (snd (expand_all ops n m ks Zt), fst (expand_all ops n m ks Zt)).
Proof.
  intros R FIN L1 L2 L3 [CV1 CV2] POS MEM E AD NT. destruct (round debug W H1 s1 sched H2 s2 R FIN E NT) as (R1 & R2 & R3 & R4). rewrite R4, MEM. set (b0 := length (added H1)) in *.
  assert (DESC : forall i b, nth_error tasks i = Some b -> block_acts ops n m Zt b = map act_of (bdesc Zt b)).
  { intros i b J. apply block_acts_desc. intros k I. apply nth_error_In in J. specialize (CV2 k b J I). lia. }
  set (D := fun id j => if Nat.ltb id b0 then None else match nth_error tasks (id - b0) with Some b => nth_error (bdesc Zt b) j | None => None end).
  assert (NEWB : forall i b, nth_error tasks i = Some b -> nth_error (added H2) i = Some (map act_of (bdesc Zt b))).
  { intros i b J. rewrite AD, nth_error_map, J. cbn. f_equal. eapply DESC; eauto. }
  assert (NEWL : forall i b, nth_error tasks i = Some b -> nth_error (added H1 ++ added H2) (b0 + i) = Some (map act_of (bdesc Zt b))).
  { intros i b J. rewrite nth_error_app2 by (unfold b0; lia). replace (b0 + i - length (added H1)) with i by (unfold b0; lia). apply NEWB. exact J. }
  assert (LT : length (added H2) = length tasks) by (rewrite AD; apply map_length).
  destruct (replay_trace (added H1 ++ added H2) D (length ks) H2 ks cs) as (ks' & cs' & RE & LK & LC & CE); [reflexivity|congruence| |].
  - intros id j J.
    assert (IN : In (EAct id j) (filter (about id) H2)) by (apply filter_In; split; [exact J|cbn; apply Nat.eqb_refl]).
    destruct (Nat.lt_ge_cases id b0) as [A|A]; [rewrite (R1 id A) in IN; destruct IN|].
    destruct (Nat.lt_ge_cases id (b0 + length (added H2))) as [B|B]; [|rewrite (R3 id B) in IN; destruct IN].
    destruct (nth_error tasks (id - b0)) as [b|] eqn:NB; [|apply nth_error_None in NB; lia].
    specialize (NEWL _ _ NB). specialize (R2 _ _ (NEWB _ _ NB)). replace (b0 + (id - b0)) with id in * by lia. rewrite R2 in IN.
    unfold life in IN. destruct IN as [X|[X|X]]; try discriminate. apply in_app_or in X. destruct X as [X|[X|[]]]; [|discriminate]. apply in_map_iff in X. destruct X as (j' & X & JS). injection X as ->. apply in_seq in JS. rewrite map_length in JS.
    destruct (nth_error (bdesc Zt b) j) as [d|] eqn:ND; [|apply nth_error_None in ND; lia]. exists (map act_of (bdesc Zt b)), d. split; [exact NEWL|]. split; [rewrite nth_error_map, ND; reflexivity|].
    split; [unfold D; replace (Nat.ltb id b0) with false by (symmetry; apply Nat.ltb_ge; lia); rewrite NB; exact ND|]. apply nth_error_In, block_desc_in in ND. destruct ND as (k & _ & -> & Q). lia.
  - etransitivity; [exact RE|]. f_equal. apply (desc_expand (trace D H2) ks cs); auto; try congruence. intros k z NZ.
    assert (KL : k < length Zt) by (apply nth_error_Some; congruence).
    destruct (unique_block (Z.of_nat k) tasks) as (i & b & NB & IB & U); [apply CV1; lia|].
    rewrite (trace_task D k (b0 + i) H2).
    + rewrite (R2 _ _ (NEWB _ _ NB)). etransitivity; [apply f_equal, (trace_life D (b0 + i) (map act_of (bdesc Zt b)) (bdesc Zt b)); [rewrite map_length; reflexivity|]|].
      2:{ apply block_desc_cell; auto. apply POS. eapply nth_error_In; eauto. }
      * intros j. unfold D. replace (Nat.ltb (b0 + i) b0) with false by (symmetry; apply Nat.ltb_ge; lia). replace (b0 + i - b0) with i by lia. rewrite NB. reflexivity.
    + intros id j d DD FD. unfold D in DD. destruct (Nat.ltb_spec id b0) as [A|A]; [discriminate|]. destruct (nth_error tasks (id - b0)) as [b'|] eqn:NB'; [|discriminate].
      apply nth_error_In, block_desc_in in DD. destruct DD as (x & X1 & X2 & _). assert (PX : (0 <= fst b')%Z) by (apply POS; eapply nth_error_In; eauto).
      assert (id - b0 = i); [|lia]. eapply U; [exact NB'|]. unfold inb. apply andb_true_iff. split; [apply Z.leb_le|apply Z.ltb_lt]; lia.
Qed.
End P.
