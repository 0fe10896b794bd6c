(** Updates interrupted by exceptions. *)
From Coq Require Import List ZArith Bool Lia Arith.
From Verif Require Import Base Lin StatsModel TrajModel IlqrModel PoolSpec PoolModel PoolProofs TaskModel TaskSpec ParModel ParProofs ParProofs2 ParProofs3 ThrowModel.
Import ListNotations.

Section P.
Context {F : Scalar} {CS : Type} (ops : CostOps F CS) (n m : nat).
Notation KPF := (KPF F CS). Notation C := (KPF * F)%type. Notation mem := (@mem F CS).

(** one round of tasks given by descriptors, for a cell that belongs to one task *)
Lemma gen_round debug W H1 s1 sched H2 s2 (T : list (list (nat * (C -> C)))) (ks : list KPF) (cs : list F) : solver_run debug W H1 s1 -> (forall id, id < length (added H1) -> In (EFin id) H1) ->
  length cs = length ks -> (forall ds d, In ds T -> In d ds -> fst d < length ks) ->
  p_mem s1 = Ok (ks, cs) -> p_exec debug sched s1 = Ok (H2 ++ [EWaited], s2) -> added H2 = map (map act_of) T -> no_timeout H2 ->
  exists ks' cs', p_mem s2 = Ok (ks', cs') /\ length ks' = length ks /\ length cs' = length cs /\
  forall k i ds, nth_error T i = Some ds -> (forall i' ds' d, nth_error T i' = Some ds' -> In d ds' -> fst d = k -> i' = i) ->
    nth_error (combine ks' cs') k = option_map (fun c => fold_left (fun c f => f c) (map snd (filter (at_cell k) ds)) c) (nth_error (combine ks cs) k).
Proof.
  intros R FIN L2 IN0 MEM E AD NT. destruct (round debug W H1 s1 sched H2 s2 R FIN E NT) as (R1 & R2 & R3 & R4). rewrite R4, MEM. set (b0 := length (added H1)) in *.
  set (D := fun id j => if Nat.ltb id b0 then None else match nth_error T (id - b0) with Some b => nth_error b j | None => None end).
  assert (NEWB : forall i b, nth_error T i = Some b -> nth_error (added H2) i = Some (map act_of b)) by (intros i b J; rewrite AD, nth_error_map, J; reflexivity).
  assert (NEWL : forall i b, nth_error T i = Some b -> nth_error (added H1 ++ added H2) (b0 + i) = Some (map act_of b)).
  { intros i b J. rewrite nth_error_app2 by (unfold b0; lia). replace (b0 + i - length (added H1)) with i by (unfold b0; lia). apply NEWB. exact J. }
  assert (LT : length (added H2) = length T) by (rewrite AD; apply map_length).
  destruct (replay_trace (added H1 ++ added H2) D (length ks) H2 ks cs) as (ks' & cs' & RE & LK & LC & CE); [reflexivity|congruence| |].
  - intros id j J.
    assert (IN : In (EAct id j) (filter (about id) H2)) by (apply filter_In; split; [exact J|cbn; apply Nat.eqb_refl]).
    destruct (Nat.lt_ge_cases id b0) as [A|A]; [rewrite (R1 id A) in IN; destruct IN|].
    destruct (Nat.lt_ge_cases id (b0 + length (added H2))) as [B|B]; [|rewrite (R3 id B) in IN; destruct IN].
    destruct (nth_error T (id - b0)) as [b|] eqn:NB; [|apply nth_error_None in NB; lia].
    specialize (NEWL _ _ NB). specialize (R2 _ _ (NEWB _ _ NB)). replace (b0 + (id - b0)) with id in * by lia. rewrite R2 in IN.
    unfold life in IN. destruct IN as [X|[X|X]]; try discriminate. apply in_app_or in X. destruct X as [X|[X|[]]]; [|discriminate]. apply in_map_iff in X. destruct X as (j' & X & JS). injection X as ->. apply in_seq in JS. rewrite map_length in JS.
    destruct (nth_error b j) as [d|] eqn:ND; [|apply nth_error_None in ND; lia]. exists (map act_of b), d. split; [exact NEWL|]. split; [rewrite nth_error_map, ND; reflexivity|].
    split; [unfold D; replace (Nat.ltb id b0) with false by (symmetry; apply Nat.ltb_ge; lia); rewrite NB; exact ND|]. eapply IN0; [eapply nth_error_In; exact NB|eapply nth_error_In; exact ND].
  - exists ks', cs'. split; [exact RE|]. split; [congruence|]. split; [congruence|]. intros k i ds NB U. rewrite CE, cells_nth.
    assert (TT : filter (at_cell k) (trace D H2) = filter (at_cell k) ds).
    { etransitivity; [apply (trace_task D k (b0 + i) H2)|].
      - intros id j d DD FD. unfold D in DD. destruct (Nat.ltb_spec id b0) as [A|A]; [discriminate|]. destruct (nth_error T (id - b0)) as [b'|] eqn:NB'; [|discriminate].
        assert (id - b0 = i); [|lia]. eapply U; [exact NB'|eapply nth_error_In; exact DD|exact FD].
      - apply f_equal. etransitivity; [apply f_equal, (R2 _ _ (NEWB _ _ NB))|]. apply (trace_life D (b0 + i) (map act_of ds) ds); [rewrite map_length; reflexivity|].
        intros j. unfold D. replace (Nat.ltb (b0 + i) b0) with false by (symmetry; apply Nat.ltb_ge; lia). replace (b0 + i - b0) with i by lia. rewrite NB. reflexivity. }
    exact (f_equal (fun l => option_map (fun c => fold_left (fun c f => f c) (map snd l) c) (nth_error (combine ks cs) k)) TT).
Qed.

Context (thr : Z -> nat -> bool) (part : Z -> nat -> C -> C) (Zt : Traj F).
Notation kcut := (kp_cut thr part).
Definition kp_of (k : Z) : list (C -> C) * bool := match nth_error Zt (Z.to_nat k) with Some z => kcut k 0 (kp_actions ops n m z) | None => ([], false) end.
Definition kthrows (k : Z) : bool := snd (kp_of k).
Fixpoint cdesc (l : list Z) : list (nat * (C -> C)) :=
  match l with [] => [] | k :: r => map (pair (Z.to_nat k)) (fst (kp_of k)) ++ if kthrows k then [] else cdesc r end.
Lemma cut_desc l : (forall k, In k l -> 0 <= k < Z.of_nat (length Zt))%Z -> cut_acts ops n m thr part Zt l = (map act_of (cdesc l), existsb kthrows l).
Proof.
  induction l as [|k l IH]; intros V; [reflexivity|]. cbn [cut_acts cdesc existsb]. pose proof (V k (or_introl eq_refl)) as K. unfold kthrows, kp_of. destruct (nth_error Zt (Z.to_nat k)) as [z|] eqn:NZ; [|apply nth_error_None in NZ; lia].
  replace (k <? 0)%Z with false by (symmetry; apply Z.ltb_ge; lia). destruct (kcut k 0 (kp_actions ops n m z)) as [a t] eqn:KC. cbn [fst snd].
  assert (MA : map (on k) a = map act_of (map (pair (Z.to_nat k)) a)) by (rewrite map_map; apply map_ext; intros f; unfold act_of; cbn [fst snd]; rewrite Z2Nat.id by lia; reflexivity).
  destruct t; [rewrite app_nil_r, MA; reflexivity|]. rewrite IH by (intros; apply V; right; assumption). rewrite map_app, MA. reflexivity.
Qed.
Lemma cdesc_in l d : In d (cdesc l) -> exists k, In k l /\ fst d = Z.to_nat k.
Proof.
  induction l as [|k l IH]; [intros []|]. cbn [cdesc]. intros J. apply in_app_or in J. destruct J as [J|J].
  - apply in_map_iff in J. destruct J as (f & <- & _). exists k. split; [left; reflexivity|reflexivity].
  - destruct (kthrows k); [destruct J|]. destruct (IH J) as (k' & A & B). exists k'. split; [right; exact A|exact B].
Qed.
Lemma cdesc_app l1 l2 : cdesc (l1 ++ l2) = cdesc l1 ++ if existsb kthrows l1 then [] else cdesc l2.
Proof.
  induction l1 as [|k l IH]; [reflexivity|]. cbn [app cdesc existsb]. rewrite IH. destruct (kthrows k); [rewrite !app_nil_r; reflexivity|]. rewrite app_assoc. reflexivity.
Qed.
Lemma filter_none {A} (f : A -> bool) l : (forall x, In x l -> f x = false) -> filter f l = [].
Proof. induction l as [|x l IH]; intros E; [reflexivity|]. cbn. rewrite E by (left; reflexivity). apply IH. intros; apply E; right; assumption. Qed.
Lemma filter_all {A} (f : A -> bool) l : (forall x, In x l -> f x = true) -> filter f l = l.
Proof. induction l as [|x l IH]; intros E; [reflexivity|]. cbn. rewrite E by (left; reflexivity). f_equal. apply IH. intros; apply E; right; assumption. Qed.
Lemma zrange_split a b k : (a <= k < b)%Z -> zrange a b = zrange a k ++ k :: zrange (k + 1) b.
Proof.
  intros K. unfold zrange. replace (Z.to_nat (b - a)) with (Z.to_nat (k - a) + S (Z.to_nat (b - (k + 1)))) by lia. rewrite seq_app, map_app. f_equal. cbn [Nat.add seq map]. f_equal; [lia|].
  generalize (Z.to_nat (b - (k + 1))) as q. intros q. replace (S (Z.to_nat (k - a))) with (Z.to_nat (k + 1 - a) + 0) by lia. generalize 0 as o. induction q as [|q IH]; intros o; [reflexivity|]. cbn [seq map]. f_equal; [lia|]. replace (S (Z.to_nat (k + 1 - a) + o)) with (Z.to_nat (k + 1 - a) + S o) by lia. apply IH.
Qed.
Lemma cdesc_cell a b k : (0 <= a <= k)%Z -> (k < b)%Z ->
  filter (at_cell (Z.to_nat k)) (cdesc (zrange a b)) = if existsb kthrows (zrange a k) then [] else map (pair (Z.to_nat k)) (fst (kp_of k)).
Proof.
  intros A B. rewrite (zrange_split a b k) by lia. rewrite cdesc_app, filter_app, filter_none.
  2:{ intros d J. apply cdesc_in in J. destruct J as (i & I & IE). apply in_zrange in I. unfold at_cell. apply Nat.eqb_neq. lia. }
  cbn [app]. destruct (existsb kthrows (zrange a k)); [reflexivity|]. cbn [cdesc]. rewrite filter_app, filter_all.
  2:{ intros d J. apply in_map_iff in J. destruct J as (f & <- & _). unfold at_cell. cbn. apply Nat.eqb_refl. }
  destruct (kthrows k); [cbn; apply app_nil_r|]. rewrite filter_none; [apply app_nil_r|]. intros d J. apply cdesc_in in J. destruct J as (i & I & IE). apply in_zrange in I. unfold at_cell. apply Nat.eqb_neq. lia.
Qed.
Lemma fold_pair (k : nat) (l : list (C -> C)) c : fold_left (fun c f => f c) (map snd (map (pair k) l)) c = fold_left (fun c f => f c) l c.
Proof. rewrite map_map, map_id. reflexivity. Qed.
(** what is done at knot point k of a block that starts at a *)
Definition done_at (a k : Z) (c : C) : C := if existsb kthrows (zrange a k) then c else fold_left (fun c f => f c) (fst (kp_of k)) c.
(** the tasks of one update *)
Lemma throw_round debug W H1 s1 sched H2 s2 (N : Z) tasks ks cs : solver_run debug W H1 s1 -> (forall id, id < length (added H1) -> In (EFin id) H1) ->
  Z.of_nat (length ks) = (N + 1)%Z -> length cs = length ks -> length Zt = length ks -> exact_cover N tasks -> (forall b, In b tasks -> 0 <= fst b)%Z ->
  p_mem s1 = Ok (ks, cs) -> p_exec debug sched s1 = Ok (H2 ++ [EWaited], s2) -> added H2 = update_tasks_t ops n m thr part tasks Zt -> no_timeout H2 ->
  exists ks' cs', p_mem s2 = Ok (ks', cs') /\ length ks' = length ks /\ length cs' = length cs /\
  forall k b, In b tasks -> inb k b = true -> nth_error (combine ks' cs') (Z.to_nat k) = option_map (done_at (fst b) k) (nth_error (combine ks cs) (Z.to_nat k)).
Proof.
  intros R FIN L1 L2 L3 [CV1 CV2] POS MEM E AD NT. set (T := map (fun b => cdesc (zrange (fst b) (snd b))) tasks).
  assert (VR : forall b k, In b tasks -> In k (zrange (fst b) (snd b)) -> (0 <= k < Z.of_nat (length Zt))%Z).
  { intros b k J K. apply in_zrange in K. assert (0 <= k <= N)%Z; [|lia]. apply (CV2 k b J). unfold inb. apply andb_true_iff. split; [apply Z.leb_le|apply Z.ltb_lt]; lia. }
  destruct (gen_round debug W H1 s1 sched H2 s2 T ks cs R FIN L2) as (ks' & cs' & ME & LK & LC & CC); auto.
  - intros ds d J1 J2. unfold T in J1. apply in_map_iff in J1. destruct J1 as (b & <- & J1). apply cdesc_in in J2. destruct J2 as (k & K & ->). specialize (VR b k J1 K). lia.
  - rewrite AD. unfold update_tasks_t, T. rewrite map_map. apply map_ext_in. intros b J. unfold cut_block. rewrite cut_desc; [reflexivity|]. intros k K. eapply VR; eauto.
  - exists ks', cs'. split; [exact ME|]. split; [exact LK|]. split; [exact LC|]. intros k b J I.
    pose proof (CV2 k b J I) as KN. destruct (unique_block k tasks (CV1 k KN)) as (i & b' & NB & IB & U).
    assert (b' = b). { apply In_nth_error in J. destruct J as (i' & J). pose proof (U i' b J I). subst i'. congruence. } subst b'.
    rewrite (CC (Z.to_nat k) i (cdesc (zrange (fst b) (snd b)))).
    + apply andb_true_iff in I. destruct I as [I1 I2]. apply Z.leb_le in I1. apply Z.ltb_lt in I2. rewrite cdesc_cell by (try lia; specialize (POS b J); lia). unfold done_at.
      destruct (nth_error (combine ks cs) (Z.to_nat k)) as [c|]; [|reflexivity]. cbn [option_map]. f_equal. destruct (existsb kthrows (zrange (fst b) k)); [reflexivity|]. apply fold_pair.
    + unfold T. rewrite nth_error_map, NB. reflexivity.
    + intros i' ds' d N' J' FD. unfold T in N'. rewrite nth_error_map in N'. destruct (nth_error tasks i') as [b'|] eqn:NB'; [|discriminate]. injection N' as <-. apply cdesc_in in J'. destruct J' as (x & X & XE). apply in_zrange in X.
      eapply U; [exact NB'|]. pose proof (POS b' (nth_error_In _ _ NB')). assert (x = k) by lia. subst x. unfold inb. apply andb_true_iff. split; [apply Z.leb_le|apply Z.ltb_lt]; lia.
Qed.
Lemma throw_serial (N : Z) ks cs : Z.of_nat (length ks) = (N + 1)%Z -> length cs = length ks -> length Zt = length ks ->
  exists ks' cs', update_serial_t ops n m thr part N Zt (Ok (ks, cs)) = (Ok (ks', cs'), existsb kthrows (zrange 0 (N + 1))) /\ length ks' = length ks /\ length cs' = length cs /\
  forall k, (0 <= k <= N)%Z -> nth_error (combine ks' cs') (Z.to_nat k) = option_map (done_at 0 k) (nth_error (combine ks cs) (Z.to_nat k)).
Proof.
  intros L1 L2 L3. unfold update_serial_t, cut_block. cbn [fst snd]. rewrite cut_desc by (intros k K; apply in_zrange in K; lia).
  destruct (run_desc (cdesc (zrange 0 (N + 1))) ks cs) as (ks' & cs' & E & LK & LC & CE); [congruence|intros d J; apply cdesc_in in J; destruct J as (k & K & ->); apply in_zrange in K; lia|].
  exists ks', cs'. split; [unfold run_body; rewrite E; reflexivity|]. split; [exact LK|]. split; [exact LC|]. intros k K. rewrite CE, cells_nth. rewrite cdesc_cell by lia. unfold done_at.
  destruct (nth_error (combine ks cs) (Z.to_nat k)) as [c|]; [|reflexivity]. cbn [option_map]. f_equal. destruct (existsb kthrows (zrange 0 k)); [reflexivity|]. apply fold_pair.
Qed.
End P.
