(** Invariant of the thread pool. *)
From Coq Require Import List ZArith Bool Lia Arith.
From Verif Require Import Base QueueSpec QueueModel QueueProofs QueueProofs2 QueueProofs3 QueueProofs4 PoolSpec PoolModel.
Import ListNotations.

Section P.
Context {M : Type}.
Implicit Types (s : pst M) (H : list (pev M)).

(** where a task is *)
Inductive place := LNone | LMain | LQueue | LHeld (w : nat) | LRun (w j : nat) | LFin.
Definition tset (T : nat -> place) (id : nat) (p : place) : nat -> place := fun k => if Nat.eqb k id then p else T k.
Definition past (id : nat) (b : body M) (p : place) : list (pev M) :=
  match p with
  | LNone => []
  | LMain | LQueue | LHeld _ => [EAdd id b]
  | LRun _ j => EAdd id b :: EStart id :: map (EAct id) (seq 0 j)
  | LFin => life id b
  end.
Definition st (s : pst M) (t : nat) : status nat := stat (at_ (q_pcs (p_q s)) t).
Definition wk (s : pst M) (w : nat) : wpc := nth w (p_w s) WOff.
Definition body_of (s : pst M) (id : nat) : body M := nth id (p_bodies s) [].

Record pinv (m0 : M) s q L H (T : nat -> place) : Prop := mkPI {
  v_q : inv (p_q s) q L;
  v_len : length (q_pcs (p_q s)) = S (length (p_w s));
  v_main : match p_main s with
           | MPush id => st s 0 = SIdle \/ st s 0 = SCalled (QPush id) \/ st s 0 = SDid RUnit
           | MNum => st s 0 = SIdle \/ st s 0 = SCalled QSize \/ exists z, st s 0 = SDid (RSize z)
           | _ => st s 0 = SIdle
           end;
  v_work : forall w, match wk s w with
                     | WPop => st s (S w) = SIdle \/ st s (S w) = SCalled QPop \/ exists r, st s (S w) = SDid (RPop r)
                     | _ => st s (S w) = SIdle
                     end;
  v_none : forall id, T id = LNone <-> length (p_bodies s) <= id;
  v_lmain : forall id, T id = LMain <-> p_main s = MPush id /\ st s 0 <> SDid RUnit;
  v_nodup : NoDup q;
  v_queue : forall id, T id = LQueue <-> In id q;
  v_held : forall id w, T id = LHeld w <-> st s (S w) = SDid (RPop (Some id));
  v_run : forall id w j, T id = LRun w j <-> wk s w = WRun id j;
  v_j : forall id w j, T id = LRun w j -> j <= length (body_of s id);
  v_fin : forall id, T id = LFin <-> In id (p_done s);
  v_hist : forall id, filter (about id) H = past id (body_of s id) (T id);
  v_added : added H = p_bodies s;
  v_mem : p_mem s = replay (p_bodies s) H m0;
  v_nthr : p_nthr s <= length (p_w s);
  v_off : forall w, wk s w <> WOff -> w < p_nthr s;
  v_on : forall w, w < p_nthr s -> match p_main s with MJoin i _ => (i <= w <-> wk s w <> WOff) | _ => wk s w <> WOff end;
  v_join : match p_main s with MJoin i _ => i <= p_nthr s /\ p_run s = false | MSpawn _ i => i = p_nthr s /\ p_run s = true | MGone => p_nthr s = 0 /\ p_run s = false | _ => True end;
  v_alive : p_run s = true -> forall w, wk s w <> WOver;
  v_futin : (forall id, In id (p_fut s) -> id < length (p_bodies s)) /\ match p_main s with MWait l => forall id, In id l -> id < length (p_bodies s) | _ => True end;
  v_wait : (forall id, id < length (p_bodies s) -> In id (p_fut s) \/ T id = LFin \/ In (ETimeout id) H) /\
           match p_main s with MWait l => forall id, In id (p_fut s) -> In id l \/ T id = LFin \/ In (ETimeout id) H | _ => True end;
  v_fifo : exists k, q = seq k (length q) /\ k + length q <= length (p_bodies s) /\ (forall id, T id = LMain -> id = k + length q) /\ (forall id, k + length q <= id -> T id = LMain \/ T id = LNone);
  v_nc : forall t, nc (at_ (q_pcs (p_q s)) t) = true }.

Lemma upd_nth {A} (d : A) i x l k : nth k (upd i (fun _ => x) l) d = if Nat.eqb k i then (if Nat.ltb i (length l) then x else d) else nth k l d.
Proof.
  destruct (Nat.ltb_spec i (length l)) as [Hi|Hi].
  - apply nth_upd; auto.
  - assert (E : upd i (fun _ => x) l = l) by (clear - Hi; revert i Hi; induction l as [|a l IH]; intros [|i] Hi; cbn in *; try lia; auto; f_equal; apply IH; lia).
    rewrite E. destruct (Nat.eqb_spec k i) as [->|]; auto. apply nth_overflow. exact Hi.
Qed.
Lemma inv_pi W m0 : pinv m0 (p_init W m0) [] [] [] (fun _ => LNone).
Proof.
  assert (ST : forall t, st (p_init W m0) t = SIdle) by (intros t; unfold st; cbn [p_init p_q q_init q_pcs]; rewrite at_repeat; reflexivity).
  assert (WK : forall w, wk (p_init W m0) w = WOff) by (clear ST; intros w; unfold wk; cbn [p_init p_w]; revert w; induction W as [|W' IH]; intros [|w]; cbn; auto).
  split; try (intros; rewrite ?ST, ?WK; auto; fail).
  - apply inv_init.
  - cbn. rewrite !repeat_length. reflexivity.
  - reflexivity.
  - intros id. cbn. split; [lia|reflexivity].
  - intros id. cbn. split; [discriminate|intros [X _]; discriminate].
  - constructor.
  - intros id. split; [discriminate|intros []].
  - intros id w. rewrite ST. split; discriminate.
  - intros id w j. rewrite WK. split; discriminate.
  - discriminate.
  - intros id. split; [discriminate|intros []].
  - cbn. lia.
  - intros w X. rewrite WK in X. congruence.
  - cbn. lia.
  - exact I.
  - intros X. discriminate.
  - cbn. split; [intros ? []|exact I].
  - cbn. split; [lia|exact I].
  - exists 0. repeat split; auto; discriminate.
  - intros t. cbn [p_init p_q q_init q_pcs]. rewrite at_repeat. reflexivity.
Qed.

(** histories *)
Lemma filter_app' {A} (f : A -> bool) l r : filter f (l ++ r) = filter f l ++ filter f r.
Proof. apply filter_app. Qed.
Lemma replay_app bs H e (m : M) : replay bs (H ++ e) m = replay bs e (replay bs H m).
Proof. unfold replay. apply fold_left_app. Qed.
Lemma added_app H e : added (H ++ e) = added H ++ added e.
Proof. unfold added. apply flat_map_app. Qed.
Definition dull (e : pev M) : Prop := match e with EAdd _ _ | EStart _ | EAct _ _ | EFin _ => False | _ => True end.
Lemma dull_facts e : Forall dull e -> (forall id, filter (about id) e = []) /\ added e = [] /\ forall bs (m : M), replay bs e m = m.
Proof.
  induction 1 as [|x e D F (A & B & C)]; [repeat split|]. repeat split.
  - intros id. cbn. rewrite A. destruct x; cbn in *; tauto.
  - cbn. fold (added e). rewrite B. destruct x; cbn in *; tauto.
  - intros bs m. unfold replay in *. cbn [fold_left]. rewrite C. destruct x; cbn in *; tauto.
Qed.
(** more actions of known tasks do not notice new tasks *)
Lemma replay_grow bs b H (m : M) : (forall id j, In (EAct id j) H -> id < length bs) -> replay (bs ++ [b]) H m = replay bs H m.
Proof.
  unfold replay. revert m. induction H as [|e H IH]; intros m A; [reflexivity|]. cbn [fold_left]. rewrite IH by (intros id j J; apply (A id j); right; exact J). f_equal.
  destruct e; auto. cbn. rewrite nth_error_app1 by (apply (A id j); left; reflexivity). reflexivity.
Qed.
Lemma more {A B : Prop} id H e : A \/ B \/ In (ETimeout id) H -> A \/ B \/ In (ETimeout id) (H ++ e).
Proof. rewrite in_app_iff. tauto. Qed.

(** steps that leave the queue and the tasks alone *)
Definition resting (p : mpc) : Prop := match p with MPush _ | MNum => False | _ => True end.
Lemma quiet m0 s q L H T s' e : pinv m0 s q L H T -> Forall dull e ->
  p_q s' = p_q s -> p_bodies s' = p_bodies s -> p_done s' = p_done s -> p_mem s' = p_mem s -> length (p_w s') = length (p_w s) ->
  resting (p_main s) -> (resting (p_main s') \/ p_main s' = MNum) ->
  (forall w, (forall id j, wk s' w = WRun id j <-> wk s w = WRun id j) /\ (wk s w = WPop -> st s (S w) = SIdle \/ wk s' w = WPop)) ->
  p_nthr s' <= length (p_w s') -> (forall w, wk s' w <> WOff -> w < p_nthr s') ->
  (forall w, w < p_nthr s' -> match p_main s' with MJoin i _ => (i <= w <-> wk s' w <> WOff) | _ => wk s' w <> WOff end) ->
  match p_main s' with MJoin i _ => i <= p_nthr s' /\ p_run s' = false | MSpawn _ i => i = p_nthr s' /\ p_run s' = true | MGone => p_nthr s' = 0 /\ p_run s' = false | _ => True end ->
  (p_run s' = true -> forall w, wk s' w <> WOver) ->
  ((forall id, In id (p_fut s') -> id < length (p_bodies s')) /\ match p_main s' with MWait l => forall id, In id l -> id < length (p_bodies s') | _ => True end) ->
  ((forall id, id < length (p_bodies s') -> In id (p_fut s') \/ T id = LFin \/ In (ETimeout id) (H ++ e)) /\
           match p_main s' with MWait l => forall id, In id (p_fut s') -> In id l \/ T id = LFin \/ In (ETimeout id) (H ++ e) | _ => True end) ->
  exists q' L' T', pinv m0 s' q' L' (H ++ e) T'.
Proof.
  intros I D EQ EB ED EM EW R R' WK N1 N2 N3 N4 N5 N6 N7. exists q, L, T. destruct (dull_facts e D) as (D1 & D2 & D3).
  assert (ST : forall t, st s' t = st s t) by (intros t; unfold st; rewrite EQ; reflexivity).
  assert (S0 : st s 0 = SIdle) by (pose proof (v_main _ _ _ _ _ _ I) as V; destruct (p_main s); cbn in R; tauto).
  assert (B : forall id, body_of s' id = body_of s id) by (intros; unfold body_of; rewrite EB; reflexivity).
  split; try assumption.
  - rewrite EQ. apply I.
  - rewrite EQ, EW. apply I.
  - rewrite ST, S0. destruct R' as [R'| ->]; [destruct (p_main s'); cbn in R'; tauto|auto].
  - intros w. rewrite ST. pose proof (v_work _ _ _ _ _ _ I w) as V. destruct (WK w) as [W1 W2]. 
    assert (X : st s (S w) = SIdle \/ wk s' w = WPop) by (destruct (wk s w); auto).
    destruct X as [X|X]; [rewrite X; destruct (wk s' w); auto|]. rewrite X. destruct (wk s w); auto.
  - intros id. rewrite EB. apply I.
  - intros id. rewrite ST, S0. rewrite (v_lmain _ _ _ _ _ _ I). split; intros [X _].
    + rewrite X in R. destruct R.
    + rewrite X in R'. destruct R' as [R'|R']; [destruct R'|discriminate].
  - apply I.
  - apply I.
  - intros id w. rewrite ST. apply I.
  - intros id w j. rewrite (proj1 (WK w)). apply I.
  - intros id w j. rewrite B. apply I.
  - intros id. rewrite ED. apply I.
  - intros id. rewrite filter_app', D1, app_nil_r, B. apply I.
  - rewrite added_app, D2, app_nil_r, EB. apply I.
  - rewrite replay_app, D3, EM, EB. apply I.
  - rewrite EB. apply I.
  - rewrite EQ. apply I.
Qed.
End P.
