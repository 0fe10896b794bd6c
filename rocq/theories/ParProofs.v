(** Rounds of a pool: memory after a Wait. *)
From Coq Require Import List ZArith Bool Lia Arith.
From Verif Require Import Base QueueSpec QueueModel PoolSpec PoolModel PoolProofs PoolProofs2 PoolProofs3 PoolProofs4 PoolProofs5 PoolProofs8 P_Pool ParModel.
Import ListNotations.

Section P.
Context {M : Type}.
Implicit Types (s : pst M) (H : list (pev M)) (x : move M).

(** the memory decides nothing, and only EAct events change it *)
Lemma step_mem debug x s s' e : p_step debug x s = PStep s' e -> p_bodies s' = p_bodies s ++ added e /\ (forall r, p_mem s' = replay (p_bodies s' ++ r) e (p_mem s)).
Proof.
  intros E. destruct x as [o tmo|w]; cbn [p_step] in E.
  - unfold main_step in E. destruct (p_main s) as [|id| |[|f l]|k i|i d|] eqn:EM.
    + destruct o as [b| |k| | |]; try (injection E as <- <-; cbn; rewrite ?app_nil_r; split; reflexivity).
      * destruct (p_run s); [destruct debug; [discriminate|]|destruct (p_nthr s); [|discriminate]]; injection E as <- <-; cbn; rewrite ?app_nil_r; split; reflexivity.
      * destruct (p_run s); [|destruct (p_nthr s); [|discriminate]]; injection E as <- <-; cbn; rewrite ?app_nil_r; split; reflexivity.
    + destruct (q_step 0 (QPush id) (p_q s)) as [| |q [[]|]]; try discriminate; injection E as <- <-; cbn; rewrite ?app_nil_r; split; reflexivity.
    + destruct (q_step 0 QSize (p_q s)) as [| |q [[? ?|? []]|]]; try discriminate; injection E as <- <-; cbn; rewrite ?app_nil_r; split; reflexivity.
    + injection E as <- <-; cbn; rewrite ?app_nil_r; split; reflexivity.
    + destruct (isdone s f); [|destruct tmo; [|discriminate]]; injection E as <- <-; cbn; rewrite ?app_nil_r; split; reflexivity.
    + destruct (Nat.ltb i k); [destruct (Nat.ltb i (length (p_w s)))|]; injection E as <- <-; cbn; rewrite ?app_nil_r; split; reflexivity.
    + destruct (Nat.ltb i (p_nthr s)); [destruct (nth_error (p_w s) i) as [[]|]; try discriminate|destruct d]; injection E as <- <-; cbn; rewrite ?app_nil_r; split; reflexivity.
    + discriminate.
  - unfold work_step in E. destruct (nth_error (p_w s) w) as [[| | |id j|]|] eqn:EW; try discriminate.
    + injection E as <- <-; cbn; rewrite ?app_nil_r; split; reflexivity.
    + destruct (q_step (S w) QPop (p_q s)) as [| |q [[? ?|? [|[|]| |]]|]]; try discriminate; injection E as <- <-; cbn; rewrite ?app_nil_r; split; reflexivity.
    + destruct (nth_error (p_bodies s) id) as [b|] eqn:EB; [|discriminate]. destruct (nth_error b j) as [a|] eqn:EA; injection E as <- <-; cbn [p_bodies set_mem set_w add_done p_mem added flat_map replay fold_left act]; rewrite ?app_nil_r; (split; [reflexivity|]); intros r; [|reflexivity].
      rewrite nth_error_app1 by (apply nth_error_Some; congruence). rewrite EB, EA. reflexivity.
Qed.
Lemma exec_mem debug sched : forall s H s', p_exec debug sched s = Ok (H, s') -> p_bodies s' = p_bodies s ++ added H /\ forall r, p_mem s' = replay (p_bodies s' ++ r) H (p_mem s).
Proof.
  induction sched as [|x r IH]; intros s H s' E; cbn [p_exec] in E.
  - injection E as <- <-. cbn. rewrite app_nil_r. split; reflexivity.
  - destruct (p_step debug x s) as [| | |s1 e] eqn:S; try discriminate; [auto|]. destruct (p_exec debug r s1) as [[H1 s2]| | | | |] eqn:R; try discriminate. injection E as <- <-.
    destruct (step_mem _ _ _ _ _ S) as [B1 M1]. destruct (IH _ _ _ R) as [B2 M2]. rewrite added_app, app_assoc, <- B1. split; [exact B2|]. intros r0. rewrite replay_app. rewrite (M2 r0). f_equal. rewrite B2, <- app_assoc. apply M1.
Qed.
Lemma step_poke debug x s m : match p_step debug x s with PStep s' e => exists m', p_step debug x (set_mem s m) = PStep (set_mem s' m') e | r => p_step debug x (set_mem s m) = r end.
Proof.
  destruct x as [o tmo|w]; cbn [p_step].
  - unfold main_step. cbn [set_mem p_main p_q p_run p_nthr p_fut p_bodies p_done p_w]. change (isdone (set_mem s m)) with (isdone s).
    destruct (p_main s) as [|id| |[|f l]|k i|i d|] eqn:EM.
    + destruct o as [b| |k| | |]; try (exists m; reflexivity).
      * destruct (p_run s); [destruct debug|destruct (p_nthr s)]; try reflexivity; exists m; reflexivity.
      * destruct (p_run s); [|destruct (p_nthr s)]; try reflexivity; exists m; reflexivity.
    + destruct (q_step 0 (QPush id) (p_q s)) as [| |q [[]|]]; try reflexivity; exists m; reflexivity.
    + destruct (q_step 0 QSize (p_q s)) as [| |q [[? ?|? []]|]]; try reflexivity; exists m; reflexivity.
    + exists m; reflexivity.
    + destruct (isdone s f); [|destruct tmo]; try reflexivity; exists m; reflexivity.
    + destruct (Nat.ltb i k); [destruct (Nat.ltb i (length (p_w s)))|]; exists m; reflexivity.
    + destruct (Nat.ltb i (p_nthr s)); [destruct (nth_error (p_w s) i) as [[]|]|destruct d]; try reflexivity; exists m; reflexivity.
    + reflexivity.
  - unfold work_step. cbn [set_mem p_main p_q p_run p_nthr p_fut p_bodies p_done p_w p_mem]. destruct (nth_error (p_w s) w) as [[| | |id j|]|] eqn:EW; try reflexivity.
    + exists m; reflexivity.
    + destruct (q_step (S w) QPop (p_q s)) as [| |q [[? ?|? [|[|]| |]]|]]; try reflexivity; exists m; reflexivity.
    + destruct (nth_error (p_bodies s) id) as [b|] eqn:EB; [|reflexivity]. destruct (nth_error b j) as [a|] eqn:EA; [exists (a m)|exists m]; reflexivity.
Qed.
Lemma exec_poke debug sched : forall s H s' m, p_exec debug sched s = Ok (H, s') -> exists m', p_exec debug sched (set_mem s m) = Ok (H, set_mem s' m').
Proof.
  induction sched as [|x r IH]; intros s H s' m E; cbn [p_exec] in *.
  - injection E as <- <-. exists m. reflexivity.
  - pose proof (step_poke debug x s m) as P. destruct (p_step debug x s) as [| | |s1 e] eqn:S; try discriminate.
    + rewrite P. auto.
    + destruct P as [m' ->]. destruct (p_exec debug r s1) as [[H1 s2]| | | | |] eqn:R; try discriminate. injection E as <- <-.
      destruct (IH _ _ _ m' R) as [m2 ->]. exists m2. reflexivity.
Qed.
(** hence a run with changes of the memory in between is, memory apart, a run without *)
Lemma run_plain debug W H s : solver_run debug W H s -> forall m, exists sched m', p_exec debug sched (p_init W m) = Ok (H, set_mem s m').
Proof.
  induction 1 as [m0|H s sched H' s' _ IH E|H s m1 _ IH C]; intros m.
  - exists [], m. reflexivity.
  - destruct (IH m) as (r1 & m1 & E1). destruct (exec_poke debug sched s H' s' m1 E) as [m2 E2]. exists (r1 ++ sched), m2. rewrite (exec_app debug r1 sched _ _ _ E1), E2. reflexivity.
  - destruct (IH m) as (r1 & m2 & E1). exists r1, m2. exact E1.
Qed.
(** Wait gives up only on tasks that have been added *)
Lemma timeout_added debug W m sched H s id : p_exec debug sched (p_init W m) = Ok (H, s) -> In (ETimeout id) H -> id < length (added H).
Proof.
  intros E J. apply in_split in J. destruct J as (H1 & H2 & ->).
  destruct (exec_split debug sched _ _ _ _ _ _ E eq_refl) as (r1 & x & r2 & H0 & s1 & s2 & e1 & e2 & H3 & -> & X1 & X2 & -> & X3 & _).
  pose proof (ok_exec m debug r1 _ _ (ok_init m W)) as G. rewrite X1 in G. destruct G as [(q & L & T & I) _]. cbn [app] in I.
  rewrite !added_app, !app_length. enough (id < length (added H0)) by lia. rewrite (v_added _ _ _ _ _ _ I).
  pose proof (proj2 (v_futin _ _ _ _ _ _ I)) as V. clear - V X2.
  destruct x as [o tmo|w]; cbn [p_step] in X2.
  - unfold main_step in X2. destruct (p_main s1) as [|i| |[|f l]|k i|i d|] eqn:EM.
    + destruct o as [b| |k| | |]; try (injection X2 as _ X; destruct e1 as [|? [|? ?]]; discriminate).
      * destruct (p_run s1); [destruct debug; [discriminate|]|destruct (p_nthr s1); [|discriminate]]; injection X2 as _ X; destruct e1 as [|? [|? [|? ?]]]; discriminate.
      * destruct (p_run s1); [|destruct (p_nthr s1); [|discriminate]]; injection X2 as _ X; destruct e1 as [|? [|? [|? ?]]]; discriminate.
    + destruct (q_step 0 (QPush i) (p_q s1)) as [| |q [[]|]]; try discriminate; injection X2 as _ X; destruct e1 as [|? [|? ?]]; discriminate.
    + destruct (q_step 0 QSize (p_q s1)) as [| |q [[? ?|? []]|]]; try discriminate; injection X2 as _ X; destruct e1 as [|? [|? ?]]; discriminate.
    + injection X2 as _ X; destruct e1 as [|? [|? ?]]; discriminate.
    + destruct (isdone s1 f); [|destruct tmo; [|discriminate]]; injection X2 as _ X; destruct e1 as [|? [|? ?]]; try discriminate. injection X as X _. subst f. apply V. left. reflexivity.
    + destruct (Nat.ltb i k); [destruct (Nat.ltb i (length (p_w s1)))|]; injection X2 as _ X; destruct e1 as [|? [|? ?]]; discriminate.
    + destruct (Nat.ltb i (p_nthr s1)); [destruct (nth_error (p_w s1) i) as [[]|]; try discriminate|destruct d]; injection X2 as _ X; destruct e1 as [|? [|? ?]]; discriminate.
    + discriminate.
  - unfold work_step in X2. destruct (nth_error (p_w s1) w) as [[| | |i j|]|] eqn:EW; try discriminate.
    + injection X2 as _ X; destruct e1 as [|? [|? ?]]; discriminate.
    + destruct (q_step (S w) QPop (p_q s1)) as [| |q [[? ?|? [|[|]| |]]|]]; try discriminate; injection X2 as _ X; destruct e1 as [|? [|? ?]]; discriminate.
    + destruct (nth_error (p_bodies s1) i) as [b|] eqn:EB; [|discriminate]. destruct (nth_error b j) as [a|] eqn:EA; injection X2 as _ X; destruct e1 as [|? [|? ?]]; discriminate.
Qed.
Lemma life_end id b l1 l2 : prefix (l1 ++ l2) (life id b) -> In (EFin (M:=M) id) l1 -> l2 = [].
Proof.
  intros [r E] J. destruct l2 as [|y l2]; [reflexivity|exfalso]. apply in_split in J. destruct J as (a & c & ->).
  unfold life in E. rewrite app_comm_cons, app_comm_cons in E. rewrite <- !app_assoc in E. cbn [app] in E.
  assert (LASTV : forall (l0 r0 bb : list (pev M)) z, l0 ++ z :: r0 = bb ++ [z] -> r0 <> [] -> In z bb).
  { clear. intros l0. induction l0 as [|z l0 IH]; intros r0 body a E N.
    - destruct body as [|b body]; cbn in E; inversion E; subst; [congruence|left; reflexivity].
    - destruct body as [|b body]; cbn in E; inversion E; subst; [destruct l0; discriminate|right; eapply IH; eauto]. }
  assert (INB : In (EFin id) (EAdd id b :: EStart id :: map (EAct id) (seq 0 (length b)))) by (eapply LASTV; [symmetry; exact E|destruct c; discriminate]).
  destruct INB as [X|[X|X]]; try discriminate. apply in_map_iff in X. destruct X as (? & X & _). discriminate.
Qed.
(** one round: whatever happened before, if all earlier tasks have finished, then the tasks added up to the next return of a Wait that gave up
    on none of them are executed completely in between, and nothing else is *)
Lemma round debug W H1 s1 sched H2 s2 : solver_run debug W H1 s1 -> (forall id, id < length (added H1) -> In (EFin id) H1) ->
  p_exec debug sched s1 = Ok (H2 ++ [EWaited], s2) -> no_timeout H2 ->
  (forall id, id < length (added H1) -> filter (about id) H2 = []) /\
  (forall i b, nth_error (added H2) i = Some b -> filter (about (length (added H1) + i)) H2 = life (length (added H1) + i) b) /\
  (forall id, length (added H1) + length (added H2) <= id -> filter (about id) H2 = []) /\
  p_mem s2 = replay (added H1 ++ added H2) H2 (p_mem s1).
Proof.
  intros R F E NT. destruct (run_plain _ _ _ _ R (p_mem s1)) as (r1 & m1 & E1). destruct (exec_poke debug sched s1 _ s2 m1 E) as [m2 E2].
  assert (EE : p_exec debug (r1 ++ sched) (p_init W (p_mem s1)) = Ok (H1 ++ H2 ++ [EWaited], set_mem s2 m2)) by (rewrite (exec_app debug r1 sched _ _ _ E1), E2; reflexivity).
  destruct (C41_once _ _ _ _ _ _ E1) as (O1 & O2 & _). destruct (C41_once _ _ _ _ _ _ EE) as (P1 & P2 & _).
  assert (AD : added (H1 ++ H2 ++ [EWaited]) = added H1 ++ added H2) by (rewrite !added_app; cbn; rewrite app_nil_r; reflexivity).
  rewrite AD in P1, P2. split; [|split; [|split]].
  - intros id J. assert (J' : id < length (added H1 ++ added H2)) by (rewrite app_length; lia). specialize (P1 id J'). rewrite !filter_app in P1. cbn in P1. rewrite app_nil_r in P1.
    eapply life_end; [exact P1|]. apply filter_In. split; [apply F; exact J|]. cbn. apply Nat.eqb_refl.
  - intros i b N. rewrite app_assoc in EE. pose proof (proj1 (nth_error_Some (added H2) i) ltac:(congruence)) as LI. destruct (C41_wait W (p_mem s1) debug (r1 ++ sched) (H1 ++ H2) [] (set_mem s2 m2) (length (added H1) + i) EE) as [_ LF].
    + rewrite added_app, app_length. lia.
    + intros J. apply in_app_or in J. destruct J as [J|J]; [|exact (NT _ J)]. apply (timeout_added _ _ _ _ _ _ _ E1) in J. lia.
    + rewrite filter_app, (O2 (length (added H1) + i)) in LF by lia. cbn [app] in LF. rewrite LF. f_equal. rewrite added_app, app_nth2 by lia. replace (length (added H1) + i - length (added H1)) with i by lia. apply nth_error_nth. exact N.
  - intros id J. specialize (P2 id). rewrite app_length in P2. specialize (P2 J). rewrite !filter_app in P2. apply app_eq_nil in P2. destruct P2 as [_ P2]. apply app_eq_nil in P2. apply P2.
  - destruct (exec_mem _ _ _ _ _ E) as [B MM]. specialize (MM []). rewrite app_nil_r in MM. rewrite MM, B. destruct (exec_mem _ _ _ _ _ E1) as [B1 _]. cbn in B1. rewrite B1, added_app. cbn. rewrite app_nil_r. rewrite replay_app. reflexivity.
Qed.
End P.
