(** Every pool that is moved around is a pool. *)
From Coq Require Import List ZArith Bool Lia Arith.
From Verif Require Import Base QueueSpec QueueModel QueueProofs QueueProofs2 QueueProofs3 QueueProofs4 PoolSpec PoolModel PoolProofs PoolProofs2 PoolProofs3 PoolProofs4 PoolProofs5 PoolProofs6 PoolMoveModel.
Import ListNotations.

Section P.
Context {M : Type} (W : nat).
Lemma exec_snoc debug x : forall sched s (H : list (pev M)) s1 s2 e, p_exec debug sched s = Ok (H, s1) -> p_step debug x s1 = PStep s2 e -> p_exec debug (sched ++ [x]) s = Ok (H ++ e, s2).
Proof.
  induction sched as [|y r IH]; intros s H s1 s2 e E S; cbn [p_exec List.app] in *.
  - injection E as <- <-. rewrite S. cbn [bind]. rewrite app_nil_r. reflexivity.
  - destruct (p_step debug y s) as [| | |s' e'] eqn:Y; try discriminate; [eapply IH; eauto|].
    destruct (p_exec debug r s') as [[H' s'']| | | | |] eqn:R; cbn [bind] in E; try discriminate. injection E as <- ->. rewrite (IH _ _ _ _ _ R S). cbn [bind]. rewrite app_assoc. reflexivity.
Qed.
(** a live object is in a state that its history gives *)
Definition real debug (o : option (pobj M)) : Prop :=
  forall H s, o = Some (mkPobj H (Live s)) -> exists sched m, p_exec debug sched (p_init W m) = Ok (H, s).
Lemma upd_Forall {A} (P : A -> Prop) (x : A) : forall l i, Forall P l -> P x -> Forall P (upd i (fun _ => x) l).
Proof. induction l as [|a l IH]; intros [|i] F X; cbn [upd]; inversion F; subst; constructor; auto. Qed.
Lemma step_real debug o w w' : w_step W debug o w = Ok w' -> Forall (real debug) w -> Forall (real debug) w'.
Proof.
  intros E F. destruct o as [m|i|d i|i x]; cbn [w_step] in E.
  - destruct (all_quiet w); injection E as <-; auto. apply Forall_app. split; [exact F|]. constructor; [|constructor].
    intros H s X. injection X as <- <-. exists [], m. reflexivity.
  - destruct (all_quiet w); [|injection E as <-; exact F]. destruct (nth_error w i) as [[b|]|] eqn:N; try (injection E as <-; exact F).
    destruct b as [Hb c]; cbn [ob_cell ob_hist] in E. destruct c as [s|run].
    + destruct (move_from debug s); cbn [bind] in E; try discriminate. injection E as <-. apply Forall_app. split.
      * apply upd_Forall; [exact F|]. intros H s' X. discriminate.
      * constructor; [|constructor]. exact (proj1 (Forall_forall _ _) F _ (nth_error_In _ _ N)).
    + destruct (debug && run); [discriminate|]. injection E as <-. apply Forall_app. split; [exact F|]. constructor; [|constructor]. intros H s X. discriminate.
  - destruct (all_quiet w); [|injection E as <-; exact F]. destruct (nth_error w d) as [[b|]|]; try (injection E as <-; exact F). destruct (nth_error w i) as [[c|]|]; try (injection E as <-; exact F).
    destruct (assign_to debug (ob_cell c) (ob_cell b)); cbn [bind] in E; try discriminate. injection E as <-. exact F.
  - destruct (nth_error w i) as [[b|]|] eqn:N; try (injection E as <-; exact F). destruct (match x with Main _ _ => others_quiet i w | Work _ => true end); [|injection E as <-; exact F].
    destruct b as [Hb c]; cbn [ob_cell ob_hist] in E. destruct c as [s|run].
    + destruct (p_step debug x s) as [| | |s' e] eqn:S; try discriminate; injection E as <-; [exact F|]. apply upd_Forall; [exact F|].
      intros H s1 X. injection X as <- <-. destruct (proj1 (Forall_forall _ _) F _ (nth_error_In _ _ N) Hb s eq_refl) as (sched & m & R). exists (sched ++ [x]), m. eapply exec_snoc; eauto.
    + destruct x as [o tmo|k]; [|injection E as <-; exact F]. destruct (left_call debug o run) as [c| | | | |] eqn:L; cbn [bind] in E; try discriminate. injection E as <-. apply upd_Forall; [exact F|].
      intros H s X. destruct c as [c|]; [|discriminate]. injection X as <- ->. destruct o, run; cbn in L; try destruct debug; try discriminate; destruct (0 <? nthreads)%Z; discriminate.
Qed.
Lemma exec_real debug : forall ops w w', w_exec W debug ops w = Ok w' -> Forall (real debug) w -> Forall (real debug) w'.
Proof.
  induction ops as [|o r IH]; intros w w' E F; cbn [w_exec] in E; [injection E as <-; exact F|].
  destruct (w_step W debug o w) as [w1| | | | |] eqn:S; cbn [bind] in E; try discriminate. eapply IH; [exact E|]. eapply step_real; eauto.
Qed.
(** what the assignment does with the queue held so far never comes to an end *)
Lemma assign_blocks debug sched m H (s : pst M) more H' q' : p_exec debug sched (p_init W m) = Ok (H, s) -> p_main s = MIdle ->
  q_exec ((0, QAssign) :: more) (p_q s) = Ok (H', q') -> forall r, ~ In (ERet 0 r) H'.
Proof.
  intros E I X r J. pose proof (ok_exec m debug sched _ _ (ok_init m W)) as G. rewrite E in G. destruct G as [(q & L & T & V) _].
  assert (ID : at_ (q_pcs (p_q s)) 0 = Idle) by (pose proof (v_main _ _ _ _ _ _ V) as Q; rewrite I in Q; apply stat_idle; exact Q).
  assert (N0 : nth_error (q_pcs (p_q s)) 0 = Some Idle).
  { destruct (nth_error (q_pcs (p_q s)) 0) as [p|] eqn:N; [|apply nth_error_None in N; rewrite (v_len _ _ _ _ _ _ V) in N; lia]. unfold at_ in ID. rewrite (nth_error_nth _ _ _ N) in ID. congruence. }
  cbn [q_exec] in X. pose proof (q_step_ok (p_q s) q L 0 QAssign (v_q _ _ _ _ _ _ V)) as G. unfold q_step in X, G. rewrite N0 in X, G.
  destruct G as (q1 & L1 & I1 & _). destruct (q_exec more _) as [[H1 s1]| | | | |] eqn:X1 in X; cbn [bind] in X; try discriminate. injection X as <- <-. destruct J as [J|J]; [discriminate|].
  assert (C : incl_ (at_ (q_pcs (goto (p_q s) 0 (ClLock true))) 0) = true).
  { cbn [goto q_pcs]. unfold at_. destruct (q_pcs (p_q s)); [discriminate|reflexivity]. }
  destruct (clear_exec more _ q1 L1 0 H1 s1 I1 C X1) as [_ K]. exact (K _ J eq_refl).
Qed.
(** a destroyed pool has been destroyed *)
Lemma gone_step debug x (s s' : pst M) e : p_step debug x s = PStep s' e -> p_main s' = MGone -> p_main s = MGone \/ In EGone e.
Proof.
  intros E G. destruct x as [o tmo|w]; cbn [p_step] in E.
  - unfold main_step in E. destruct (p_main s) as [|id| |l|k i|i d|] eqn:EM; try (left; reflexivity).
    + destruct o as [b| |k| | |]; cbn in E.
      * injection E as <- <-. discriminate.
      * injection E as <- <-. discriminate.
      * destruct (p_run s); [destruct debug; [discriminate|injection E as <- <-; congruence]|]. destruct (p_nthr s); [injection E as <- <-|]; discriminate.
      * injection E as <- <-. discriminate.
      * injection E as <- <-. discriminate.
      * destruct (p_run s); [injection E as <- <-; discriminate|]. destruct (p_nthr s); [injection E as <- <-|discriminate]. right. right. left. reflexivity.
    + destruct (q_step 0 (QPush id) (p_q s)) as [| |q [[? ?|? ?]|]]; try discriminate; injection E as <- <-; cbn in G; congruence.
    + destruct (q_step 0 QSize (p_q s)) as [| |q [[? ?|? [ | |z|?]]|]]; try discriminate; injection E as <- <-; cbn in G; congruence.
    + destruct l as [|f l]; [injection E as <- <-; discriminate|]. destruct (isdone s f); [injection E as <- <-; discriminate|]. destruct tmo; [injection E as <- <-|]; discriminate.
    + destruct (Nat.ltb i k); [destruct (Nat.ltb i (length (p_w s)))|]; injection E as <- <-; discriminate.
    + destruct (Nat.ltb i (p_nthr s)); [destruct (nth_error (p_w s) i) as [[]|]; try discriminate; injection E as <- <-; discriminate|]. destruct d; injection E as <- <-; [right; left; reflexivity|discriminate].
  - left. assert (K : p_main s' = p_main s); [|congruence]. unfold work_step in E. destruct (nth_error (p_w s) w) as [[| | |id j|]|]; try discriminate.
    + injection E as <- <-. reflexivity.
    + destruct (q_step (S w) QPop (p_q s)) as [| |q [[? ?|? [|[?|]| |]]|]]; try discriminate; injection E as <- <-; reflexivity.
    + destruct (nth_error (p_bodies s) id) as [b|]; [|discriminate]. destruct (nth_error b j); injection E as <- <-; reflexivity.
Qed.
Lemma gone_exec debug : forall sched (s : pst M) H s', p_exec debug sched s = Ok (H, s') -> p_main s' = MGone -> p_main s = MGone \/ In EGone H.
Proof.
  induction sched as [|x r IH]; intros s H s' E G; cbn [p_exec] in E; [injection E as <- <-; left; exact G|].
  destruct (p_step debug x s) as [| | |s1 e] eqn:S; try discriminate; [eapply IH; eauto|].
  destruct (p_exec debug r s1) as [[H1 s2]| | | | |] eqn:X; cbn [bind] in E; try discriminate. injection E as <- <-.
  destruct (IH _ _ _ X G) as [G1|I]; [|right; apply in_or_app; right; exact I]. destruct (gone_step _ _ _ _ _ S G1) as [G0|I]; [left; exact G0|right; apply in_or_app; left; exact I].
Qed.
(** the phase of a pool that is not in use *)
Lemma idle_phase debug sched m H (s : pst M) : p_exec debug sched (p_init W m) = Ok (H, s) -> calling H = None -> ~ In EGone H ->
  p_main s = MIdle /\ match phase_of H with
                      | Down => p_run s = false /\ no_worker s = true /\ working s = false
                      | Up k => p_run s = true /\ (k <> 0 -> no_worker s = false) /\ (k = 0 -> no_worker s = true)
                      | Broken => p_run s = false
                      end.
Proof.
  intros E C NG. pose proof (ok_exec m debug sched _ _ (ok_init m W)) as G. rewrite E in G. destruct G as [(q & L & T & I) [C' P]]. cbn [List.app] in *.
  assert (MI : p_main s = MIdle).
  { rewrite C in C'. destruct (p_main s) as [|id| |l|k i|i [|]|] eqn:EM; try discriminate; [reflexivity|]. exfalso. destruct (gone_exec _ _ _ _ _ E EM) as [X|X]; [discriminate|exact (NG X)]. }
  split; [exact MI|]. rewrite MI in P.
  assert (Z : p_nthr s = 0 -> Forall (fun p => p = WOff) (p_w s)).
  { intros N. apply Forall_forall. intros p J. destruct (In_nth _ _ WOff J) as (w & Lw & Ew). destruct (wk s w) eqn:K; unfold wk in K; rewrite Ew in K; auto; exfalso;
      (assert (X : wk s w <> WOff) by (unfold wk; rewrite Ew; congruence); apply (v_off _ _ _ _ _ _ I) in X; lia). }
  assert (Z1 : Forall (fun p => p = WOff) (p_w s) -> no_worker s = true) by (intros F; unfold no_worker; apply forallb_forall; intros p J; rewrite (proj1 (Forall_forall _ _) F p J); reflexivity).
  destruct (phase_of H) as [|k|].
  - destruct P as [P1 P2]. split; [exact P1|]. pose proof (Z P2) as F. split; [exact (Z1 F)|]. unfold working. destruct (existsb _ _) eqn:X; [|reflexivity].
    apply existsb_exists in X. destruct X as (p & J & K). rewrite (proj1 (Forall_forall _ _) F p J) in K. discriminate.
  - destruct P as [P1 P2]. split; [exact P1|]. split; [|intros ->; exact (Z1 (Z P2))]. intros NK. pose proof (v_on _ _ _ _ _ _ I 0) as O. rewrite MI in O. specialize (O ltac:(lia)).
    unfold no_worker. destruct (forallb _ _) eqn:X; [|reflexivity]. exfalso. apply O. unfold wk. pose proof (v_nthr _ _ _ _ _ _ I) as Ln. destruct (p_w s) as [|p l]; [cbn in Ln; lia|].
    cbn [forallb] in X. cbn [nth]. destruct p; try discriminate; reflexivity.
  - exact P.
Qed.
End P.
