(** Progress of the queue when nobody clears it, and the dead end behind Clear. *)
From Coq Require Import List ZArith Bool Lia Arith.
From Verif Require Import Base QueueSpec QueueModel QueueProofs QueueProofs2 QueueProofs3.
Import ListNotations.

Section Q.
Context {V : Type}.
Implicit Types (s : qst V) (q : list V).

Definition dist (p : pc V) : nat :=
  match p with
  | Idle => 0
  | PuAlloc _ => 8 | PuLock _ _ => 7 | PuData _ _ => 6 | PuNext _ _ => 5 | PuTail _ _ => 4 | PuUnlock => 3 | PuInc => 2 | PuRet => 1
  | PoLock => 12 | PoHead => 11 | PoTLock _ => 10 | PoTRead _ => 9 | PoTUnlock _ _ => 8 | PoDec => 7 | PoMove => 6 | PoTake _ => 5
  | PoNext _ _ => 4 | PoUnlock _ _ => 3 | PoFree _ _ => 2
  | EmLock _ => 7 | EmHead _ => 6 | EmTLock _ _ => 5 | EmTRead _ _ => 4 | EmTUnlock _ _ _ => 3 | EmUnlock _ _ => 2
  | SzRead => 1
  | ClLock _ | ClTake _ | ClNext _ _ | ClFree _ _ | ClUnlock _ => 0
  end.
(** not inside Clear *)
Definition nc (p : pc V) : bool := match p with ClLock _ | EmLock (Some _) => false | _ => true end.
Definition total (pcs : list (pc V)) : nat := fold_right (fun p z => dist p + z) 0 pcs.
Lemma total_upd pcs t p : t < length pcs -> total (upd t (fun _ => p) pcs) + dist (at_ pcs t) = total pcs + dist p.
Proof.
  unfold total, at_. revert t. induction pcs as [|a l IH]; intros [|t] H; cbn in *; try lia. specialize (IH t ltac:(lia)). lia.
Qed.
Lemma at_idle pcs t : length pcs <= t -> at_ pcs t = @Idle V.
Proof. intros H. apply nth_overflow. exact H. Qed.
Lemma total_idle pcs : total pcs = 0 -> (forall t, nc (at_ pcs t) = true /\ okpc (at_ pcs t) = true) -> forall t, at_ pcs t = @Idle V.
Proof.
  unfold total, at_. induction pcs as [|p l IH]; intros E H t; [destruct t; reflexivity|]. cbn in E. destruct t as [|t]; cbn.
  - destruct (H 0) as [A B]. cbn in A, B. destruct p; cbn in *; try lia; try discriminate; auto.
  - apply IH; [lia|]. intros k. apply (H (S k)).
Qed.
(** a step of a thread in the middle of a call, seen from outside *)
Lemma step_shape s q L t o s' e : inv s q L -> at_ (q_pcs s) t <> Idle -> nc (at_ (q_pcs s) t) = true -> q_step t o s = QStep s' e ->
  dist (at_ (q_pcs s') t) < dist (at_ (q_pcs s) t) /\ nc (at_ (q_pcs s') t) = true /\ q_pcs s' = upd t (fun _ => at_ (q_pcs s') t) (q_pcs s) /\ t < length (q_pcs s) /\
  (forall x, e = Some x -> exists r, x = ERet t r).
Proof.
  intros I NI NC S. pose proof (i_ok _ _ _ I t) as OK. unfold q_step in S. destruct (nth_error (q_pcs s) t) as [p|] eqn:En; [|discriminate].
  assert (Ht : t < length (q_pcs s)) by (apply nth_error_Some; congruence).
  assert (Hp : at_ (q_pcs s) t = p) by (apply nth_error_nth; exact En). rewrite Hp in *.
  assert (K : forall p', q_pcs s' = upd t (fun _ => p') (q_pcs s) -> dist p' < dist p -> nc p' = true -> (forall x, e = Some x -> exists r, x = ERet t r) ->
     dist (at_ (q_pcs s') t) < dist p /\ nc (at_ (q_pcs s') t) = true /\ q_pcs s' = upd t (fun _ => at_ (q_pcs s') t) (q_pcs s) /\ t < length (q_pcs s) /\ (forall x, e = Some x -> exists r, x = ERet t r)).
  { intros p' E1 E2 E3 E4. rewrite E1, at_same by auto. auto. }
  unfold tau, ret, lock_head, lock_tail, goto, q_free in S. clear En Hp.
  destruct p; repeat match goal with c : option bool |- _ => destruct c end; cbn in OK, NC; try discriminate; try congruence;
   repeat match type of S with context[match ?x with _ => _ end] => destruct x eqn:? end; try discriminate; inversion S; subst; clear S;
   (eapply K; [reflexivity|cbn; lia|reflexivity|intros x Ex; inversion Ex; eauto]).
Qed.
Lemma enabled s q L t o : inv s q L -> at_ (q_pcs s) t <> Idle -> (q_tm s = Some t \/ (q_tm s = None /\ (q_hm s = Some t \/ q_hm s = None))) -> nc (at_ (q_pcs s) t) = true ->
  exists s' e, q_step t o s = QStep s' e.
Proof.
  intros I NI W NC. pose proof (q_step_ok s q L t o I) as G. destruct (q_step t o s) as [| |s' e] eqn:S; [|destruct G|eauto]. exfalso.
  destruct (Nat.lt_ge_cases t (length (q_pcs s))) as [Ht|Ht]; [|apply NI; apply at_idle; exact Ht].
  unfold q_step in S. destruct (nth_error (q_pcs s) t) as [p|] eqn:En; [|apply nth_error_None in En; lia].
  assert (Hp : at_ (q_pcs s) t = p) by (apply nth_error_nth; exact En). rewrite Hp in *.
  pose proof (i_hm _ _ _ I t) as HM. pose proof (i_tm _ _ _ I t) as TM. rewrite Hp in HM, TM.
  unfold tau, ret, lock_head, lock_tail, goto, q_free in S.
  destruct p; repeat match goal with c : option bool |- _ => destruct c end; try discriminate S; cbn in NC; try discriminate NC;
   repeat match type of S with context[match ?x with _ => _ end] => destruct x eqn:? end; try discriminate; cbn [hh ht] in *; destruct W as [W|[W [W'|W']]]; try congruence;
   try (apply HM in W'; discriminate); try (apply TM in W; discriminate).
Qed.
Lemma some_enabled s q L o : inv s q L -> (forall t, nc (at_ (q_pcs s) t) = true) -> (forall t, at_ (q_pcs s) t = Idle) \/
  exists t s' e, at_ (q_pcs s) t <> Idle /\ q_step t o s = QStep s' e.
Proof.
  intros I NC.
  destruct (q_tm s) as [k|] eqn:Et.
  - right. assert (NI : at_ (q_pcs s) k <> Idle) by (intros E; apply (i_tm _ _ _ I) in Et; rewrite E in Et; discriminate).
    destruct (enabled s q L k o I NI ltac:(auto) (NC k)) as (s' & e & S). exists k, s', e. auto.
  - destruct (q_hm s) as [k|] eqn:Eh.
    + right. assert (NI : at_ (q_pcs s) k <> Idle) by (intros E; apply (i_hm _ _ _ I) in Eh; rewrite E in Eh; discriminate).
      destruct (enabled s q L k o I NI ltac:(right; split; auto) (NC k)) as (s' & e & S). exists k, s', e. auto.
    + destruct (total (q_pcs s)) as [|d] eqn:T; [left; apply total_idle; auto; intros t; split; [apply NC|apply (i_ok _ _ _ I)]|]. right.
      assert (X : exists k, at_ (q_pcs s) k <> Idle).
      { clear - T. unfold at_. induction (q_pcs s) as [|p l IH]; [discriminate|]. cbn in T. destruct (Nat.eq_dec (dist p) 0) as [E|E].
        - destruct IH as [k Hk]. { cbn [total fold_right] in T. fold (total l) in T. lia. } exists (S k). exact Hk.
        - exists 0. cbn. intros ->. apply E. reflexivity. }
      destruct X as [k NI]. destruct (enabled s q L k o I NI ltac:(right; split; auto) (NC k)) as (s' & e & S). exists k, s', e. auto.
Qed.
Lemma exec_concat (sched2 : list (nat * qop V)) : forall sched1 s H1 s1 H2 s2, q_exec sched1 s = Ok (H1, s1) -> q_exec sched2 s1 = Ok (H2, s2) -> q_exec (sched1 ++ sched2) s = Ok (H1 ++ H2, s2).
Proof.
  induction sched1 as [|[t o] sched1 IH]; intros s H1 s1 H2 s2 A B; cbn [q_exec app] in *.
  - inversion A; subst. exact B.
  - destruct (q_step t o s) as [| |s' e]; [eapply IH; eauto|discriminate|]. destruct (q_exec sched1 s') as [[H s'']|?|?|?|?|] eqn:X; try discriminate.
    cbn [bind] in A. inversion A; subst. rewrite (IH _ _ _ _ _ X B). cbn [bind]. destruct e; reflexivity.
Qed.
Definition is_ret (e : qev V) : Prop := match e with ERet _ _ => True | _ => False end.
Lemma finish : forall d s q L, total (q_pcs s) <= d -> inv s q L -> (forall t, nc (at_ (q_pcs s) t) = true) ->
  exists sched H s', q_exec sched s = Ok (H, s') /\ length sched <= d /\ (forall t, at_ (q_pcs s') t = Idle) /\ (forall e, In e H -> is_ret e).
Proof.
  induction d as [|d IH]; intros s q L T I NC; destruct (some_enabled s q L QPop I NC) as [AI|(t & s1 & e & NI & S)];
   try (exists [], [], s; split; [reflexivity|split; [cbn; lia|split; [exact AI|intros ? []]]]).
  - exfalso. destruct (step_shape s q L t QPop s1 e I NI (NC t) S) as (A & B & C & D & E). pose proof (total_upd (q_pcs s) t (at_ (q_pcs s1) t) D). lia.
  - destruct (step_shape s q L t QPop s1 e I NI (NC t) S) as (A & B & C & D & E).
    pose proof (q_step_ok s q L t QPop I) as G. rewrite S in G. destruct G as (q1 & L1 & I1 & _ & O & _).
    pose proof (total_upd (q_pcs s) t (at_ (q_pcs s1) t) D) as TU. rewrite <- C in TU.
    destruct (IH s1 q1 L1) as (sched & H & s' & X & Len & AI & RE); [lia|exact I1| |].
    + intros k. destruct (Nat.eq_dec k t) as [->|N]; [exact B|]. rewrite O by exact N. apply NC.
    + exists ((t, QPop) :: sched), (match e with Some x => x :: H | None => H end), s'. cbn [q_exec]. rewrite S, X. cbn [bind]. repeat split; auto; [cbn; lia|].
      intros x J. destruct e as [y|]; [destruct J as [<-|J]; [destruct (E y eq_refl) as [r ->]; exact Logic.I|]|]; apply RE; auto.
Qed.
(** no thread enters Clear unless it is told to *)
Definition nclear (o : qop V) : bool := match o with QClear | QAssign => false | _ => true end.
Lemma nc_step s q L t o s' e : inv s q L -> (forall k, nc (at_ (q_pcs s) k) = true) -> nclear o = true -> q_step t o s = QStep s' e -> forall k, nc (at_ (q_pcs s') k) = true.
Proof.
  intros I NC NO S k. pose proof (q_step_ok s q L t o I) as G. rewrite S in G. destruct G as (q1 & L1 & I1 & _ & O & _).
  destruct (Nat.eq_dec k t) as [->|N]; [|rewrite O by exact N; apply NC].
  destruct (at_ (q_pcs s) t) eqn:Ep; try (refine (proj1 (proj2 (step_shape s q L t o s' e I _ (NC t) S))); rewrite Ep; discriminate).
  unfold q_step in S. destruct (nth_error (q_pcs s) t) as [p|] eqn:En; [|discriminate].
  assert (Ht : t < length (q_pcs s)) by (apply nth_error_Some; congruence).
  assert (Hp : at_ (q_pcs s) t = p) by (apply nth_error_nth; exact En). rewrite Ep in Hp. subst p. inversion S; subst. cbn [goto q_pcs]. rewrite at_same by auto. destruct o; cbn in NO; try discriminate; reflexivity.
Qed.
Lemma nc_exec sched : forall s q L H s', inv s q L -> (forall k, nc (at_ (q_pcs s) k) = true) -> (forall t o, In (t, o) sched -> nclear o = true) -> q_exec sched s = Ok (H, s') -> forall k, nc (at_ (q_pcs s') k) = true.
Proof.
  induction sched as [|[t o] sched IH]; intros s q L H s' I NC NO X; cbn [q_exec] in X.
  - inversion X; subst; auto.
  - pose proof (q_step_ok s q L t o I) as G. destruct (q_step t o s) as [| |s1 e] eqn:S; [eapply IH; eauto; intros t1 o1 J; apply (NO t1 o1); right; exact J|discriminate|].
    destruct (q_exec sched s1) as [[H1 s2]|?|?|?|?|] eqn:X1; try discriminate. cbn [bind] in X. inversion X; subst.
    destruct G as (q1 & L1 & I1 & _). eapply (IH s1 q1 L1); [exact I1| |intros t1 o1 J; apply (NO t1 o1); right; exact J|exact X1].
    exact (nc_step s q L t o s1 e I NC (NO t o (or_introl eq_refl)) S).
Qed.

(** * behind Clear *)
Definition incl_ (p : pc V) : bool := match p with ClLock _ | EmLock (Some _) => true | _ => false end.
Lemma clear_stuck s q L t k o s' e : inv s q L -> incl_ (at_ (q_pcs s) t) = true -> q_step k o s = QStep s' e -> incl_ (at_ (q_pcs s') t) = true /\ forall x, e = Some x -> tid x <> t.
Proof.
  intros I C S. pose proof (q_step_ok s q L k o I) as G. rewrite S in G. destruct G as (q1 & L1 & I1 & M & O & _).
  destruct (Nat.eq_dec t k) as [<-|N].
  - unfold q_step in S. destruct (nth_error (q_pcs s) t) as [p|] eqn:En; [|discriminate].
    assert (Ht : t < length (q_pcs s)) by (apply nth_error_Some; congruence).
    assert (Hp : at_ (q_pcs s) t = p) by (apply nth_error_nth; exact En). rewrite Hp in C.
    pose proof (i_hm _ _ _ I t) as HM. rewrite Hp in HM.
    destruct p; cbn in C; try discriminate.
    + destruct c; [|discriminate]. cbn [hh] in HM. unfold lock_head in S. rewrite (proj1 HM eq_refl) in S. discriminate.
    + unfold lock_head in S. destruct (q_hm s); [discriminate|]. inversion S; subst. cbn [goto q_pcs]. rewrite at_same by auto. split; [reflexivity|discriminate].
  - rewrite O by exact N. split; [exact C|]. intros x ->. inversion M; subst; cbn; congruence.
Qed.
Lemma clear_exec sched : forall s q L t H s', inv s q L -> incl_ (at_ (q_pcs s) t) = true -> q_exec sched s = Ok (H, s') -> incl_ (at_ (q_pcs s') t) = true /\ forall e, In e H -> tid e <> t.
Proof.
  induction sched as [|[k o] sched IH]; intros s q L t H s' I C X; cbn [q_exec] in X.
  - inversion X; subst. split; [exact C|intros ? []].
  - pose proof (q_step_ok s q L k o I) as G. destruct (q_step k o s) as [| |s1 e] eqn:S; [eapply IH; eauto|discriminate|].
    destruct (q_exec sched s1) as [[H1 s2]|?|?|?|?|] eqn:X1; try discriminate. cbn [bind] in X. inversion X; subst.
    destruct G as (q1 & L1 & I1 & _). destruct (clear_stuck s q L t k o s1 e I C S) as [C1 T]. destruct (IH s1 q1 L1 t H1 s' I1 C1 X1) as [C2 T2]. split; [exact C2|].
    intros x J. destruct e as [y|]; [destruct J as [<-|J]; [apply T; reflexivity|]|]; apply T2; auto.
Qed.
(** a thread whose Clear holds the lock keeps it; whoever wants it waits for ever *)
Definition wants (p : pc V) : bool := match p with PoLock | EmLock None | ClLock _ => true | _ => false end.
Definition stuck s (t : nat) : Prop := match at_ (q_pcs s) t with EmLock (Some _) => True | _ => False end.
Lemma stuck_step s q L t k o s' e : inv s q L -> stuck s t -> q_step k o s = QStep s' e -> stuck s' t.
Proof.
  intros I C S. unfold stuck in *. pose proof (q_step_ok s q L k o I) as G. rewrite S in G. destruct G as (q1 & L1 & I1 & M & O & _).
  destruct (Nat.eq_dec t k) as [<-|N]; [|rewrite O by exact N; exact C]. exfalso.
  unfold q_step in S. destruct (nth_error (q_pcs s) t) as [p|] eqn:En; [|discriminate].
  assert (Hp : at_ (q_pcs s) t = p) by (apply nth_error_nth; exact En). rewrite Hp in C. pose proof (i_hm _ _ _ I t) as HM. rewrite Hp in HM.
  destruct p; try contradiction. destruct c; [|contradiction]. unfold lock_head in S. rewrite (proj1 HM eq_refl) in S. discriminate.
Qed.
Lemma wants_step s q L t w k o s' e : inv s q L -> stuck s t -> wants (at_ (q_pcs s) w) = true -> q_step k o s = QStep s' e -> wants (at_ (q_pcs s') w) = true /\ forall x, e = Some x -> tid x <> w.
Proof.
  intros I C W S. pose proof (q_step_ok s q L k o I) as G. rewrite S in G. destruct G as (q1 & L1 & I1 & M & O & _).
  assert (HMs : q_hm s = Some t). { apply (i_hm _ _ _ I). unfold stuck in C. destruct (at_ (q_pcs s) t); try contradiction. destruct c; [reflexivity|contradiction]. }
  destruct (Nat.eq_dec w k) as [<-|N].
  - exfalso. unfold q_step in S. destruct (nth_error (q_pcs s) w) as [p|] eqn:En; [|discriminate].
    assert (Hp : at_ (q_pcs s) w = p) by (apply nth_error_nth; exact En). rewrite Hp in W. unfold lock_head in S. rewrite HMs in S.
    destruct p; try discriminate.
  - rewrite O by exact N. split; [exact W|]. intros x ->. inversion M; subst; cbn; congruence.
Qed.
Lemma wants_exec sched : forall s q L t w H s', inv s q L -> stuck s t -> wants (at_ (q_pcs s) w) = true -> q_exec sched s = Ok (H, s') -> forall e, In e H -> tid e <> w.
Proof.
  induction sched as [|[k o] sched IH]; intros s q L t w H s' I C W X; cbn [q_exec] in X.
  - inversion X; subst. intros ? [].
  - pose proof (q_step_ok s q L k o I) as G. destruct (q_step k o s) as [| |s1 e] eqn:S; [eapply IH; eauto|discriminate|].
    destruct (q_exec sched s1) as [[H1 s2]|?|?|?|?|] eqn:X1; try discriminate. cbn [bind] in X. inversion X; subst.
    destruct G as (q1 & L1 & I1 & _). destruct (wants_step s q L t w k o s1 e I C W S) as [W1 T].
    pose proof (stuck_step s q L t k o s1 e I C S) as C1. intros x J. destruct e as [y|]; [destruct J as [<-|J]; [apply T; reflexivity|]|]; exact (IH s1 q1 L1 t w H1 s' I1 C1 W1 X1 x J).
Qed.
(** the moment of a call *)
Lemma inv_event t0 o0 p0 sched : (forall s s' e, q_step t0 o0 s = QStep s' e -> e = Some (EInv t0 o0) -> at_ (q_pcs s') t0 = p0) ->
  forall s H s' H1 H2, q_exec sched s = Ok (H, s') -> H = H1 ++ EInv t0 o0 :: H2 ->
  exists sched1 sched2 s1, sched = sched1 ++ sched2 /\ q_exec sched1 s = Ok (H1 ++ [EInv t0 o0], s1) /\ q_exec sched2 s1 = Ok (H2, s') /\ at_ (q_pcs s1) t0 = p0.
Proof.
  intros P. induction sched as [|[k o] sched IH]; intros s H s' H1 H2 X E; cbn [q_exec] in X.
  - inversion X; subst. destruct H1; discriminate.
  - destruct (q_step k o s) as [| |s1 e] eqn:S; [|discriminate|].
    + destruct (IH s H s' H1 H2 X E) as (a & b & s2 & E1 & E2 & E3 & E4). exists ((k, o) :: a), b, s2. subst sched. split; [reflexivity|]. split; [|auto]. cbn [q_exec]. rewrite S. exact E2.
    + destruct (q_exec sched s1) as [[H3 s2]|?|?|?|?|] eqn:X1; try discriminate. cbn [bind] in X. inversion X as [[EH ES]]. subst s2. clear X. rewrite E in EH.
      destruct e as [y|].
      * destruct H1 as [|z H1]; cbn in EH; inversion EH; subst.
        -- assert (K : k = t0 /\ o = o0).
           { clear - S. unfold q_step in S. destruct (nth_error (q_pcs s) k) as [p|]; [|discriminate]. unfold tau, ret, lock_head, lock_tail, goto, q_free in S.
             destruct p; repeat match type of S with context[match ?x with _ => _ end] => destruct x end; try discriminate; inversion S; auto. }
           destruct K as [-> ->]. exists [(t0, o0)], sched, s1. split; [reflexivity|]. split; [cbn [q_exec]; rewrite S; reflexivity|]. split; [exact X1|]. eapply P; eauto.
        -- destruct (IH s1 _ s' H1 H2 X1 eq_refl) as (a & b & s2 & E1 & E2 & E3 & E4). exists ((k, o) :: a), b, s2. subst sched. split; [reflexivity|]. split; [|auto]. cbn [q_exec]. rewrite S, E2. reflexivity.
      * destruct (IH s1 _ s' H1 H2 X1 EH) as (a & b & s2 & E1 & E2 & E3 & E4). exists ((k, o) :: a), b, s2. subst sched. split; [reflexivity|]. split; [|auto]. cbn [q_exec]. rewrite S, E2. reflexivity.
Qed.
Definition start_pc (o : qop V) : pc V := match o with QPush v => PuAlloc v | QPop => PoLock | QIsEmpty => EmLock None | QClear => ClLock false | QAssign => ClLock true | QSize => SzRead end.
Lemma inv_starts t o s s' e : q_step t o s = QStep s' e -> e = Some (EInv t o) -> at_ (q_pcs s') t = start_pc o.
Proof.
  intros S E. unfold q_step in S. destruct (nth_error (q_pcs s) t) as [p|] eqn:En; [|discriminate].
  assert (Ht : t < length (q_pcs s)) by (apply nth_error_Some; congruence). subst e. unfold tau, ret, lock_head, lock_tail, goto, q_free in S.
  destruct p; repeat match type of S with context[match ?x with _ => _ end] => destruct x eqn:? end; try discriminate; inversion S; subst; cbn [q_pcs]; apply at_same; auto.
Qed.
End Q.
