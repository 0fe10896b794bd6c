(** Invariant of the two-lock queue and its refinement to the sequential FIFO. *)
From Coq Require Import List ZArith Bool Lia Arith.
From Verif Require Import Base QueueSpec QueueModel.
Import ListNotations.

Section Q.
Context {V : Type}.
Implicit Types (s : qst V) (p : pc V) (q : list V) (h : nheap V).

(** * lists and heap *)
Lemma upd_len {A} i (f : A -> A) l : length (upd i f l) = length l.
Proof. revert i. induction l as [|a l IH]; intros [|i]; cbn; auto. Qed.
Lemma nth_upd {A} i (x : A) l k d : i < length l -> nth k (upd i (fun _ => x) l) d = if Nat.eqb k i then x else nth k l d.
Proof.
  revert i k. induction l as [|a l IH]; intros [|i] [|k] H; cbn in *; try lia; auto.
  apply IH. lia.
Qed.
Lemma nth_error_upd' {A} i (x : A) l k : nth_error (upd i (fun _ => x) l) k = if Nat.eqb k i then (match nth_error l k with Some _ => Some x | None => None end) else nth_error l k.
Proof.
  revert i k. induction l as [|a l IH]; intros [|i] [|k]; cbn in *; auto. 1:{ destruct (Nat.eqb k i); reflexivity. }
Qed.
Lemma hget_lt h a n : hget h a = Some n -> a < length h.
Proof. unfold hget. intros H. apply nth_error_Some. destruct (nth_error h a); congruence. Qed.
Lemma hget_same h a n m : hget h a = Some m -> hget (hset h a n) a = n.
Proof.
  intros H. unfold hget, hset in *. rewrite nth_error_upd', Nat.eqb_refl. destruct (nth_error h a); [|discriminate]. destruct n; reflexivity.
Qed.
Lemma hget_other h a b n : b <> a -> hget (hset h a n) b = hget h b.
Proof. intros H. unfold hget, hset. rewrite nth_error_upd'. rewrite (proj2 (Nat.eqb_neq b a) H). reflexivity. Qed.
Lemma hget_old h n b m : hget h b = Some m -> hget (h ++ [n]) b = Some m.
Proof. intros H. pose proof (hget_lt _ _ _ H). unfold hget in *. rewrite nth_error_app1 by auto. exact H. Qed.
Lemma hget_new h n : hget (h ++ [Some n]) (length h) = Some n.
Proof. unfold hget. rewrite nth_error_app2 by lia. rewrite Nat.sub_diag. reflexivity. Qed.

(** * classification of program points *)
Definition hh (p : pc V) : bool :=
  match p with
  | PoHead | PoTLock _ | PoTRead _ | PoTUnlock _ _ | PoDec | PoMove | PoTake _ | PoNext _ _ | PoUnlock _ _ => true
  | EmHead _ | EmTLock _ _ | EmTRead _ _ | EmTUnlock _ _ _ | EmUnlock _ _ => true
  | EmLock (Some _) => true
  | _ => false
  end.
Definition ht (p : pc V) : bool :=
  match p with
  | PuData _ _ | PuNext _ _ | PuTail _ _ | PuUnlock | PoTRead _ | PoTUnlock _ _ | EmTRead _ _ | EmTUnlock _ _ _ => true
  | _ => false
  end.
(** points inside Clear behind its second lock: shown unreachable *)
Definition okpc (p : pc V) : bool :=
  match p with
  | EmHead (Some _) | EmTLock (Some _) _ | EmTRead (Some _) _ | EmTUnlock (Some _) _ _ | EmUnlock (Some _) _ => false
  | ClTake _ | ClNext _ _ | ClFree _ _ | ClUnlock _ => false
  | _ => true
  end.
Definition priv (p : pc V) : option nat :=
  match p with
  | PuLock _ n | PuData _ n | PuNext _ n | PuTail _ n => Some n
  | PoUnlock _ o | PoFree _ o => o
  | _ => None
  end.
Definition pdat (p : pc V) : dat V := match p with PoUnlock _ _ | PoFree _ _ => DMoved | _ => DNull end.
Definition adj (p : pc V) : Z := match p with PuUnlock | PuInc | PoMove | PoTake _ | PoNext _ _ => 1 | _ => 0 end.
Definition stat (p : pc V) : status V :=
  match p with
  | Idle => SIdle
  | PuAlloc v | PuLock v _ | PuData v _ | PuNext v _ | PuTail v _ => SCalled (QPush v)
  | PuUnlock | PuInc | PuRet => SDid RUnit
  | PoLock | PoHead | PoTLock _ | PoTRead _ | PoDec | PoMove | PoTake _ | PoNext _ _ => SCalled QPop
  | PoTUnlock h t => if eqo h t then SDid (RPop None) else SCalled QPop
  | PoUnlock r _ | PoFree r _ => SDid (RPop r)
  | EmLock None | EmHead None | EmTLock None _ | EmTRead None _ => SCalled QIsEmpty
  | EmTUnlock None h t => SDid (RBool (eqo h t))
  | EmUnlock None b => SDid (RBool b)
  | ClLock mv => SCalled (if mv then QAssign else QClear)
  | EmLock (Some mv) | EmHead (Some mv) | EmTLock (Some mv) _ | EmTRead (Some mv) _ | EmTUnlock (Some mv) _ _ | EmUnlock (Some mv) _
  | ClTake mv | ClNext mv _ | ClFree mv _ | ClUnlock mv => SCalled (if mv then QAssign else QClear)
  | SzRead => SCalled QSize
  end.

(** * invariant *)
Definition at_ (pcs : list (pc V)) (t : nat) : pc V := nth t pcs Idle.
Definition opc (pcs : list (pc V)) (m : option nat) : pc V := match m with Some t => at_ pcs t | None => Idle end.
Fixpoint seg (h : nheap V) (a : nat) (q : list V) (L : list nat) (b : nat) : Prop :=
  match q, L with
  | [], [] => a = b
  | v :: q', a' :: L' => a' = a /\ exists nx, hget h a = Some (mkNode (DVal v) (Some nx)) /\ seg h nx q' L' b
  | _, _ => False
  end.
Definition hpart (p : pc V) (h : nheap V) (head : option nat) (tail : nat) (q : list V) (L : list nat) : Prop :=
  match p with
  | PoTake v => exists a nx q' L', head = Some a /\ hget h a = Some (mkNode DMoved (Some nx)) /\ q = v :: q' /\ L = a :: L' /\ seg h nx q' L' tail
  | PoNext v old => exists a nx q' L', head = None /\ old = Some a /\ hget h a = Some (mkNode DMoved (Some nx)) /\ q = v :: q' /\ L = a :: L' /\ seg h nx q' L' tail
  | _ => exists a, head = Some a /\ seg h a q L tail
  end.
Definition tpart (p : pc V) : node V :=
  match p with
  | PuNext v _ => mkNode (DVal v) None
  | PuTail v nn => mkNode (DVal v) (Some nn)
  | _ => mkNode DNull None
  end.
Definition loc (p : pc V) (head : option nat) (q : list V) : Prop :=
  match p with
  | PoTLock h | PoTRead h | EmTLock _ h | EmTRead _ h => h = head
  | PoTUnlock h t => eqo h t = false -> q <> []
  | PoDec | PoMove => q <> []
  | _ => True
  end.
Definition adjs (pcs : list (pc V)) : Z := fold_right (fun p z => adj p + z)%Z 0%Z pcs.
Record inv (s : qst V) (q : list V) (L : list nat) : Prop := mkInv {
  i_hm : forall t, hh (at_ (q_pcs s) t) = true <-> q_hm s = Some t;
  i_tm : forall t, ht (at_ (q_pcs s) t) = true <-> q_tm s = Some t;
  i_ok : forall t, okpc (at_ (q_pcs s) t) = true;
  i_priv : forall t n, priv (at_ (q_pcs s) t) = Some n -> hget (q_heap s) n = Some (mkNode (pdat (at_ (q_pcs s) t)) None) /\ n <> q_tail s /\ ~ In n L;
  i_priv1 : forall t t' n, priv (at_ (q_pcs s) t) = Some n -> priv (at_ (q_pcs s) t') = Some n -> t = t';
  i_head : hpart (opc (q_pcs s) (q_hm s)) (q_heap s) (q_head s) (q_tail s) q L;
  i_nodup : NoDup L;
  i_last : ~ In (q_tail s) L;
  i_tail : hget (q_heap s) (q_tail s) = Some (tpart (opc (q_pcs s) (q_tm s)));
  i_loc : forall t, loc (at_ (q_pcs s) t) (q_head s) q;
  i_size : q_size s = ((Z.of_nat (length q) - adjs (q_pcs s)) mod size_max)%Z }.

(** the part a step of thread t may play in a linearization *)
Inductive lmove (t : nat) : status V -> status V -> list V -> list V -> option (qev V) -> Prop :=
| lm_stay a q : lmove t a a q q None
| lm_inv o q : lmove t SIdle (SCalled o) q q (Some (EInv t o))
| lm_lin o r q q' : seq_q o q r q' -> lmove t (SCalled o) (SDid r) q q' None
| lm_ret r q : lmove t (SDid r) SIdle q q (Some (ERet t r))
| lm_both o r q q' : seq_q o q r q' -> lmove t (SCalled o) SIdle q q' (Some (ERet t r)).

Lemma at_upd pcs t p k : t < length pcs -> at_ (upd t (fun _ => p) pcs) k = if Nat.eqb k t then p else at_ pcs k.
Proof. apply nth_upd. Qed.
Lemma adjs_upd pcs t p : t < length pcs -> adjs (upd t (fun _ => p) pcs) = (adjs pcs - adj (at_ pcs t) + adj p)%Z.
Proof.
  unfold adjs, at_. revert t. induction pcs as [|a l IH]; intros [|t] H; cbn in *; try lia.
  specialize (IH t ltac:(lia)). lia.
Qed.
Lemma adjs_nonneg pcs : (0 <= adjs pcs)%Z.
Proof. unfold adjs. induction pcs as [|p l IH]; cbn; [lia|]. assert (0 <= adj p)%Z by (destruct p; cbn; lia). lia. Qed.
Lemma seg_ext h h' q : forall a L b, (forall x, In x L -> hget h' x = hget h x) -> seg h a q L b -> seg h' a q L b.
Proof.
  induction q as [|v q IH]; intros a L b H S; destruct L as [|x L]; cbn in *; auto.
  destruct S as (-> & nx & E & S). split; [reflexivity|]. exists nx. rewrite H by auto. split; [exact E|]. apply IH; auto.
Qed.
Lemma seg_snoc h v q : forall a L b nn, seg h a q L b -> hget h b = Some (mkNode (DVal v) (Some nn)) -> seg h a (q ++ [v]) (L ++ [b]) nn.
Proof.
  induction q as [|w q IH]; intros a L b nn S E; destruct L as [|x L]; cbn in *; try contradiction.
  - subst a. split; [reflexivity|]. exists nn. auto.
  - destruct S as (-> & nx & E' & S). split; [reflexivity|]. exists nx. split; [exact E'|]. apply IH; auto.
Qed.
Lemma seg_live h q : forall a L b x, seg h a q L b -> In x L -> exists n, hget h x = Some n.
Proof.
  induction q as [|w q IH]; intros a L b x S E; destruct L as [|y L]; cbn in *; try contradiction.
  destruct S as (-> & nx & E' & S). destruct E as [<-|E]; [eauto|]. eapply IH; eauto.
Qed.
Lemma hpart_ext p h h' hd tl q L : (forall x, In x L -> hget h' x = hget h x) -> hpart p h hd tl q L -> hpart p h' hd tl q L.
Proof.
  intros H. destruct p; cbn [hpart]; try (intros (a & E & S); exists a; split; [exact E|]; eapply seg_ext; eauto).
  - intros (a & nx & q' & L' & E1 & E2 & E3 & E4 & S). subst L. exists a, nx, q', L'. repeat split; auto. { rewrite H by (left; auto). exact E2. } eapply seg_ext; [|exact S]. intros; apply H; right; auto.
  - intros (a & nx & q' & L' & E1 & E2 & E3 & E4 & E5 & S). subst L. exists a, nx, q', L'. repeat split; auto. { rewrite H by (left; auto). exact E3. } eapply seg_ext; [|exact S]. intros; apply H; right; auto.
Qed.
Lemma hpart_live p h hd tl q L x : hpart p h hd tl q L -> In x L -> exists n, hget h x = Some n.
Proof.
  destruct p; cbn [hpart]; try (intros (a & E & S); apply (seg_live _ _ _ _ _ _ S)).
  - intros (a & nx & q' & L' & E1 & E2 & E3 & E4 & S) I. subst L. destruct I as [<-|I]; [eauto|]. eapply seg_live; eauto.
  - intros (a & nx & q' & L' & E1 & E2 & E3 & E4 & E5 & S) I. subst L. destruct I as [<-|I]; [eauto|]. eapply seg_live; eauto.
Qed.
Lemma hpart_snoc p h hd b q L v nn : hpart p h hd b q L -> hget h b = Some (mkNode (DVal v) (Some nn)) -> hpart p h hd nn (q ++ [v]) (L ++ [b]).
Proof.
  intros H E. destruct p; cbn [hpart] in *; try (destruct H as (a & H & S); exists a; split; [exact H|]; eapply seg_snoc; eauto).
  - destruct H as (a & nx & q' & L' & E1 & E2 & E3 & E4 & S). subst q L. exists a, nx, (q' ++ [v]), (L' ++ [b]). repeat split; auto. eapply seg_snoc; eauto.
  - destruct H as (a & nx & q' & L' & E1 & E2 & E3 & E4 & E5 & S). subst q L. exists a, nx, (q' ++ [v]), (L' ++ [b]). repeat split; auto. eapply seg_snoc; eauto.
Qed.
Definition plain (p : pc V) : Prop := match p with PoTake _ | PoNext _ _ => False | _ => True end.
Lemma hpart_plain p p' h hd tl q L : plain p -> plain p' -> hpart p h hd tl q L -> hpart p' h hd tl q L.
Proof. intros A B. destruct p; try destruct A; destruct p'; try destruct B; exact (fun x => x). Qed.

Definition lockok (m m' : option nat) (t : nat) (b b' : bool) : Prop := (b' = b /\ m' = m) \/ (m = None /\ m' = Some t /\ b' = true) \/ (b = true /\ m' = None /\ b' = false).
Lemma lock_upd (f : pc V -> bool) pcs m m' t p' : t < length pcs -> (forall k, f (at_ pcs k) = true <-> m = Some k) -> lockok m m' t (f (at_ pcs t)) (f p') ->
  forall k, f (at_ (upd t (fun _ => p') pcs) k) = true <-> m' = Some k.
Proof.
  intros Ht H O k. rewrite at_upd by auto. destruct (Nat.eqb_spec k t) as [->|N].
  - destruct O as [[E ->]|[(-> & -> & ->)|(E & -> & ->)]].
    + rewrite E. apply H.
    + split; auto.
    + split; congruence.
  - destruct O as [[E ->]|[(-> & -> & E)|(E & -> & E')]].
    + apply H.
    + rewrite H. split; congruence.
    + rewrite H. apply H in E. split; congruence.
Qed.
Lemma opc_upd pcs t p' m : t < length pcs -> opc (upd t (fun _ => p') pcs) m = match m with Some k => if Nat.eqb k t then p' else at_ pcs k | None => Idle end.
Proof. intros H. destruct m; cbn [opc]; [apply at_upd; auto|reflexivity]. Qed.
Lemma inv_goto s q L t p' heap' head' tail' hm' tm' size' q' L' :
  inv s q L -> t < length (q_pcs s) -> let p := at_ (q_pcs s) t in
  lockok (q_hm s) hm' t (hh p) (hh p') -> lockok (q_tm s) tm' t (ht p) (ht p') -> okpc p' = true ->
  (forall k n, k <> t -> priv (at_ (q_pcs s) k) = Some n -> hget heap' n = hget (q_heap s) n /\ n <> tail' /\ ~ In n L') ->
  (forall n, priv p' = Some n -> hget heap' n = Some (mkNode (pdat p') None) /\ n <> tail' /\ ~ In n L' /\ forall k, k <> t -> priv (at_ (q_pcs s) k) <> Some n) ->
  hpart (match hm' with Some k => if Nat.eqb k t then p' else at_ (q_pcs s) k | None => Idle end) heap' head' tail' q' L' ->
  NoDup L' -> ~ In tail' L' ->
  hget heap' tail' = Some (tpart (match tm' with Some k => if Nat.eqb k t then p' else at_ (q_pcs s) k | None => Idle end)) ->
  loc p' head' q' -> (forall k, k <> t -> loc (at_ (q_pcs s) k) head' q') ->
  size' = ((Z.of_nat (length q') - (adjs (q_pcs s) - adj p + adj p')) mod size_max)%Z ->
  inv (mkQ heap' head' tail' hm' tm' size' (upd t (fun _ => p') (q_pcs s))) q' L'.
Proof.
  intros I Ht p H1 H2 H3 H4 H5 H6 H7 H8 H9 H10 H11 H12. split; cbn [q_heap q_head q_tail q_hm q_tm q_size q_pcs]; auto.
  - apply (lock_upd hh _ (q_hm s)); auto. apply (i_hm _ _ _ I).
  - apply (lock_upd ht _ (q_tm s)); auto. apply (i_tm _ _ _ I).
  - intros k. rewrite at_upd by auto. destruct (Nat.eqb k t); [exact H3|apply (i_ok _ _ _ I)].
  - intros k n. rewrite at_upd by auto. destruct (Nat.eqb_spec k t) as [->|N]; intros E.
    + destruct (H5 n E) as (A & B & C & _). auto.
    + destruct (H4 k n N E) as (A & B & C). destruct (i_priv _ _ _ I k n E) as (D & _). rewrite A. auto.
  - intros k k' n. rewrite !at_upd by auto. destruct (Nat.eqb_spec k t) as [->|N]; destruct (Nat.eqb_spec k' t) as [->|N']; intros E E'; auto.
    + destruct (H5 n E) as (_ & _ & _ & C). elim (C k' N' E').
    + destruct (H5 n E') as (_ & _ & _ & C). elim (C k N E).
    + apply (i_priv1 _ _ _ I k k' n E E').
  - rewrite opc_upd by auto. exact H6.
  - rewrite opc_upd by auto. exact H9.
  - intros k. rewrite at_upd by auto. destruct (Nat.eqb_spec k t) as [->|N]; auto.
  - rewrite adjs_upd by auto. exact H12.
Qed.
Lemma loc_any p hd q : hh p = false -> loc p hd q.
Proof. destruct p; cbn; auto; discriminate. Qed.
Lemma loc_grow p hd q v : loc p hd q -> loc p hd (q ++ [v]).
Proof. destruct p; cbn; auto; intros; destruct q; discriminate. Qed.
Definition tplain (p : pc V) : Prop := match p with PuNext _ _ | PuTail _ _ => False | _ => True end.
Lemma tpart_plain p : tplain p -> tpart p = mkNode DNull None.
Proof. destruct p; cbn; auto; intros []. Qed.
Lemma owner_h s q L t : inv s q L -> hh (at_ (q_pcs s) t) = true -> q_hm s = Some t.
Proof. intros I H. apply (i_hm _ _ _ I). exact H. Qed.
Lemma owner_t s q L t : inv s q L -> ht (at_ (q_pcs s) t) = true -> q_tm s = Some t.
Proof. intros I H. apply (i_tm _ _ _ I). exact H. Qed.
Lemma other_h s q L t k : inv s q L -> q_hm s = Some t -> k <> t -> hh (at_ (q_pcs s) k) = false.
Proof. intros I H N. destruct (hh (at_ (q_pcs s) k)) eqn:E; [|reflexivity]. apply (i_hm _ _ _ I) in E. congruence. Qed.
(** steps that touch only the thread, the locks and the counter *)
Lemma inv_light s q L t p' hm' tm' size' :
  inv s q L -> t < length (q_pcs s) -> let p := at_ (q_pcs s) t in
  lockok (q_hm s) hm' t (hh p) (hh p') -> lockok (q_tm s) tm' t (ht p) (ht p') -> okpc p' = true ->
  (priv p' = None \/ (priv p' = priv p /\ pdat p' = pdat p)) -> plain p -> plain p' -> tplain p -> tplain p' ->
  loc p' (q_head s) q -> size' = ((Z.of_nat (length q) - (adjs (q_pcs s) - adj p + adj p')) mod size_max)%Z ->
  inv (mkQ (q_heap s) (q_head s) (q_tail s) hm' tm' size' (upd t (fun _ => p') (q_pcs s))) q L.
Proof.
  intros I Ht p H1 H2 H3 H4 Hp Hp' Tp Tp' HL HS. apply (inv_goto s q L t p'); auto.
  - intros k n N E. destruct (i_priv _ _ _ I k n E) as (_ & A & B). auto.
  - intros n E. destruct H4 as [H4|[H4 H4']]; [congruence|]. rewrite H4 in E. destruct (i_priv _ _ _ I t n E) as (A & B & C). rewrite H4'. repeat split; auto.
    intros k N E'. apply N. exact (i_priv1 _ _ _ I k t n E' E).
  - pose proof (i_head _ _ _ I) as Hh. destruct H1 as [[E ->]|[(E & -> & E')|(E & -> & E')]].
    + destruct (q_hm s) as [k|] eqn:Em; [|exact Hh]. destruct (Nat.eqb_spec k t) as [->|N]; [|exact Hh]. apply (hpart_plain p); auto.
    + rewrite Nat.eqb_refl. rewrite E in Hh. apply (hpart_plain Idle); auto. exact Logic.I.
    + apply (owner_h _ _ _ _ I) in E. rewrite E in Hh. apply (hpart_plain p); auto. exact Logic.I.
  - apply (i_nodup _ _ _ I).
  - apply (i_last _ _ _ I).
  - rewrite (i_tail _ _ _ I). f_equal. destruct H2 as [[E ->]|[(E & -> & E')|(E & -> & E')]].
    + destruct (q_tm s) as [k|] eqn:Em; [|reflexivity]. destruct (Nat.eqb_spec k t) as [->|N]; [|reflexivity]. cbn [opc]. fold p. rewrite !tpart_plain; auto.
    + rewrite Nat.eqb_refl, E. cbn [opc]. rewrite !tpart_plain; auto. exact Logic.I.
    + apply (owner_t _ _ _ _ I) in E. rewrite E. cbn [opc]. fold p. rewrite !tpart_plain; auto. exact Logic.I.
  - intros k N. apply (i_loc _ _ _ I).
Qed.
End Q.
