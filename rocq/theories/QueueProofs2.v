(** Every step of the queue preserves the invariant and plays its part in a linearization. *)
From Coq Require Import List ZArith Bool Lia Arith.
From Verif Require Import Base QueueSpec QueueModel QueueProofs.
Import ListNotations.

Section Q.
Context {V : Type}.
Definition step_goal (t : nat) (s : qst V) (q : list V) (r : qres V) : Prop :=
  match r with
  | QBlock => True
  | QBad => False
  | QStep s' e => exists q' L', inv s' q' L' /\ lmove t (stat (at_ (q_pcs s) t)) (stat (at_ (q_pcs s') t)) q q' e /\
                  (forall k, k <> t -> at_ (q_pcs s') k = at_ (q_pcs s) k) /\ length (q_pcs s') = length (q_pcs s)
  end.
Lemma at_same (pcs : list (pc V)) t p : t < length pcs -> at_ (upd t (fun _ => p) pcs) t = p.
Proof. intros H. rewrite at_upd, Nat.eqb_refl by auto. reflexivity. Qed.
Lemma at_other (pcs : list (pc V)) t p k : k <> t -> at_ (upd t (fun _ => p) pcs) k = at_ pcs k.
Proof.
  intros N. unfold at_. destruct (Nat.lt_ge_cases t (length pcs)) as [H|H].
  - rewrite nth_upd by auto. rewrite (proj2 (Nat.eqb_neq k t) N). reflexivity.
  - f_equal. clear N. revert t H. induction pcs as [|a l IH]; intros [|t] H; cbn in *; try lia; auto. f_equal. apply IH. lia.
Qed.
(** light steps *)
Lemma light (s : qst V) q L t p p' hm' tm' size' e : inv s q L -> t < length (q_pcs s) -> at_ (q_pcs s) t = p ->
  lockok (q_hm s) hm' t (hh p) (hh p') -> lockok (q_tm s) tm' t (ht p) (ht p') -> okpc p' = true ->
  (priv p' = None \/ (priv p' = priv p /\ pdat p' = pdat p)) -> plain p -> plain p' -> tplain p -> tplain p' ->
  loc p' (q_head s) q -> size' = ((Z.of_nat (length q) - (adjs (q_pcs s) - adj p + adj p')) mod size_max)%Z ->
  lmove t (stat p) (stat p') q q e ->
  step_goal t s q (QStep (mkQ (q_heap s) (q_head s) (q_tail s) hm' tm' size' (upd t (fun _ => p') (q_pcs s))) e).
Proof.
  intros I Ht Hp A1 A2 A3 A4 A5 A6 A7 A8 A9 A10 A11. exists q, L. split; [|split; [|split]].
  - subst p. apply inv_light; auto.
  - cbn [q_pcs]. rewrite at_same by auto. rewrite Hp. exact A11.
  - intros k N. cbn [q_pcs]. apply at_other; auto.
  - cbn [q_pcs]. apply upd_len.
Qed.
Lemma size_keep (s : qst V) q L t (p p' : pc V) : inv s q L -> at_ (q_pcs s) t = p -> adj p' = adj p -> q_size s = ((Z.of_nat (length q) - (adjs (q_pcs s) - adj p + adj p')) mod size_max)%Z.
Proof. intros I Hp E. rewrite (i_size _ _ _ I). f_equal. lia. Qed.
Lemma size_shift (s : qst V) q L t (p p' : pc V) d : inv s q L -> at_ (q_pcs s) t = p -> (d = adj p - adj p')%Z -> ((q_size s + d) mod size_max = ((Z.of_nat (length q) - (adjs (q_pcs s) - adj p + adj p')) mod size_max))%Z.
Proof. intros I Hp E. rewrite (i_size _ _ _ I). rewrite Z.add_mod_idemp_l by (unfold size_max; lia). f_equal. lia. Qed.
(** heavy steps *)
Lemma heavy (s : qst V) q L t p p' heap' head' tail' hm' tm' size' q' L' e :
  inv s q L -> t < length (q_pcs s) -> at_ (q_pcs s) t = p -> lockok (q_hm s) hm' t (hh p) (hh p') -> lockok (q_tm s) tm' t (ht p) (ht p') -> okpc p' = true ->
  (forall k n, k <> t -> priv (at_ (q_pcs s) k) = Some n -> hget heap' n = hget (q_heap s) n /\ n <> tail' /\ ~ In n L') ->
  (forall n, priv p' = Some n -> hget heap' n = Some (mkNode (pdat p') None) /\ n <> tail' /\ ~ In n L' /\ forall k, k <> t -> priv (at_ (q_pcs s) k) <> Some n) ->
  hpart (match hm' with Some k => if Nat.eqb k t then p' else at_ (q_pcs s) k | None => Idle end) heap' head' tail' q' L' ->
  NoDup L' -> ~ In tail' L' ->
  hget heap' tail' = Some (tpart (match tm' with Some k => if Nat.eqb k t then p' else at_ (q_pcs s) k | None => Idle end)) ->
  loc p' head' q' -> (forall k, k <> t -> loc (at_ (q_pcs s) k) head' q') ->
  size' = ((Z.of_nat (length q') - (adjs (q_pcs s) - adj p + adj p')) mod size_max)%Z ->
  lmove t (stat p) (stat p') q q' e ->
  step_goal t s q (QStep (mkQ heap' head' tail' hm' tm' size' (upd t (fun _ => p') (q_pcs s))) e).
Proof.
  intros I Ht Hp A1 A2 A3 A4 A5 A6 A7 A8 A9 A10 A11 A12 A13. exists q', L'. split; [|split; [|split]].
  - subst p. eapply inv_goto; eauto.
  - cbn [q_pcs]. rewrite at_same by auto. rewrite Hp. exact A13.
  - intros k N. cbn [q_pcs]. apply at_other; auto.
  - cbn [q_pcs]. apply upd_len.
Qed.
Lemma lock_keep m t b : lockok m m t b b. Proof. left. auto. Qed.
Lemma hd_owner (s : qst V) q L t : inv s q L -> q_hm s = Some t -> hpart (at_ (q_pcs s) t) (q_heap s) (q_head s) (q_tail s) q L.
Proof. intros I E. pose proof (i_head _ _ _ I) as H. rewrite E in H. exact H. Qed.
Lemma tl_owner (s : qst V) q L t : inv s q L -> q_tm s = Some t -> hget (q_heap s) (q_tail s) = Some (tpart (at_ (q_pcs s) t)).
Proof. intros I E. pose proof (i_tail _ _ _ I) as H. rewrite E in H. exact H. Qed.
(** reading the tail under both locks decides emptiness *)
Lemma empty_iff (s : qst V) q L : inv s q L -> plain (opc (q_pcs s) (q_hm s)) -> (eqo (q_head s) (q_tail s) = true <-> q = []).
Proof.
  intros I P. pose proof (i_head _ _ _ I) as H. apply (hpart_plain _ Idle) in H; [|exact P|exact Logic.I]. cbn in H. destruct H as (a & -> & S). cbn [eqo]. rewrite Nat.eqb_eq.
  destruct q as [|v q]; destruct L as [|b L]; cbn in S; try contradiction.
  - split; auto.
  - destruct S as (-> & _). split; [|discriminate]. intros ->. elim (i_last _ _ _ I). left; reflexivity.
Qed.
Lemma head_some (s : qst V) q L : inv s q L -> plain (opc (q_pcs s) (q_hm s)) -> exists a, q_head s = Some a /\ seg (q_heap s) a q L (q_tail s).
Proof. intros I P. pose proof (i_head _ _ _ I) as H. apply (hpart_plain _ Idle) in H; [|exact P|exact Logic.I]. exact H. Qed.

Ltac lk := first [apply lock_keep | (right; left; repeat split; auto; fail) | (right; right; repeat split; auto; fail)].
Ltac mv := first [apply lm_stay | apply lm_inv | apply lm_ret | apply lm_lin | apply lm_both].
Ltac lightstep I Hp := unfold tau, ret, goto, unlocked_head, unlocked_tail, set_size; cbn [q_heap q_head q_tail q_hm q_tm q_size q_pcs];
  eapply light; [exact I|assumption|exact Hp|cbn [hh]|cbn [ht]|reflexivity|first [left; reflexivity|right; split; reflexivity]|exact Logic.I|exact Logic.I|exact Logic.I|exact Logic.I| | |cbn [stat]].
Ltac keep I Hp := eapply size_keep; [exact I|exact Hp|reflexivity].

Lemma q_step_ok (s : qst V) q L t o : inv s q L -> step_goal t s q (q_step t o s).
Proof.
  intros I. unfold q_step. destruct (nth_error (q_pcs s) t) as [p|] eqn:En; [|exact Logic.I].
  assert (Ht : t < length (q_pcs s)) by (apply nth_error_Some; congruence).
  assert (Hp : at_ (q_pcs s) t = p) by (apply nth_error_nth; exact En).
  assert (Hhm : hh p = true -> q_hm s = Some t) by (intros E; apply (owner_h _ _ _ _ I); rewrite Hp; exact E).
  assert (Htm : ht p = true -> q_tm s = Some t) by (intros E; apply (owner_t _ _ _ _ I); rewrite Hp; exact E).
  assert (Nhm : hh p = false -> q_hm s <> Some t) by (intros E E'; apply (i_hm _ _ _ I) in E'; rewrite Hp in E'; congruence).
  assert (Ntm : ht p = false -> q_tm s <> Some t) by (intros E E'; apply (i_tm _ _ _ I) in E'; rewrite Hp in E'; congruence).
  pose proof (i_ok _ _ _ I t) as OK. rewrite Hp in OK. pose proof (i_loc _ _ _ I t) as LO. rewrite Hp in LO.
  pose proof (i_priv _ _ _ I t) as PR. rewrite Hp in PR.
  destruct p; cbn [okpc] in OK; try discriminate; cbn [hh ht] in *.
  - (* Idle *) destruct o; lightstep I Hp; try lk; try keep I Hp; try exact Logic.I; try mv.
  - (* PuAlloc *)
    unfold tau, goto, set_heap; cbn [q_heap q_head q_tail q_hm q_tm q_size q_pcs].
    assert (FR : forall x n, hget (q_heap s) x = Some n -> x <> length (q_heap s)) by (intros x n E; apply hget_lt in E; lia).
    eapply (heavy s q L t _ (PuLock v (length (q_heap s))) _ _ _ _ _ _ q L); [exact I|exact Ht|exact Hp|apply lock_keep|apply lock_keep|reflexivity| | | |apply (i_nodup _ _ _ I)|apply (i_last _ _ _ I)| |exact Logic.I|intros; apply (i_loc _ _ _ I)| |apply lm_stay].
    + intros k n N E. destruct (i_priv _ _ _ I k n E) as (A & B & C). split; [|auto]. rewrite (hget_old _ _ _ _ A). auto.
    + cbn [priv pdat]. intros n E. inversion E; subst n. split; [apply hget_new|]. split; [|split].
      * intros E'. pose proof (i_tail _ _ _ I) as T. rewrite <- E' in T. apply (FR _ _ T eq_refl).
      * intros E'. destruct (hpart_live _ _ _ _ _ _ _ (i_head _ _ _ I) E') as [n' T]. apply (FR _ _ T eq_refl).
      * intros k N E'. destruct (i_priv _ _ _ I k _ E') as (A & _). apply (FR _ _ A eq_refl).
    + replace (match q_hm s with Some k => if Nat.eqb k t then PuLock v (length (q_heap s)) else at_ (q_pcs s) k | None => Idle end) with (opc (q_pcs s) (q_hm s)).
      * eapply hpart_ext; [|apply (i_head _ _ _ I)]. intros x E. destruct (hpart_live _ _ _ _ _ _ _ (i_head _ _ _ I) E) as [n T]. rewrite (hget_old _ _ _ _ T). auto.
      * destruct (q_hm s) as [k|]; [|reflexivity]. cbn [opc]. destruct (Nat.eqb_spec k t); [subst; elim Nhm; auto|reflexivity].
    + rewrite (hget_old _ _ _ _ (i_tail _ _ _ I)). f_equal. destruct (q_tm s) as [k|]; [|reflexivity]. cbn [opc]. destruct (Nat.eqb_spec k t); [subst; elim Ntm; auto|reflexivity].
    + keep I Hp.
  - (* PuLock *) unfold lock_tail. destruct (q_tm s) as [k|] eqn:Em; [exact Logic.I|]. lightstep I Hp; cbn [q_hm q_tm]; try lk; try (rewrite Em; lk); try keep I Hp; try exact Logic.I; try mv.
  - (* PuData *)
    specialize (Htm eq_refl). pose proof (tl_owner _ _ _ _ I Htm) as T. rewrite Hp in T. cbn [tpart] in T. rewrite T. cbn [nd_next].
    unfold tau, goto, set_heap; cbn [q_heap q_head q_tail q_hm q_tm q_size q_pcs].
    eapply (heavy s q L t _ (PuNext v nn) _ _ _ _ _ _ q L); [exact I|exact Ht|exact Hp|apply lock_keep|apply lock_keep|reflexivity| | | |apply (i_nodup _ _ _ I)|apply (i_last _ _ _ I)| |exact Logic.I|intros; apply (i_loc _ _ _ I)| |apply lm_stay].
    + intros k n N E. destruct (i_priv _ _ _ I k n E) as (A & B & C). split; [|auto]. apply hget_other. auto.
    + cbn [priv pdat]. intros n E. destruct (PR n E) as (A & B & C). split; [rewrite hget_other by auto; exact A|]. split; [exact B|]. split; [exact C|]. intros k N E'. apply N. apply (i_priv1 _ _ _ I k t n E'). rewrite Hp. exact E.
    + replace (match q_hm s with Some k => if Nat.eqb k t then PuNext v nn else at_ (q_pcs s) k | None => Idle end) with (opc (q_pcs s) (q_hm s)).
      * eapply hpart_ext; [|apply (i_head _ _ _ I)]. intros x E. apply hget_other. intros ->. apply (i_last _ _ _ I E).
      * destruct (q_hm s) as [k|]; [|reflexivity]. cbn [opc]. destruct (Nat.eqb_spec k t); [subst; elim Nhm; auto|reflexivity].
    + rewrite (hget_same _ _ _ _ T), Htm, Nat.eqb_refl. reflexivity.
    + keep I Hp.
  - (* PuNext *)
    specialize (Htm eq_refl). pose proof (tl_owner _ _ _ _ I Htm) as T. rewrite Hp in T. cbn [tpart] in T. rewrite T.
    unfold tau, goto, set_heap; cbn [q_heap q_head q_tail q_hm q_tm q_size q_pcs].
    eapply (heavy s q L t _ (PuTail v nn) _ _ _ _ _ _ q L); [exact I|exact Ht|exact Hp|apply lock_keep|apply lock_keep|reflexivity| | | |apply (i_nodup _ _ _ I)|apply (i_last _ _ _ I)| |exact Logic.I|intros; apply (i_loc _ _ _ I)| |apply lm_stay].
    + intros k n N E. destruct (i_priv _ _ _ I k n E) as (A & B & C). split; [|auto]. apply hget_other. auto.
    + cbn [priv pdat]. intros n E. destruct (PR n E) as (A & B & C). split; [rewrite hget_other by auto; exact A|]. split; [exact B|]. split; [exact C|]. intros k N E'. apply N. apply (i_priv1 _ _ _ I k t n E'). rewrite Hp. exact E.
    + replace (match q_hm s with Some k => if Nat.eqb k t then PuTail v nn else at_ (q_pcs s) k | None => Idle end) with (opc (q_pcs s) (q_hm s)).
      * eapply hpart_ext; [|apply (i_head _ _ _ I)]. intros x E. apply hget_other. intros ->. apply (i_last _ _ _ I E).
      * destruct (q_hm s) as [k|]; [|reflexivity]. cbn [opc]. destruct (Nat.eqb_spec k t); [subst; elim Nhm; auto|reflexivity].
    + rewrite (hget_same _ _ _ _ T), Htm, Nat.eqb_refl. reflexivity.
    + keep I Hp.
  - (* PuTail *)
    specialize (Htm eq_refl). pose proof (tl_owner _ _ _ _ I Htm) as T. rewrite Hp in T. cbn [tpart] in T.
    destruct (PR nn eq_refl) as (A & B & C).
    unfold tau, goto, set_tail; cbn [q_heap q_head q_tail q_hm q_tm q_size q_pcs].
    eapply (heavy s q L t _ PuUnlock _ _ _ _ _ _ (q ++ [v]) (L ++ [q_tail s])); [exact I|exact Ht|exact Hp|apply lock_keep|apply lock_keep|reflexivity| | | | | | |exact Logic.I| | |].
    + intros k n N E. destruct (i_priv _ _ _ I k n E) as (A' & B' & C'). split; [reflexivity|]. split.
      * intros ->. apply N. apply (i_priv1 _ _ _ I k t nn E). rewrite Hp. reflexivity.
      * intros J. apply in_app_or in J. destruct J as [J|[J|[]]]; auto.
    + cbn [priv]. discriminate.
    + replace (match q_hm s with Some k => if Nat.eqb k t then PuUnlock else at_ (q_pcs s) k | None => Idle end) with (opc (q_pcs s) (q_hm s)).
      * eapply hpart_snoc; [apply (i_head _ _ _ I)|exact T].
      * destruct (q_hm s) as [k|]; [|reflexivity]. cbn [opc]. destruct (Nat.eqb_spec k t); [subst; elim Nhm; auto|reflexivity].
    + pose proof (NoDup_rev (i_nodup _ _ _ I)) as ND. rewrite <- (rev_involutive (L ++ [q_tail s])), rev_app_distr. apply NoDup_rev. cbn. constructor; [|exact ND]. rewrite <- in_rev. apply (i_last _ _ _ I).
    + intros J. apply in_app_or in J. destruct J as [J|[J|[]]]; auto.
    + rewrite A, Htm, Nat.eqb_refl. reflexivity.
    + intros k N. apply loc_grow. apply (i_loc _ _ _ I).
    + rewrite (i_size _ _ _ I). f_equal. rewrite app_length. cbn [length adj]. lia.
    + cbn [stat]. apply lm_lin. constructor.
  - (* PuUnlock *) specialize (Htm eq_refl). lightstep I Hp; cbn [q_hm q_tm]; try lk; try keep I Hp; try exact Logic.I; try mv.
  - (* PuInc *) lightstep I Hp; try lk; try exact Logic.I; try mv. eapply size_shift; [exact I|exact Hp|reflexivity].
  - (* PuRet *) lightstep I Hp; try lk; try keep I Hp; try exact Logic.I; try mv.
  - (* PoLock *) unfold lock_head. destruct (q_hm s) as [k|] eqn:Em; [exact Logic.I|]. lightstep I Hp; cbn [q_hm q_tm]; try lk; try (rewrite Em; lk); try keep I Hp; try exact Logic.I; try mv.
  - (* PoHead *) lightstep I Hp; try lk; try keep I Hp; try reflexivity; try mv.
  - (* PoTLock *) unfold lock_tail. destruct (q_tm s) as [k|] eqn:Em; [exact Logic.I|]. lightstep I Hp; cbn [q_hm q_tm]; try lk; try (rewrite Em; lk); try keep I Hp; try exact LO; try mv.
  - (* PoTRead *) cbn [loc] in LO. specialize (Hhm eq_refl). pose proof (empty_iff _ _ _ I) as EM. rewrite Hhm in EM. cbn [opc] in EM. rewrite Hp in EM. specialize (EM Logic.I). rewrite <- LO in EM.
    lightstep I Hp; try lk; try keep I Hp.
    + cbn [loc]. intros E Eq. apply EM in Eq. congruence.
    + destruct (eqo h (q_tail s)) eqn:E; [|apply lm_stay]. apply lm_lin. rewrite (proj1 EM eq_refl). constructor.
  - (* PoTUnlock *) specialize (Htm eq_refl). cbn [loc] in LO. destruct (eqo h t0) eqn:E.
    + lightstep I Hp; cbn [q_hm q_tm]; try lk; try keep I Hp; try exact Logic.I. rewrite E. mv.
    + lightstep I Hp; cbn [q_hm q_tm]; try lk; try keep I Hp; [exact (LO eq_refl)|]. rewrite E. mv.
  - (* PoDec *) lightstep I Hp; try lk; try exact LO; try mv. eapply size_shift; [exact I|exact Hp|reflexivity].
  - (* PoMove *)
    specialize (Hhm eq_refl). cbn [loc] in LO. pose proof (hd_owner _ _ _ _ I Hhm) as H. rewrite Hp in H. cbn [hpart] in H. destruct H as (a & Ea & S). rewrite Ea.
    destruct q as [|v q]; [congruence|]. destruct L as [|a' L]; cbn in S; [contradiction|]. destruct S as (-> & nx & G & S). rewrite G.
    pose proof (i_nodup _ _ _ I) as ND. apply NoDup_cons_iff in ND. destruct ND as [ND1 ND2].
    assert (NT : a <> q_tail s) by (intros E; apply (i_last _ _ _ I); left; auto).
    unfold tau, goto, set_heap; cbn [q_heap q_head q_tail q_hm q_tm q_size q_pcs].
    eapply (heavy s (v :: q) (a :: L) t _ (PoTake v) _ _ _ _ _ _ (v :: q) (a :: L)); [exact I|exact Ht|exact Hp|apply lock_keep|apply lock_keep|reflexivity| | | |apply (i_nodup _ _ _ I)|apply (i_last _ _ _ I)| |exact Logic.I|intros; apply (i_loc _ _ _ I)| |apply lm_stay].
    + intros k n N E. destruct (i_priv _ _ _ I k n E) as (A & B & C). split; [|auto]. apply hget_other. intros ->. apply C. left; auto.
    + cbn [priv]. discriminate.
    + rewrite Hhm, Nat.eqb_refl. cbn [hpart]. exists a, nx, q, L. repeat split; auto. { eapply hget_same; eauto. } eapply seg_ext; [|exact S]. intros x J. apply hget_other. intros ->. auto.
    + rewrite hget_other by auto. rewrite (i_tail _ _ _ I). f_equal. destruct (q_tm s) as [k|]; [|reflexivity]. cbn [opc]. destruct (Nat.eqb_spec k t); [subst; elim Ntm; auto|reflexivity].
    + keep I Hp.
  - (* PoTake *)
    specialize (Hhm eq_refl). pose proof (hd_owner _ _ _ _ I Hhm) as H. rewrite Hp in H. cbn [hpart] in H. destruct H as (a & nx & q' & L' & Ea & G & Eq & EL & S).
    unfold tau, goto, set_head; cbn [q_heap q_head q_tail q_hm q_tm q_size q_pcs]. rewrite Ea.
    eapply (heavy s q L t _ (PoNext v (Some a)) _ _ _ _ _ _ q L); [exact I|exact Ht|exact Hp|apply lock_keep|apply lock_keep|reflexivity| | | |apply (i_nodup _ _ _ I)|apply (i_last _ _ _ I)| |exact Logic.I| | |apply lm_stay].
    + intros k n N E. destruct (i_priv _ _ _ I k n E) as (A & B & C). auto.
    + cbn [priv]. discriminate.
    + rewrite Hhm, Nat.eqb_refl. cbn [hpart]. exists a, nx, q', L'. repeat split; auto.
    + rewrite (i_tail _ _ _ I). f_equal. destruct (q_tm s) as [k|]; [|reflexivity]. cbn [opc]. destruct (Nat.eqb_spec k t); [subst; elim Ntm; auto|reflexivity].
    + intros k N. apply loc_any. eapply other_h; eauto.
    + keep I Hp.
  - (* PoNext *)
    specialize (Hhm eq_refl). pose proof (hd_owner _ _ _ _ I Hhm) as H. rewrite Hp in H. cbn [hpart] in H. destruct H as (a & nx & q' & L' & Ea & Eo & G & Eq & EL & S). subst old. rewrite G.
    pose proof (i_nodup _ _ _ I) as ND. rewrite EL in ND. apply NoDup_cons_iff in ND. destruct ND as [ND1 ND2].
    assert (NT : a <> q_tail s) by (intros E; apply (i_last _ _ _ I); rewrite EL; left; auto).
    unfold tau, goto, set_heap, set_head; cbn [q_heap q_head q_tail q_hm q_tm q_size q_pcs].
    eapply (heavy s q L t _ (PoUnlock (Some v) (Some a)) _ _ _ _ _ _ q' L'); [exact I|exact Ht|exact Hp|apply lock_keep|apply lock_keep|reflexivity| | | |exact ND2| | |exact Logic.I| | |].
    + intros k n N E. destruct (i_priv _ _ _ I k n E) as (A & B & C). rewrite EL in C. split; [|split; [exact B|intros J; apply C; right; exact J]]. apply hget_other. intros ->. apply C. left; auto.
    + cbn [priv pdat]. intros n E. inversion E; subst n. split; [eapply hget_same; eauto|]. split; [exact NT|]. split; [exact ND1|].
      intros k N E'. destruct (i_priv _ _ _ I k a E') as (_ & _ & C). apply C. rewrite EL. left; auto.
    + rewrite Hhm, Nat.eqb_refl. cbn [hpart]. exists nx. split; [reflexivity|]. eapply seg_ext; [|exact S]. intros x J. apply hget_other. intros ->. auto.
    + intros J. apply (i_last _ _ _ I). rewrite EL. right; exact J.
    + rewrite hget_other by auto. rewrite (i_tail _ _ _ I). f_equal. destruct (q_tm s) as [k|]; [|reflexivity]. cbn [opc]. destruct (Nat.eqb_spec k t); [subst; elim Ntm; auto|reflexivity].
    + intros k N. apply loc_any. eapply other_h; eauto.
    + rewrite (i_size _ _ _ I). f_equal. subst q. cbn [length adj]. lia.
    + cbn [stat]. apply lm_lin. subst q. constructor.
  - (* PoUnlock *) specialize (Hhm eq_refl). lightstep I Hp; cbn [q_hm q_tm]; try lk; try keep I Hp; try exact Logic.I; try mv.
  - (* PoFree *) destruct old as [a|]; cbn [q_free].
    + destruct (PR a eq_refl) as (A & B & C). rewrite A. unfold ret, goto, set_heap; cbn [q_heap q_head q_tail q_hm q_tm q_size q_pcs].
      assert (OT : forall x, x <> a -> hget (hset (q_heap s) a None) x = hget (q_heap s) x) by (intros; apply hget_other; auto).
      eapply (heavy s q L t _ Idle _ _ _ _ _ _ q L); [exact I|exact Ht|exact Hp|apply lock_keep|apply lock_keep|reflexivity| | | |apply (i_nodup _ _ _ I)|apply (i_last _ _ _ I)| |exact Logic.I|intros; apply (i_loc _ _ _ I)| |apply lm_ret].
      * intros k n N E. destruct (i_priv _ _ _ I k n E) as (A' & B' & C'). split; [|auto]. apply OT. intros ->. apply N. apply (i_priv1 _ _ _ I k t a E). rewrite Hp. reflexivity.
      * cbn [priv]. discriminate.
      * replace (match q_hm s with Some k => if Nat.eqb k t then Idle else at_ (q_pcs s) k | None => Idle end) with (opc (q_pcs s) (q_hm s)).
        -- eapply hpart_ext; [|apply (i_head _ _ _ I)]. intros x E. apply OT. intros ->. auto.
        -- destruct (q_hm s) as [k|]; [|reflexivity]. cbn [opc]. destruct (Nat.eqb_spec k t); [subst; elim Nhm; auto|reflexivity].
      * rewrite OT by auto. rewrite (i_tail _ _ _ I). f_equal. destruct (q_tm s) as [k|]; [|reflexivity]. cbn [opc]. destruct (Nat.eqb_spec k t); [subst; elim Ntm; auto|reflexivity].
      * keep I Hp.
    + lightstep I Hp; try lk; try keep I Hp; try exact Logic.I; try mv.
  - (* EmLock *) unfold lock_head. destruct (q_hm s) as [k|] eqn:Em; [exact Logic.I|]. destruct c as [mv|]; [specialize (Hhm eq_refl); congruence|]. lightstep I Hp; cbn [q_hm q_tm]; try lk; try (rewrite Em; lk); try keep I Hp; try exact Logic.I; try mv.
  - (* EmHead *) destruct c; [discriminate|]. lightstep I Hp; try lk; try keep I Hp; try reflexivity; try mv.
  - (* EmTLock *) destruct c; [discriminate|]. unfold lock_tail. destruct (q_tm s) as [k|] eqn:Em; [exact Logic.I|]. lightstep I Hp; cbn [q_hm q_tm]; try lk; try (rewrite Em; lk); try keep I Hp; try exact LO; try mv.
  - (* EmTRead *) destruct c; [discriminate|]. cbn [loc] in LO. specialize (Hhm eq_refl). pose proof (empty_iff _ _ _ I) as EM. rewrite Hhm in EM. cbn [opc] in EM. rewrite Hp in EM. specialize (EM Logic.I). rewrite <- LO in EM.
    lightstep I Hp; try lk; try keep I Hp; try exact Logic.I. apply lm_lin. replace (eqo h (q_tail s)) with (match q with [] => true | _ => false end); [constructor|]. destruct (eqo h (q_tail s)) eqn:E; [rewrite (proj1 EM eq_refl); reflexivity|]. destruct q; [|reflexivity]. symmetry. apply (proj2 EM eq_refl).
  - (* EmTUnlock *) destruct c; [discriminate|]. specialize (Htm eq_refl). lightstep I Hp; cbn [q_hm q_tm]; try lk; try keep I Hp; try exact Logic.I; try mv.
  - (* EmUnlock *) destruct c; [discriminate|]. specialize (Hhm eq_refl). lightstep I Hp; cbn [q_hm q_tm]; try lk; try keep I Hp; try exact Logic.I; try mv.
  - (* ClLock *) unfold lock_head. destruct (q_hm s) as [k|] eqn:Em; [exact Logic.I|]. lightstep I Hp; cbn [q_hm q_tm]; try lk; try (rewrite Em; lk); try keep I Hp; try exact Logic.I; try mv.
  - (* SzRead *) lightstep I Hp; try lk; try keep I Hp; try exact Logic.I. apply lm_both. constructor.
Qed.
End Q.
