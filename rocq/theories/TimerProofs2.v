(** The profile summary: parents and totals. *)
From Coq Require Import ZArith List Bool Ascii String Lia Sorted Arith.
From Verif Require Import Base TaskModel TimerSpec TimerModel TimerProofs.
Import List ListNotations.
Local Open Scope Z_scope.

Definition lev (kv : string * Z) : nat := List.length (psplit (fst kv)).
Lemma lev_pos kv : (1 <= lev kv)%nat.
Proof. unfold lev. pose proof (psplit_nonempty (fst kv)). destruct (psplit (fst kv)); [congruence|cbn; lia]. Qed.
(** the last entry of a level; entries are numbered from 1 *)
Fixpoint llf (i : nat) (acc : option nat) (l : tmap) (k : nat) : option nat :=
  match l with [] => acc | kv :: r => llf (S i) (if Nat.eqb (lev kv) k then Some i else acc) r k end.
Definition ll (l : tmap) (k : nat) : option nat := llf 1 None l k.
Lemma llf_snoc l : forall i acc kv k, llf i acc (l ++ [kv]) k = if Nat.eqb (lev kv) k then Some (i + List.length l)%nat else llf i acc l k.
Proof. induction l as [|x l IH]; intros i acc kv k; cbn [llf app]; [rewrite Nat.add_0_r; reflexivity|]. rewrite IH. cbn [List.length]. rewrite Nat.add_succ_r. reflexivity. Qed.
Lemma ll_snoc l kv k : ll (l ++ [kv]) k = if Nat.eqb (lev kv) k then Some (S (List.length l)) else ll l k.
Proof. unfold ll. rewrite llf_snoc. reflexivity. Qed.
Lemma ll_last l : forall j kv k, nth_error l j = Some kv -> lev kv = k -> (forall j' kv', (j < j')%nat -> nth_error l j' = Some kv' -> lev kv' <> k) -> ll l k = Some (S j).
Proof.
  induction l as [|x l IH] using rev_ind; intros j kv k N L A; [destruct j; discriminate|]. rewrite ll_snoc. assert (JL : (j < List.length (l ++ [x]))%nat) by (apply nth_error_Some; congruence). rewrite app_length in JL. cbn in JL.
  destruct (Nat.eq_dec j (List.length l)) as [E|E].
  - subst j. rewrite nth_error_app2, Nat.sub_diag in N by lia. cbn in N. injection N as ->. rewrite L, Nat.eqb_refl. reflexivity.
  - rewrite nth_error_app1 in N by lia. destruct (Nat.eqb_spec (lev x) k) as [X|X].
    + exfalso. apply (A (List.length l) x); [lia|rewrite nth_error_app2, Nat.sub_diag by lia; reflexivity|exact X].
    + apply (IH j kv k N L). intros j' kv' J N'. apply (A j' kv' J). rewrite nth_error_app1; [exact N'|]. apply nth_error_Some. congruence.
Qed.
Definition total (l : tmap) : Z := sum (map snd (filter (fun kv => Nat.eqb (lev kv) 1) l)).
Lemma sum_app a b : sum (a ++ b) = sum a + sum b.
Proof. unfold sum. induction a as [|x a IH]; cbn; [lia|]. rewrite IH. lia. Qed.
Lemma total_snoc l kv : total (l ++ [kv]) = total l + if Nat.eqb (lev kv) 1 then snd kv else 0.
Proof. unfold total. rewrite filter_app, map_app, sum_app. cbn [filter]. destruct (Nat.eqb (lev kv) 1); cbn; lia. Qed.
Lemma nth_upd {A} (f : A -> A) d : forall l i j, (i < List.length l)%nat -> nth j (upd i f l) d = if Nat.eqb j i then f (nth i l d) else nth j l d.
Proof.
  induction l as [|x l IH]; intros i j L; [cbn in L; lia|]. destruct i as [|i], j as [|j]; cbn [upd nth Nat.eqb]; try reflexivity. apply IH. cbn in L. lia.
Qed.
Lemma nth_error_upd {A} (f : A -> A) : forall l i j, nth_error (upd i f l) j = if Nat.eqb j i then option_map f (nth_error l j) else nth_error l j.
Proof.
  induction l as [|x l IH]; intros i j; [destruct i, j; cbn; try reflexivity; destruct (Nat.eqb j i); reflexivity|]. destruct i as [|i], j as [|j]; cbn [upd nth_error Nat.eqb option_map]; try reflexivity. apply IH.
Qed.
Lemma upd_len {A} (f : A -> A) : forall l i, List.length (upd i f l) = List.length l.
Proof. induction l as [|x l IH]; intros [|i]; cbn; auto. Qed.
Lemma nth_pad {A} (l : list (option A)) n k : nth k (l ++ repeat None n) None = nth k l None.
Proof.
  destruct (Nat.lt_ge_cases k (List.length l)) as [L|L]; [apply app_nth1; exact L|]. rewrite app_nth2 by lia. rewrite (nth_overflow l) by lia. generalize (k - List.length l)%nat. induction n as [|n IH]; intros [|i]; cbn; auto.
Qed.

(** the loop invariant *)
Definition pe_inv (l : tmap) (es : list PE) (ps : list (option nat)) : Prop :=
  List.length es = S (List.length l) /\
  nth_error es 0 = Some (mkPE ["top"%string] (total l) None) /\
  (forall i kv, nth_error l i = Some kv -> nth_error es (S i) = Some (mkPE (psplit (fst kv)) (snd kv) (if Nat.eqb (lev kv) 1 then Some 0%nat else ll (firstn i l) (lev kv - 1)))) /\
  (1 <= List.length ps)%nat /\ nth 0 ps None = Some 0%nat /\ (forall k, (1 <= k)%nat -> nth k ps None = ll l k).
Lemma pe_step l es ps kv : pe_inv l es ps -> pe_inv (l ++ [kv]) (fst (pe_add es ps kv)) (snd (pe_add es ps kv)).
Proof.
  intros (I1 & I2 & I3 & I4 & I5 & I6). unfold pe_add. fold (lev kv). set (k := lev kv). set (ps1 := if Nat.leb (List.length ps) k then _ else ps). cbn [fst snd].
  assert (K1 : (1 <= k)%nat) by apply lev_pos.
  assert (P1 : forall j, nth j ps1 None = nth j ps None) by (intros j; unfold ps1; destruct (Nat.leb (List.length ps) k); [apply nth_pad|reflexivity]).
  assert (PL : (k < List.length ps1)%nat) by (unfold ps1; destruct (Nat.leb_spec (List.length ps) k); [rewrite app_length, repeat_length; lia|lia]).
  assert (PAR : nth (k - 1) (upd k (fun _ => Some (List.length es)) ps1) None = if Nat.eqb k 1 then Some 0%nat else ll l (k - 1)).
  { rewrite nth_upd by exact PL. replace (Nat.eqb (k - 1) k) with false by (symmetry; apply Nat.eqb_neq; lia). rewrite P1. destruct (Nat.eqb_spec k 1) as [E|E]; [rewrite E; exact I5|apply I6; lia]. }
  rewrite PAR.
  set (e := mkPE (psplit (fst kv)) (snd kv) (if Nat.eqb k 1 then Some 0%nat else ll l (k - 1))). set (es1 := es ++ [e]).
  set (es2 := if Nat.eqb k 1 then upd 0 (fun e0 => mkPE (pe_name e0) (pe_time e0 + snd kv) (pe_parent e0)) es1 else es1).
  assert (E0 : nth_error es1 0 = Some (mkPE ["top"%string] (total l) None)) by (unfold es1; rewrite nth_error_app1 by lia; exact I2).
  assert (ES : forall j, nth_error es2 (S j) = nth_error es1 (S j)) by (intros j; unfold es2; destruct (Nat.eqb k 1); [rewrite nth_error_upd; reflexivity|reflexivity]).
  split; [|split; [|split; [|split; [|split]]]].
  - replace (List.length es2) with (List.length es1) by (unfold es2; destruct (Nat.eqb k 1); [rewrite upd_len|]; reflexivity). unfold es1. rewrite !app_length. cbn. lia.
  - rewrite total_snoc. fold k. unfold es2. destruct (Nat.eqb k 1); [rewrite nth_error_upd; cbn [Nat.eqb]; rewrite E0; reflexivity|rewrite E0, Z.add_0_r; reflexivity].
  - intros i kv' N. rewrite ES. destruct (Nat.eq_dec i (List.length l)) as [X|X].
    + subst i. rewrite nth_error_app2, Nat.sub_diag in N by lia. cbn in N. injection N as <-. unfold es1. rewrite nth_error_app2 by lia. replace (S (List.length l) - List.length es)%nat with 0%nat by lia. cbn [nth_error]. unfold e. fold k. rewrite firstn_app, Nat.sub_diag, firstn_O, app_nil_r, firstn_all. reflexivity.
    + assert (LT : (i < List.length (l ++ [kv]))%nat) by (apply nth_error_Some; congruence). rewrite app_length in LT. cbn in LT. rewrite nth_error_app1 in N by lia. unfold es1. rewrite nth_error_app1 by lia. rewrite (I3 i kv' N). rewrite firstn_app. replace (i - List.length l)%nat with 0%nat by lia. rewrite firstn_O, app_nil_r. reflexivity.
  - rewrite upd_len. lia.
  - rewrite nth_upd by exact PL. replace (Nat.eqb 0 k) with false by (symmetry; apply Nat.eqb_neq; lia). rewrite P1. exact I5.
  - intros j J. rewrite nth_upd by exact PL. rewrite ll_snoc. fold k. rewrite (Nat.eqb_sym k j). destruct (Nat.eqb j k); [rewrite I1; reflexivity|rewrite P1; apply I6; exact J].
Qed.
Lemma pe_fold l2 : forall l1 s, pe_inv l1 (fst s) (snd s) -> let s' := fold_left (fun s kv => pe_add (fst s) (snd s) kv) l2 s in pe_inv (l1 ++ l2) (fst s') (snd s').
Proof.
  induction l2 as [|kv l2 IH]; intros l1 s I; [rewrite app_nil_r; exact I|]. cbn [fold_left]. change (l1 ++ kv :: l2) with (l1 ++ ([kv] ++ l2)). rewrite app_assoc. apply IH. apply pe_step. exact I.
Qed.
(** every entry's parent is the last entry before it that is one level up *)
Lemma entries_inv l : exists ps, pe_inv l (summary_entries l) ps.
Proof.
  eexists. apply (pe_fold l [] ([mkPE (psplit "top") 0 None], [Some 0%nat])). split; [reflexivity|]. split; [reflexivity|]. split; [intros [|i] kv N; discriminate|]. split; [cbn; lia|]. split; [reflexivity|]. intros [|[|k]] K; [lia|reflexivity|reflexivity].
Qed.
Lemma entries_len l : List.length (summary_entries l) = S (List.length l).
Proof. destruct (entries_inv l) as (ps & I). apply I. Qed.
Lemma entries_root l : nth_error (summary_entries l) 0 = Some (mkPE ["top"%string] (total l) None).
Proof. destruct (entries_inv l) as (ps & I). apply I. Qed.

(** * paths *)
Definition key (p : list string) : string := String.concat "/" p.
(** a table whose keys are paths of plain names, in byte order, with all parents *)
Definition table (l : tmap) : Prop :=
  sorted l /\ (forall kv, In kv l -> exists p, p <> [] /\ Forall plain p /\ fst kv = key p) /\
  (forall p x, p <> [] -> Forall plain (p ++ [x]) -> In (key (p ++ [x])) (map fst l) -> In (key p) (map fst l)).
Lemma sorted_nth l : sorted l -> forall i j a b, (i < j)%nat -> nth_error l i = Some a -> nth_error l j = Some b -> slt (fst a) (fst b).
Proof.
  induction l as [|x l IH]; intros S i j a b L A B; [destruct i; discriminate|]. inversion S as [|? ? S1 S2]; subst. destruct j as [|j]; [lia|]. destruct i as [|i]; cbn in A, B.
  - injection A as <-. rewrite Forall_forall in S2. apply S2. eapply nth_error_In; eauto.
  - apply (IH S1 i j); auto. lia.
Qed.
Lemma plain_ns p : Forall plain p -> Forall no_slash p.
Proof. intros F. apply Forall_impl with (2 := F). apply plain_no_slash. Qed.
Lemma table_parent l i kv : table l -> nth_error l i = Some kv -> exists p, p <> [] /\ Forall plain p /\ fst kv = key p /\ psplit (fst kv) = p /\
  ((List.length p = 1%nat /\ nth_error (summary_entries l) (S i) = Some (mkPE p (snd kv) (Some 0%nat))) \/
   (exists j kv' x, p = removelast p ++ [x] /\ removelast p <> [] /\ (j < i)%nat /\ nth_error l j = Some kv' /\ fst kv' = key (removelast p) /\ psplit (fst kv') = removelast p /\
     nth_error (summary_entries l) (S i) = Some (mkPE p (snd kv) (Some (S j))))).
Proof.
  intros (SO & KE & CL) N. destruct (KE kv (nth_error_In _ _ N)) as (p & NE & PL & K). exists p. split; [exact NE|]. split; [exact PL|]. split; [exact K|].
  assert (SP : psplit (fst kv) = p) by (rewrite K; apply psplit_concat; [exact NE|apply plain_ns; exact PL]). split; [exact SP|].
  destruct (entries_inv l) as (ps & I1 & I2 & I3 & _). specialize (I3 i kv N). assert (LV : lev kv = List.length p) by (unfold lev; rewrite SP; reflexivity). rewrite SP, LV in I3.
  destruct (Nat.eqb_spec (List.length p) 1) as [E|E]; [left; split; [exact E|exact I3]|right].
  destruct (exists_last NE) as (q & x & EP). clear SP. subst p. rewrite removelast_last. assert (QN : q <> []) by (intros ->; cbn in E; lia).
  assert (KI : In (key q) (map fst l)) by (apply (CL q x QN PL); rewrite <- K; apply in_map; eapply nth_error_In; eauto). apply in_map_iff in KI. destruct KI as (kv' & K' & J). apply In_nth_error in J. destruct J as [j J].
  assert (KX : key (q ++ [x]) = (key q ++ ("/" ++ x))%string) by (apply concat_snoc; exact QN).
  assert (JI : (j < i)%nat).
  { destruct (lt_eq_lt_dec j i) as [[X|X]|X]; [exact X| |]; exfalso.
    - subst j. rewrite N in J. injection J as <-. rewrite K in K'. rewrite KX in K'. apply (slt_irrefl (key q)). rewrite <- K' at 2. apply slt_app.
    - pose proof (sorted_nth l SO i j _ _ X N J) as Y. rewrite K, K', KX in Y. apply (slt_irrefl (key q)). eapply slt_trans; [apply slt_app|exact Y]. }
  apply Forall_app in PL. destruct PL as [PQ PX]. assert (SP' : psplit (fst kv') = q) by (rewrite K'; apply psplit_concat; [exact QN|apply plain_ns; exact PQ]).
  exists j, kv', x. split; [reflexivity|]. split; [exact QN|]. split; [exact JI|]. split; [exact J|]. split; [exact K'|]. split; [exact SP'|]. rewrite I3. f_equal. f_equal.
  apply (ll_last (firstn i l) j kv').
  - rewrite <- J. rewrite <- (firstn_skipn i l) at 2. rewrite nth_error_app1; [reflexivity|]. rewrite firstn_length_le; [lia|]. assert (i < List.length l)%nat by (apply nth_error_Some; congruence). lia.
  - unfold lev. rewrite SP', app_length. cbn. lia.
  - intros j' kv2 JJ N2. assert (J'I : (j' < i)%nat) by (assert (X : (j' < List.length (firstn i l))%nat) by (apply nth_error_Some; congruence); rewrite firstn_length in X; lia).
    assert (N2' : nth_error l j' = Some kv2). { rewrite <- N2. rewrite <- (firstn_skipn i l) at 1. apply nth_error_app1. apply nth_error_Some. congruence. }
    destruct (KE kv2 (nth_error_In _ _ N2')) as (p2 & NE2 & PL2 & K2).
    destruct (between (key q) (fst kv2) x) as [y Y].
    + rewrite K2. apply concat_high. exact PL2.
    + rewrite <- K'. eapply sorted_nth; [exact SO| |exact J|exact N2']. exact JJ.
    + rewrite <- KX, <- K. eapply sorted_nth; [exact SO| |exact N2'|exact N]. exact J'I.
    + unfold lev. rewrite Y, psplit_app. assert (psplit (key q) = q) as -> by (apply psplit_concat; [exact QN|apply plain_ns; exact PQ]). rewrite !app_length. pose proof (psplit_nonempty y). destruct (psplit y); [congruence|]. cbn. lia.
Qed.
Lemma table_root l : table l -> forall i fuel, (i <= List.length l)%nat -> (i < fuel)%nat -> get_root fuel (summary_entries l) i = Ok 0%nat.
Proof.
  intros T. induction i as [i IH] using lt_wf_ind. intros [|f] L FU; [lia|]. cbn [get_root]. destruct i as [|i]; [rewrite entries_root; reflexivity|].
  destruct (nth_error l i) as [kv|] eqn:N; [|apply nth_error_None in N; lia]. destruct (table_parent l i kv T N) as (p & _ & _ & _ & _ & [[_ E]|(j & kv' & x & _ & _ & JI & _ & _ & _ & E)]); rewrite E; cbn [pe_parent].
  - apply IH; lia.
  - apply IH; lia.
Qed.
