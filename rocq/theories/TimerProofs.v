(** Timer: strings, the map, execution of scoped programs. *)
From Coq Require Import ZArith List Bool Ascii String Lia Sorted.
From Verif Require Import Base TaskModel TimerSpec TimerModel.
Import List ListNotations.
Local Open Scope Z_scope.

(** * byte order *)
Definition slt (a b : string) : Prop := String.compare a b = Lt.
Lemma cmp_refl s : String.compare s s = Eq.
Proof. induction s as [|c s IH]; [reflexivity|]. cbn. unfold Ascii.compare. rewrite N.compare_refl. exact IH. Qed.
Lemma slt_irrefl s : ~ slt s s.
Proof. unfold slt. rewrite cmp_refl. discriminate. Qed.
Lemma slt_trans a : forall b c, slt a b -> slt b c -> slt a c.
Proof.
  unfold slt. induction a as [|x a IH]; intros [|y b] [|z c]; cbn; try discriminate; auto. unfold Ascii.compare.
  destruct (N.compare_spec (N_of_ascii x) (N_of_ascii y)) as [E1|L1|L1]; try discriminate; destruct (N.compare_spec (N_of_ascii y) (N_of_ascii z)) as [E2|L2|L2]; try discriminate; intros A B.
  - rewrite E1, E2, N.compare_refl. eapply IH; eauto.
  - rewrite E1, (proj2 (N.compare_lt_iff _ _) L2). reflexivity.
  - rewrite <- E2, (proj2 (N.compare_lt_iff _ _) L1). reflexivity.
  - rewrite (proj2 (N.compare_lt_iff (N_of_ascii x) (N_of_ascii z))) by lia. reflexivity.
Qed.
Lemma eqb_cmp a b : String.eqb a b = match String.compare a b with Eq => true | _ => false end.
Proof.
  destruct (String.compare a b) eqn:C.
  - apply String.compare_eq_iff in C. subst. apply String.eqb_refl.
  - apply String.eqb_neq. intros ->. rewrite cmp_refl in C. discriminate.
  - apply String.eqb_neq. intros ->. rewrite cmp_refl in C. discriminate.
Qed.
Lemma cmp_gt a b : String.compare a b = Gt -> slt b a.
Proof. intros C. unfold slt. rewrite String.compare_antisym, C. reflexivity. Qed.
(** characters not before '/' *)
Fixpoint high (s : string) : Prop := match s with EmptyString => True | String c r => (N_of_ascii "/" <= N_of_ascii c)%N /\ high r end.
Lemma between P : forall r x, high r -> slt P r -> slt r (P ++ ("/" ++ x)) -> exists y, r = (P ++ ("/" ++ y))%string.
Proof.
  unfold slt. induction P as [|p P IH]; intros [|c r] x H A B; cbn [String.append String.compare] in *; try discriminate.
  - destruct H as [H1 H2]. unfold Ascii.compare in B. destruct (N.compare_spec (N_of_ascii c) (N_of_ascii "/")) as [E|L|L]; try discriminate.
    + exists r. f_equal. rewrite <- (ascii_N_embedding c), E. reflexivity.
    + lia.
  - destruct H as [H1 H2]. unfold Ascii.compare in A, B. destruct (N.compare_spec (N_of_ascii p) (N_of_ascii c)) as [E|L|L]; try discriminate.
    + rewrite E, N.compare_refl in B. destruct (IH r x H2 A B) as [y ->]. exists y. assert (p = c) as -> by (rewrite <- (ascii_N_embedding p), E, ascii_N_embedding; reflexivity). reflexivity.
    + assert (X : (N_of_ascii c ?= N_of_ascii p)%N = Gt) by (apply N.compare_gt_iff; exact L). rewrite X in B. discriminate.
Qed.
Lemma slt_app P x : slt P (P ++ ("/" ++ x)).
Proof. unfold slt. induction P as [|p P IH]; [reflexivity|]. cbn. unfold Ascii.compare. rewrite N.compare_refl. exact IH. Qed.

(** * split and concat *)
Lemma plain_no_slash s : plain s -> no_slash s.
Proof. induction s as [|c s IH]; cbn; [auto|]. intros [A B]. split; [intros ->; exact (N.lt_irrefl _ A)|auto]. Qed.
Lemma psplit_nonempty s : psplit s <> [].
Proof. destruct s as [|c s]; cbn; [discriminate|]. destruct (Ascii.eqb c "/"); [discriminate|]. destruct (psplit s); discriminate. Qed.
Lemma psplit_name s : no_slash s -> psplit s = [s].
Proof. induction s as [|c s IH]; cbn; [reflexivity|]. intros [A B]. rewrite (IH B). destruct (Ascii.eqb_spec c "/"); [contradiction|reflexivity]. Qed.
Lemma psplit_app s : forall y, psplit (s ++ ("/" ++ y)) = psplit s ++ psplit y.
Proof.
  induction s as [|c s IH]; intros y; [reflexivity|]. change ((String c s ++ ("/" ++ y))%string) with (String c (s ++ ("/" ++ y))%string). cbn [psplit]. rewrite IH. destruct (Ascii.eqb c "/"); [reflexivity|]. pose proof (psplit_nonempty s). destruct (psplit s); [congruence|reflexivity].
Qed.
Lemma concat_cons a l : l <> [] -> String.concat "/" (a :: l) = (a ++ ("/" ++ String.concat "/" l))%string.
Proof. destruct l; [congruence|]. reflexivity. Qed.
Lemma psplit_concat l : l <> [] -> Forall no_slash l -> psplit (String.concat "/" l) = l.
Proof.
  induction l as [|a l IH]; intros NE F; [congruence|]. inversion F as [|? ? F1 F2]; subst. destruct l as [|b l]; [apply psplit_name; exact F1|]. rewrite concat_cons by discriminate. rewrite psplit_app, psplit_name by exact F1. rewrite IH by (try discriminate; exact F2). reflexivity.
Qed.
Lemma concat_inj l l' : l <> [] -> l' <> [] -> Forall no_slash l -> Forall no_slash l' -> String.concat "/" l = String.concat "/" l' -> l = l'.
Proof. intros A B C D E. rewrite <- (psplit_concat l A C), <- (psplit_concat l' B D), E. reflexivity. Qed.
Lemma app_assoc_s a b c : ((a ++ b) ++ c)%string = (a ++ (b ++ c))%string.
Proof. induction a as [|x a IH]; [reflexivity|]. cbn. f_equal. exact IH. Qed.
Lemma concat_snoc l x : l <> [] -> String.concat "/" (l ++ [x]) = (String.concat "/" l ++ ("/" ++ x))%string.
Proof.
  induction l as [|a l IH]; intros NE; [congruence|]. destruct l as [|b l]; [reflexivity|]. change ((a :: b :: l) ++ [x]) with (a :: ((b :: l) ++ [x])). rewrite (concat_cons a ((b :: l) ++ [x])) by discriminate. rewrite IH by discriminate. rewrite (concat_cons a (b :: l)) by discriminate. rewrite !app_assoc_s. reflexivity.
Qed.
Lemma high_app a b : high a -> high b -> high (a ++ b).
Proof. induction a as [|c a IH]; cbn; [auto|]. intros [A B] C. auto. Qed.
Lemma plain_high s : plain s -> high s.
Proof. induction s as [|c s IH]; cbn; [auto|]. intros [A B]. split; [lia|auto]. Qed.
Lemma concat_high l : Forall plain l -> high (String.concat "/" l).
Proof.
  induction l as [|a l IH]; intros F; [exact I|]. inversion F as [|? ? F1 F2]; subst. destruct l as [|b l]; [apply plain_high; exact F1|]. rewrite concat_cons by discriminate. apply high_app; [apply plain_high; exact F1|]. cbn [String.append high]. split; [lia|apply IH; exact F2].
Qed.
Lemma fullname_eq st : st <> [] -> fullname st = Ok (String.concat "/" st).
Proof.
  destruct st as [|s r]; [congruence|]. intros _. cbn [fullname]. f_equal. revert s. induction r as [|b r IH]; intros s; [reflexivity|]. cbn [fold_left]. rewrite IH. destruct r as [|c r]; [reflexivity|]. rewrite (concat_cons s (b :: c :: r)) by discriminate. rewrite (concat_cons b (c :: r)) by discriminate. rewrite concat_cons by discriminate. rewrite !app_assoc_s. reflexivity.
Qed.

(** * the map *)
Definition sorted (l : tmap) : Prop := StronglySorted (fun a b => slt (fst a) (fst b)) l.
Definition tval (k : string) (l : tmap) : Z := match tget k l with Some v => v | None => 0 end.
Lemma tget_low k l : Forall (fun a => slt k (fst a)) l -> tget k l = None.
Proof.
  induction l as [|[k' v] l IH]; intros F; [reflexivity|]. inversion F as [|? ? F1 F2]; subst. cbn [tget]. rewrite eqb_cmp. cbn in F1. unfold slt in F1. rewrite F1. auto.
Qed.
Lemma tadd_get k v l : sorted l -> forall q, tget q (tadd k v l) = if String.eqb q k then Some (tval k l + v) else tget q l.
Proof.
  induction l as [|[k' v'] l IH]; intros S q; [cbn; unfold tval; cbn; destruct (String.eqb q k); reflexivity|]. inversion S as [|? ? S1 S2]; subst. cbn [tadd]. destruct (String.compare k k') eqn:C.
  - apply String.compare_eq_iff in C. subst k'. cbn [tget]. unfold tval. cbn [tget]. rewrite String.eqb_refl. destruct (String.eqb q k); reflexivity.
  - cbn [tget]. destruct (String.eqb q k) eqn:Q; [|reflexivity]. unfold tval. rewrite tget_low; [reflexivity|]. constructor; [exact C|]. apply Forall_impl with (2 := S2). intros a X. eapply slt_trans; [exact C|exact X].
  - cbn [tget]. rewrite (IH S1). unfold tval. cbn [tget]. rewrite (eqb_cmp k k'), C. destruct (String.eqb q k') eqn:Q; [|reflexivity]. apply String.eqb_eq in Q. subst q. rewrite eqb_cmp. apply cmp_gt in C. unfold slt in C. rewrite C. reflexivity.
Qed.
Lemma tadd_keys k v l : forall a, In a (tadd k v l) -> fst a = k \/ exists b, In b l /\ fst a = fst b.
Proof.
  induction l as [|[k' v'] l IH]; intros a J; cbn [tadd] in J; [destruct J as [<-|[]]; auto|]. destruct (String.compare k k').
  - destruct J as [<-|J]; right; [exists (k', v'); cbn; auto|exists a; cbn; auto].
  - destruct J as [<-|J]; [auto|]. right. exists a. cbn. auto.
  - destruct J as [<-|J]; [right; exists (k', v'); cbn; auto|]. destruct (IH a J) as [X|(b & X & Y)]; [auto|]. right. exists b. cbn. auto.
Qed.
Lemma tadd_sorted k v l : sorted l -> sorted (tadd k v l).
Proof.
  induction l as [|[k' v'] l IH]; intros S; [repeat constructor|]. inversion S as [|? ? S1 S2]; subst. cbn [tadd]. destruct (String.compare k k') eqn:C.
  - constructor; [exact S1|exact S2].
  - constructor; [exact S|]. constructor; [exact C|]. apply Forall_impl with (2 := S2). intros a X. eapply slt_trans; [exact C|exact X].
  - constructor; [apply IH; exact S1|]. apply Forall_forall. intros a J. destruct (tadd_keys k v l a J) as [X|(b & X & Y)]; cbn [fst]; [rewrite X; apply cmp_gt; exact C|]. rewrite Y. rewrite Forall_forall in S2. exact (S2 b X).
Qed.
Definition tlog (rs : list (list string * Z)) (l : tmap) : tmap := fold_left (fun l r => tadd (String.concat "/" (fst r)) (snd r) l) rs l.
Lemma tlog_sorted rs : forall l, sorted l -> sorted (tlog rs l).
Proof. induction rs as [|r rs IH]; intros l S; [exact S|]. apply IH. apply tadd_sorted. exact S. Qed.
Lemma tlog_val rs : forall l k, sorted l -> tval k (tlog rs l) = tval k l + spent rs k.
Proof.
  induction rs as [|r rs IH]; intros l k S; [unfold spent; cbn; lia|]. unfold tlog. cbn [fold_left]. fold (tlog rs (tadd (String.concat "/" (fst r)) (snd r) l)). rewrite IH by (apply tadd_sorted; exact S).
  unfold tval at 1. rewrite tadd_get by exact S. unfold spent. cbn [filter]. rewrite (String.eqb_sym k). destruct (String.eqb_spec (String.concat "/" (fst r)) k) as [E|E]; [|fold (tval k l); reflexivity]. subst k. cbn [map sum fold_right]. unfold sum. lia.
Qed.
Lemma tlog_none rs : forall l k, sorted l -> tget k (tlog rs l) = None <-> tget k l = None /\ forall r, In r rs -> String.concat "/" (fst r) <> k.
Proof.
  induction rs as [|r rs IH]; intros l k S; [cbn; tauto|]. unfold tlog. cbn [fold_left]. fold (tlog rs (tadd (String.concat "/" (fst r)) (snd r) l)). rewrite IH by (apply tadd_sorted; exact S). rewrite tadd_get by exact S.
  destruct (String.eqb_spec k (String.concat "/" (fst r))) as [E|E].
  - split; [intros [X _]; discriminate|]. intros [_ X]. exfalso. apply (X r); [left; reflexivity|congruence].
  - split; intros [X Y]; (split; [exact X|]); [intros r' [<-|J]; [congruence|auto]|intros r' J; apply Y; right; exact J].
Qed.

(** * execution *)
Lemma removelast_snoc {A} (l : list A) x : removelast (l ++ [x]) = l.
Proof. apply removelast_last. Qed.
Lemma exec_recs p : forall pre act T rs act', recs p pre act = (rs, act') -> tm_exec p (mkTm pre T act) = Ok (mkTm pre (tlog rs T) act').
Proof.
  induction p as [|nm t0 t1 body IHb rest IHr|b rest IH]; intros pre act T rs act' E; cbn [recs] in E.
  - injection E as <- <-. reflexivity.
  - destruct act.
    + destruct (recs body (pre ++ [nm]) true) as [rb a1] eqn:B. destruct (recs rest pre a1) as [rr a2] eqn:R. injection E as <- <-. cbn [tm_exec]. unfold tm_start. cbn [tm_active tm_stack tm_times]. rewrite fullname_eq by (destruct pre; discriminate). cbn [bind].
      rewrite (IHb _ _ T _ _ B). cbn [bind]. unfold sw_stop. cbn [sw_parent tm_stack tm_times tm_active sw_name sw_start]. destruct (pre ++ [nm]) as [|x l] eqn:X; [destruct pre; discriminate|]. rewrite <- X. rewrite removelast_snoc. cbn [bind]. rewrite (IHr _ _ _ _ _ R). unfold tlog. rewrite fold_left_app. reflexivity.
    + destruct (recs body pre false) as [rb a1] eqn:B. destruct (recs rest pre a1) as [rr a2] eqn:R. injection E as <- <-. cbn [tm_exec]. unfold tm_start. cbn [tm_active bind]. rewrite (IHb _ _ T _ _ B). cbn [bind]. unfold sw_stop. cbn [sw_parent bind]. rewrite (IHr _ _ _ _ _ R). unfold tlog. rewrite fold_left_app. reflexivity.
  - cbn [tm_exec]. unfold tm_act. cbn [tm_stack tm_times]. apply IH. exact E.
Qed.
