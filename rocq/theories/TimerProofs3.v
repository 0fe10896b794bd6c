(** Times of nested scopes, and the percentages of the summary. *)
From Coq Require Import ZArith List Bool Ascii String Lia Sorted Arith.
From Verif Require Import Base TaskModel TimerSpec TimerModel TimerProofs TimerProofs2.
Import List ListNotations.
Local Open Scope Z_scope.

Section Sums.
  Context {A : Type}.
  Definition sumf (f : A * Z -> bool) (rs : list (A * Z)) : Z := sum (map snd (filter f rs)).
  Lemma sumf_app f a b : sumf f (a ++ b) = sumf f a + sumf f b.
  Proof. unfold sumf. rewrite filter_app, map_app. apply sum_app. Qed.
  Lemma sumf_cons f x b : sumf f (x :: b) = (if f x then snd x else 0) + sumf f b.
  Proof. unfold sumf. cbn [filter]. destruct (f x); [reflexivity|]. symmetry. apply Z.add_0_l. Qed.
  Lemma sumf_ext f g rs : (forall r, In r rs -> f r = g r) -> sumf f rs = sumf g rs.
  Proof. induction rs as [|x rs IH]; intros E; [reflexivity|]. rewrite !sumf_cons, (E x), IH; [reflexivity|intros r R; apply E; right; exact R|left; reflexivity]. Qed.
  Lemma sumf_none f rs : (forall r, In r rs -> f r = false) -> sumf f rs = 0.
  Proof. induction rs as [|x rs IH]; intros E; [reflexivity|]. rewrite sumf_cons, (E x (or_introl eq_refl)), IH; [lia|]. intros r R. apply E. right. exact R. Qed.
  Lemma sumf_mono f g rs : (forall r, In r rs -> 0 <= snd r) -> (forall r, In r rs -> f r = true -> g r = true) -> sumf f rs <= sumf g rs.
  Proof.
    induction rs as [|x rs IH]; intros P E; [reflexivity|]. rewrite !sumf_cons. pose proof (P x (or_introl eq_refl)). pose proof (E x (or_introl eq_refl)) as X.
    assert (sumf f rs <= sumf g rs) by (apply IH; intros r R; [apply P|apply E]; right; exact R). destruct (f x); [rewrite X by reflexivity|destruct (g x)]; lia.
  Qed.
  Lemma sumf_pos f rs : (forall r, In r rs -> 0 <= snd r) -> 0 <= sumf f rs.
  Proof. intros P. replace 0 with (sumf (fun _ => false) rs) by (apply sumf_none; reflexivity). apply sumf_mono; [exact P|discriminate]. Qed.
End Sums.
Definition path_eqb (p q : list string) : bool := if list_eq_dec string_dec p q then true else false.
Lemma path_eqb_t p q : path_eqb p q = true <-> p = q.
Proof. unfold path_eqb. destruct (list_eq_dec string_dec p q); split; congruence. Qed.
Definition at_path (q : list string) (r : list string * Z) : bool := path_eqb (fst r) q.
Definition under (q : list string) (r : list string * Z) : bool := path_eqb (removelast (fst r)) q.
Definition at_level (k : nat) (r : list string * Z) : bool := Nat.eqb (List.length (fst r)) k.

Lemma nonempty_last {A} (s : list A) : s <> [] -> exists t x, s = t ++ [x].
Proof. intros N. destruct (exists_last N) as (t & x & E). eauto. Qed.
Lemma removelast_pre {A} (pre s : list A) : s <> [] -> removelast (pre ++ s) = pre ++ removelast s.
Proof. intros N. destruct (nonempty_last s N) as (t & x & ->). rewrite app_assoc, !removelast_last. reflexivity. Qed.
Lemma removelast_len {A} (s : list A) : s <> [] -> List.length s = S (List.length (removelast s)).
Proof. intros N. destruct (nonempty_last s N) as (t & x & ->). rewrite removelast_last, app_length. cbn. lia. Qed.

(** the facts about records of one program *)
Record good (pre : list string) (nms : list string) (rs : list (list string * Z)) (span : Z) : Prop := {
  g_path : forall r, In r rs -> exists s, s <> [] /\ fst r = pre ++ s /\ incl s nms;
  g_pos : forall r, In r rs -> 0 <= snd r;
  g_lvl : 1000 * sumf (at_level (S (List.length pre))) rs <= span;
  g_child : forall q, (List.length pre < List.length q)%nat -> sumf (under q) rs <= sumf (at_path q) rs;
  g_closed : forall r, In r rs -> (S (List.length pre) < List.length (fst r))%nat -> exists r', In r' rs /\ fst r' = removelast (fst r) }.
Lemma timed_le p : forall a b, timed a p b -> a <= b.
Proof.
  induction p as [|nm t0 t1 body IB rest IR|b' rest IR]; intros a b T; cbn in T; [exact T| |auto]. destruct T as (A & B & C). apply IB in B. apply IR in C. lia.
Qed.
Lemma good_app pre n1 n2 r1 r2 s1 s2 : good pre n1 r1 s1 -> good pre n2 r2 s2 -> good pre (n1 ++ n2) (r1 ++ r2) (s1 + s2).
Proof.
  intros [P1 Q1 L1 C1 D1] [P2 Q2 L2 C2 D2]. split.
  - intros r R. apply in_app_iff in R. destruct R as [R|R]; [destruct (P1 r R) as (s & N & E & I)|destruct (P2 r R) as (s & N & E & I)]; exists s; split; auto; split; auto; intros x X; apply in_app_iff; [left|right]; auto.
  - intros r R. apply in_app_iff in R. destruct R; auto.
  - rewrite sumf_app. lia.
  - intros q H. rewrite !sumf_app. specialize (C1 q H). specialize (C2 q H). lia.
  - intros r R L. apply in_app_iff in R. destruct R as [R|R]; [destruct (D1 r R L) as (r' & A & B)|destruct (D2 r R L) as (r' & A & B)]; exists r'; split; auto; apply in_app_iff; auto.
Qed.
Lemma good_wider pre n1 n2 rs s1 s2 : good pre n1 rs s1 -> incl n1 n2 -> s1 <= s2 -> good pre n2 rs s2.
Proof.
  intros [P Q L C D] I S. split; auto; [|lia]. intros r R. destruct (P r R) as (s & N & E & J). exists s. split; [exact N|]. split; [exact E|]. intros x X. apply I, J, X.
Qed.
Lemma good_scope pre nm n rb t0 t1 : good (pre ++ [nm]) n rb (t1 - t0) -> 0 <= t1 - t0 -> good pre (nm :: n) (rb ++ [(pre ++ [nm], Z.quot (t1 - t0) 1000)]) (t1 - t0).
Proof.
  intros [P Q L C D] T. set (pre' := pre ++ [nm]) in *. set (d := Z.quot (t1 - t0) 1000). assert (LP : List.length pre' = S (List.length pre)) by (unfold pre'; rewrite app_length; cbn; lia).
  assert (D1 : 0 <= d /\ 1000 * d <= t1 - t0 < 1000 * d + 1000) by (unfold d; rewrite Z.quot_div_nonneg by lia; pose proof (Z.mod_pos_bound (t1 - t0) 1000); pose proof (Z.div_mod (t1 - t0) 1000); pose proof (Z.mul_div_le (t1 - t0) 1000); pose proof (Z.div_pos (t1 - t0) 1000); lia).
  assert (LB : forall r, In r rb -> (S (List.length pre) < List.length (fst r))%nat) by (intros r R; destruct (P r R) as (s & N & E & _); rewrite E, app_length; destruct s; [congruence|cbn; lia]).
  split.
  - intros r R. apply in_app_iff in R. destruct R as [R|[<-|[]]].
    + destruct (P r R) as (s & N & E & I). exists (nm :: s). split; [discriminate|]. split; [rewrite E; unfold pre'; rewrite <- app_assoc; reflexivity|]. intros x [X|X]; [left; exact X|right; auto].
    + exists [nm]. split; [discriminate|]. split; [reflexivity|]. intros x [X|[]]. left. exact X.
  - intros r R. apply in_app_iff in R. destruct R as [R|[<-|[]]]; [auto|cbn; lia].
  - rewrite sumf_app, sumf_none, sumf_cons; [unfold at_level at 1; cbn [fst snd]; rewrite LP, Nat.eqb_refl; change (sumf (at_level (S (List.length pre))) []) with 0; lia|]. intros r R. apply LB in R. unfold at_level. apply Nat.eqb_neq. lia.
  - intros q Hq. rewrite !sumf_app, !sumf_cons. cbn [snd]. assert (U : under q (pre', d) = false) by (unfold under, pre'; cbn [fst]; rewrite removelast_last; destruct (path_eqb pre q) eqn:E; [apply path_eqb_t in E; subst; lia|reflexivity]). rewrite U. change (sumf (under q) []) with 0. change (sumf (at_path q) []) with 0.
    destruct (Nat.eq_dec (List.length q) (List.length pre')) as [E|E].
    + rewrite (sumf_none (at_path q)) by (intros r R; apply LB in R; unfold at_path; destruct (path_eqb (fst r) q) eqn:X; [apply path_eqb_t in X; rewrite X in R; lia|reflexivity]).
      unfold at_path. cbn [fst]. destruct (path_eqb pre' q) eqn:X.
      * apply path_eqb_t in X. subst q. assert (sumf (under pre') rb <= sumf (at_level (S (List.length pre'))) rb); [|lia]. apply sumf_mono; [exact Q|]. intros r R U'. unfold under in U'. apply path_eqb_t in U'. unfold at_level. apply Nat.eqb_eq. rewrite removelast_len; [rewrite U'; reflexivity|]. intros Y. apply LB in R. rewrite Y in R. cbn in R. lia.
      * rewrite sumf_none; [lia|]. intros r R. unfold under. destruct (path_eqb (removelast (fst r)) q) eqn:Y; [|reflexivity]. exfalso. apply path_eqb_t in Y. destruct (P r R) as (s & N & ES & _). rewrite ES, removelast_pre in Y by exact N.
        assert (removelast s = []) as Z0 by (apply (f_equal (@List.length string)) in Y; rewrite app_length in Y; destruct (removelast s); [reflexivity|cbn in Y; lia]). rewrite Z0, app_nil_r in Y. subst q. assert (path_eqb pre' pre' = true) by (apply path_eqb_t; reflexivity). congruence.
    + assert (sumf (under q) rb <= sumf (at_path q) rb) by (apply C; lia). destruct (at_path q (pre', d)); lia.
  - intros r R LR. apply in_app_iff in R. destruct R as [R|[<-|[]]]; [|cbn [fst] in LR; lia]. destruct (Nat.eq_dec (List.length (fst r)) (S (List.length pre'))) as [E|E].
    + exists (pre', d). split; [apply in_app_iff; right; left; reflexivity|]. destruct (P r R) as (s & N & ES & _). cbn [fst]. rewrite ES, removelast_pre by exact N. rewrite ES, app_length in E. pose proof (removelast_len s N) as SL. assert (removelast s = []) as -> by (destruct (removelast s); [reflexivity|cbn in SL; lia]). rewrite app_nil_r. reflexivity.
    + pose proof (LB r R) as X. destruct (D r R) as (r' & A & B); [lia|]. exists r'. split; [apply in_app_iff; left; exact A|exact B].
Qed.
Lemma recs_good p : forall pre act rs act' a b, recs p pre act = (rs, act') -> timed a p b -> good pre (names p) rs (b - a).
Proof.
  induction p as [|nm t0 t1 body IB rest IR|b' rest IR]; intros pre act rs act' a b R T; cbn [recs timed names] in *.
  - injection R as <- <-. split; [intros ? []|intros ? []|cbn; lia|intros; reflexivity|intros ? []].
  - destruct T as (T0 & TB & TR). pose proof (timed_le _ _ _ TB) as TL. destruct act.
    + destruct (recs body (pre ++ [nm]) true) as [rb a1] eqn:B. destruct (recs rest pre a1) as [rr a2] eqn:RR. injection R as <- <-.
      pose proof (good_scope _ _ _ _ _ _ (IB _ _ _ _ _ _ B TB)) as G. specialize (G ltac:(lia)). pose proof (good_app _ _ _ _ _ _ _ G (IR _ _ _ _ _ _ RR TR)) as H. rewrite <- app_assoc in H. cbn [app] in H. apply good_wider with (1 := H); [intros x X; exact X|lia].
    + destruct (recs body pre false) as [rb a1] eqn:B. destruct (recs rest pre a1) as [rr a2] eqn:RR. injection R as <- <-.
      pose proof (good_app _ _ _ _ _ _ _ (IB _ _ _ _ _ _ B TB) (IR _ _ _ _ _ _ RR TR)) as H. apply good_wider with (1 := H); [intros x X; right; exact X|lia].
  - eapply IR; eauto.
Qed.

(** * the table of a program *)
Lemma total_cons x l : total (x :: l) = (if Nat.eqb (lev x) 1 then snd x else 0) + total l.
Proof. exact (sumf_cons (fun kv => Nat.eqb (lev kv) 1) x l). Qed.
Lemma tadd_total k v l : sorted l -> total (tadd k v l) = total l + if Nat.eqb (List.length (psplit k)) 1 then v else 0.
Proof.
  induction l as [|[k' v'] l IH]; intros S.
  - cbn [tadd]. rewrite total_cons. unfold lev. cbn [fst snd]. change (total []) with 0. lia.
  - inversion S as [|? ? S1 _]; subst. specialize (IH S1). cbn [tadd].
    pose proof total_cons as C.
    destruct (String.compare k k') eqn:E.
    + assert (k = k') as <- by (apply String.compare_eq_iff; exact E). rewrite !C. unfold lev. cbn [fst snd]. destruct (Nat.eqb (List.length (psplit k)) 1); lia.
    + rewrite !C. unfold lev. cbn [fst snd]. destruct (Nat.eqb (List.length (psplit k)) 1); lia.
    + rewrite !C, IH. lia.
Qed.
Lemma tlog_total rs : (forall r, In r rs -> fst r <> [] /\ Forall no_slash (fst r)) -> forall l, sorted l -> total (tlog rs l) = total l + sumf (at_level 1) rs.
Proof.
  induction rs as [|r rs IH]; intros G l S; [change (tlog [] l) with l; change (sumf (at_level 1) []) with 0; lia|]. cbn [tlog fold_left]. fold (tlog rs). rewrite sumf_cons. destruct (G r (or_introl eq_refl)) as [N NS].
  change (fold_left (fun l0 r0 => tadd (String.concat "/" (fst r0)) (snd r0) l0) rs (tadd (String.concat "/" (fst r)) (snd r) l)) with (tlog rs (tadd (String.concat "/" (fst r)) (snd r) l)).
  rewrite IH; [|intros r' R; apply G; right; exact R|apply tadd_sorted; exact S]. rewrite tadd_total by exact S. rewrite psplit_concat by assumption. unfold at_level. lia.
Qed.
Lemma tget_in l : sorted l -> forall kv, In kv l -> tget (fst kv) l = Some (snd kv).
Proof.
  induction l as [|[k v] l IH]; intros S kv I; [contradiction|]. inversion S as [|? ? S1 S2]; subst. cbn [tget]. destruct I as [<-|I]; [rewrite String.eqb_refl; reflexivity|].
  rewrite Forall_forall in S2. specialize (S2 kv I). cbn [fst] in S2. destruct (String.eqb_spec (fst kv) k) as [E|_]; [rewrite E in S2; destruct (slt_irrefl _ S2)|apply IH; assumption].
Qed.
Lemma tget_some l k v : tget k l = Some v -> In (k, v) l.
Proof. induction l as [|[k' v'] l IH]; cbn; [discriminate|]. destruct (String.eqb_spec k k') as [->|_]; [intros E; injection E as ->; left; reflexivity|right; auto]. Qed.
Definition prec (r : list string * Z) : Prop := fst r <> [] /\ Forall plain (fst r).
Lemma spent_path rs p : (forall r, In r rs -> prec r) -> p <> [] -> Forall plain p -> spent rs (key p) = sumf (at_path p) rs.
Proof.
  intros G N PL. unfold spent. fold (sumf (fun r => String.eqb (String.concat "/" (fst r)) (key p)) rs). apply sumf_ext. intros r R. destruct (G r R) as [N' PL']. unfold at_path. destruct (String.eqb_spec (String.concat "/" (fst r)) (key p)) as [E|E]; symmetry.
  - apply path_eqb_t. apply concat_inj; auto; apply plain_ns; assumption.
  - destruct (path_eqb (fst r) p) eqn:X; [apply path_eqb_t in X; subst p; destruct E; reflexivity|reflexivity].
Qed.
Section Table.
  Context (nms : list string) (rs : list (list string * Z)) (span : Z) (G : good [] nms rs span) (PN : Forall plain nms).
  Lemma t_prec r : In r rs -> prec r.
  Proof. intros R. destruct (g_path _ _ _ _ G r R) as (s & N & E & I). cbn in E. split; rewrite E; [exact N|]. apply Forall_forall. intros x X. rewrite Forall_forall in PN. apply PN, I, X. Qed.
  Definition T := tlog rs [].
  Lemma T_sorted : sorted T. Proof. apply tlog_sorted. constructor. Qed.
  Lemma T_key k : In k (map fst T) <-> exists r, In r rs /\ k = key (fst r).
  Proof.
    split.
    - intros I. apply in_map_iff in I. destruct I as ([k' v] & <- & I). cbn [fst]. pose proof (tget_in T T_sorted _ I) as X. cbn [fst snd] in X.
      destruct (tget k' (tlog rs [])) eqn:Y; [|unfold T in X; congruence].
      assert (H : exists r, In r rs /\ String.concat "/" (fst r) = k'); [|destruct H as (r & R & E); exists r; split; [exact R|symmetry; exact E]].
      destruct (find (fun r => String.eqb (String.concat "/" (fst r)) k') rs) eqn:F.
      + apply find_some in F. destruct F as [F1 F2]. apply String.eqb_eq in F2. eauto.
      + exfalso. assert (Hn : tget k' (tlog rs []) = None); [|congruence]. apply tlog_none; [constructor|]. split; [reflexivity|]. intros r R E. pose proof (find_none _ _ F r R) as W. cbn in W. rewrite E, String.eqb_refl in W. discriminate.
    - intros (r & R & ->). destruct (tget (key (fst r)) T) eqn:Y; [apply tget_some in Y; apply in_map_iff; exists (key (fst r), z); auto|]. exfalso. unfold T in Y. apply tlog_none in Y; [|constructor]. destruct Y as [_ Y]. apply (Y r R). reflexivity.
  Qed.
  Lemma T_val kv : In kv T -> snd kv = spent rs (fst kv).
  Proof. intros I. pose proof (tget_in T T_sorted kv I) as X. pose proof (tlog_val rs [] (fst kv) ltac:(constructor)) as Y. unfold tval in Y. unfold T in X. rewrite X in Y. cbn in Y. exact Y. Qed.
  Lemma T_table : table T.
  Proof.
    split; [exact T_sorted|]. split.
    - intros kv I. assert (K : In (fst kv) (map fst T)) by (apply in_map; exact I). apply T_key in K. destruct K as (r & R & E). destruct (t_prec r R). exists (fst r). auto.
    - intros p x N PL I. apply T_key in I. destruct I as (r & R & E). destruct (t_prec r R) as [N' PL'].
      assert (E' : p ++ [x] = fst r) by (apply concat_inj; [destruct p; discriminate|exact N'|apply plain_ns; exact PL|apply plain_ns; exact PL'|exact E]).
      destruct (g_closed _ _ _ _ G r R) as (r' & A & B); [rewrite <- E', app_length; destruct p; [congruence|cbn; lia]|]. apply T_key. exists r'. split; [exact A|]. rewrite B, <- E', removelast_last. reflexivity.
  Qed.
  Lemma T_total : total T = sumf (at_level 1) rs.
  Proof. unfold T. rewrite tlog_total; [reflexivity| |constructor]. intros r R. destruct (t_prec r R). split; [assumption|apply plain_ns; assumption]. Qed.
  Lemma T_nonneg kv : In kv T -> 0 <= snd kv.
  Proof.
    intros I. rewrite T_val by exact I. apply (sumf_pos (fun r => String.eqb (String.concat "/" (fst r)) (fst kv))). intros r R. apply (g_pos _ _ _ _ G r R).
  Qed.
  Lemma T_parent p x : p <> [] -> Forall plain (p ++ [x]) -> spent rs (key (p ++ [x])) <= spent rs (key p).
  Proof.
    intros N PL. rewrite !spent_path; auto using t_prec; try (destruct p; discriminate); [|apply Forall_app in PL; apply PL].
    etransitivity; [|apply (g_child _ _ _ _ G p); destruct p; [congruence|cbn; lia]]. apply sumf_mono; [apply (g_pos _ _ _ _ G)|]. intros r R E. unfold at_path in E. apply path_eqb_t in E. unfold under. apply path_eqb_t. rewrite E. apply removelast_last.
  Qed.
  Lemma T_level1 x : plain x -> spent rs (key [x]) <= total T.
  Proof.
    intros P. rewrite T_total, spent_path; auto using t_prec; [|discriminate]. apply sumf_mono; [apply (g_pos _ _ _ _ G)|]. intros r R E. unfold at_path in E. apply path_eqb_t in E. unfold at_level. rewrite E. reflexivity.
  Qed.
  Lemma T_le p : p <> [] -> Forall plain p -> spent rs (key p) <= total T.
  Proof.
    induction p as [|x p IH] using rev_ind; [congruence|]. intros _ PL. destruct p as [|y p]; [apply T_level1; inversion PL; assumption|]. etransitivity; [apply T_parent; [discriminate|exact PL]|]. apply IH; [discriminate|]. apply Forall_app in PL. apply PL.
  Qed.
  Lemma T_span : 1000 * total T <= span. Proof. rewrite T_total. apply (g_lvl _ _ _ _ G). Qed.
End Table.

(** * percentages *)
Lemma pct_range t T : 0 <= t <= T -> -1 <= pct t T <= 100.
Proof.
  intros H. unfold pct. destruct (Z.eqb_spec T 0) as [E|E]; [lia|]. split; [pose proof (Z.div_pos (100 * t) T); lia|]. apply Z.div_le_upper_bound; lia.
Qed.
Lemma to_int_small z : 0 <= z < 2 ^ 31 -> to_int z = z.
Proof. intros H. unfold to_int. rewrite Z.mod_small by lia. replace (z <? 2 ^ 31) with true by (symmetry; apply Z.ltb_lt; lia). reflexivity. Qed.
Lemma calc_ok t tot par : 0 <= t <= tot -> tot <= 21474836 -> match par with Some q => t <= q <= tot | None => True end ->
  calc_stats t tot par = Ok (pct t tot, match par with Some q => pct t q | None => pct t t end).
Proof.
  intros H B P. unfold calc_stats. cbv zeta. set (pt := match par with Some p => p | None => t end). assert (PT : t <= pt <= tot) by (unfold pt; destruct par; lia). assert (PP : match par with Some q => pct t q | None => pct t t end = pct t pt) by (unfold pt; destruct par; reflexivity). rewrite PP. clearbody pt. clear P PP.
  rewrite !to_int_small by lia.
  assert (E1 : (if tot =? 0 then Ok (-1) else (do x <- imul 100 t ; (if int_ok (Z.quot x tot) then Ok (Z.quot x tot) else UB))) = Ok (pct t tot)).
  { unfold pct. destruct (Z.eqb_spec tot 0) as [E|E]; [reflexivity|]. unfold imul. replace (int_ok (100 * t)) with true by (symmetry; unfold int_ok; apply andb_true_intro; split; [apply Z.leb_le|apply Z.ltb_lt]; lia). cbn [bind]. rewrite Z.quot_div_nonneg by lia. pose proof (pct_range t tot H) as R. unfold pct in R. replace (tot =? 0) with false in R by (symmetry; apply Z.eqb_neq; exact E). replace (int_ok (100 * t / tot)) with true by (symmetry; unfold int_ok; apply andb_true_intro; split; [apply Z.leb_le|apply Z.ltb_lt]; lia). reflexivity. }
  rewrite E1. cbn [bind].
  assert (E2 : (if pt =? 0 then Ok (-1) else if long_ok (100 * t) then (if long_ok (Z.quot (100 * t) pt) then Ok (to_int (Z.quot (100 * t) pt)) else UB) else UB) = Ok (pct t pt)).
  { unfold pct. destruct (Z.eqb_spec pt 0) as [E|E]; [reflexivity|]. pose proof (pct_range t pt ltac:(lia)) as R. unfold pct in R. replace (pt =? 0) with false in R by (symmetry; apply Z.eqb_neq; exact E). replace (long_ok (100 * t)) with true by (symmetry; unfold long_ok; apply andb_true_intro; split; [apply Z.leb_le|apply Z.ltb_lt]; lia). rewrite Z.quot_div_nonneg by lia. assert (0 <= 100 * t / pt) by (apply Z.div_pos; lia). replace (long_ok (100 * t / pt)) with true by (symmetry; unfold long_ok; apply andb_true_intro; split; [apply Z.leb_le|apply Z.ltb_lt]; lia). rewrite to_int_small by lia. reflexivity. }
  rewrite E2. reflexivity.
Qed.
(** the row that the summary is to show for a path *)
Definition row (rs : list (list string * Z)) (tot : Z) (kv : string * Z) : list string * Z * Z * Z :=
  let p := psplit (fst kv) in (p, snd kv, pct (snd kv) tot, pct (snd kv) (if Nat.eqb (List.length p) 1 then tot else spent rs (key (removelast p)))).
Lemma rows_map es f : (forall i, (S i < List.length es)%nat -> exists e, nth_error es (S i) = Some e /\ exists s, entry_stats es (S i) = Ok s /\ f i = (pe_name e, pe_time e, fst s, snd s)) ->
  forall n k, (k + n < List.length es)%nat -> rows es (seq (S k) n) = Ok (map f (seq k n)).
Proof.
  intros H. induction n as [|n IH]; intros k L; [reflexivity|]. cbn [seq rows map]. destruct (H k ltac:(lia)) as (e & E & s & S & F). rewrite E, S. cbn [bind]. rewrite IH by lia. cbn [bind]. rewrite F. reflexivity.
Qed.
Lemma summary_rows nms rs span : good [] nms rs span -> Forall plain nms -> span < 21474837000 ->
  print_summary (tlog rs []) = Ok (map (row rs (total (tlog rs []))) (tlog rs [])).
Proof.
  intros G PN SP. unfold print_summary. rewrite entries_len. cbn [Nat.sub]. rewrite Nat.sub_0_r. set (l := tlog rs []). pose proof (T_table nms rs span G PN) as TB. change (table l) in TB.
  pose proof (T_span nms rs span G PN) as TS. change (1000 * total l <= span) in TS.
  rewrite (rows_map _ (fun i => row rs (total l) (nth i l (EmptyString, 0)))).
  - f_equal. rewrite <- map_map with (f := fun i => nth i l (EmptyString, 0)). f_equal. clear. induction l as [|x l IH]; [reflexivity|]. cbn [List.length seq map]. f_equal. rewrite <- seq_shift, map_map. exact IH.
  - intros i Hi. rewrite entries_len in Hi. destruct (nth_error l i) as [kv|] eqn:N; [|apply nth_error_None in N; lia]. rewrite (nth_error_nth _ _ _ N).
    pose proof (nth_error_In _ _ N) as I. destruct (table_parent l i kv TB N) as (p & NE & PL & K & SPL & H). pose proof (T_val rs kv I) as V. pose proof (T_nonneg nms rs span G kv I) as NN.
    pose proof (T_le nms rs span G PN p NE PL) as LE. change (spent rs (key p) <= total l) in LE. rewrite <- K, <- V in LE.
    assert (R : get_root (List.length (summary_entries l)) (summary_entries l) (S i) = Ok 0%nat) by (apply table_root; [exact TB| |rewrite entries_len]; lia).
    destruct H as [[L1 E]|(j & kv' & x & EP & QN & JI & J & K' & SP' & E)].
    + eexists. split; [exact E|]. exists (pct (snd kv) (total l), pct (snd kv) (total l)). split.
      * unfold entry_stats. rewrite E, R. cbn [bind]. rewrite entries_root. cbn [pe_parent pe_time]. rewrite entries_root. cbn [option_map pe_time]. apply calc_ok; lia.
      * cbn [pe_name pe_time fst snd]. unfold row. rewrite SPL, L1. reflexivity.
    + eexists. split; [exact E|]. pose proof (nth_error_In _ _ J) as I'. pose proof (T_val rs kv' I') as V'.
      assert (EJ : exists e', nth_error (summary_entries l) (S j) = Some e' /\ pe_time e' = snd kv') by (destruct (entries_inv l) as (ps & _ & _ & I3 & _); specialize (I3 j kv' J); eexists; split; [exact I3|reflexivity]).
      destruct EJ as (e' & EJ & TE). rewrite K' in V'.
      assert (PQ : Forall plain (removelast p)) by (rewrite EP in PL; apply Forall_app in PL; apply PL).
      assert (LE1 : snd kv <= snd kv') by (rewrite V, V', K, EP, removelast_last; apply (T_parent nms rs span G PN); [exact QN|rewrite <- EP; exact PL]).
      pose proof (T_le nms rs span G PN (removelast p) QN PQ) as LE2. change (spent rs (key (removelast p)) <= total l) in LE2. rewrite <- V' in LE2.
      exists (pct (snd kv) (total l), pct (snd kv) (snd kv')). split.
      * unfold entry_stats. rewrite E, R. cbn [bind]. rewrite entries_root. cbn [pe_parent pe_time]. rewrite EJ. cbn [option_map]. rewrite TE. apply calc_ok; lia.
      * cbn [pe_name pe_time fst snd]. unfold row. rewrite SPL. replace (Nat.eqb (List.length p) 1) with false by (symmetry; apply Nat.eqb_neq; rewrite (removelast_len p NE); destruct (removelast p); [congruence|cbn; lia]). rewrite V'. reflexivity.
  - rewrite entries_len. lia.
Qed.
