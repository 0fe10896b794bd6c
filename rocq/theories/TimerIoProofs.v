(** The output side of the timer: invariants over sequences of calls. *)
From Coq Require Import ZArith List Bool String Lia.
From Verif Require Import Base TimerModel TimerProofs TimerProofs3 TimerIoSpec TimerIoModel.
Import ListNotations.

Definition recorded (cs : list call) : tmap := fold_left (fun l c => match c with CRec k v => tadd k v l | _ => l end) cs [].
Lemma n_open_app a b : n_open (a ++ b) = n_open a + n_open b.
Proof. unfold n_open. rewrite filter_app, app_length. reflexivity. Qed.
Lemma recorded_snoc cs c : recorded (cs ++ [c]) = match c with CRec k v => tadd k v (recorded cs) | _ => recorded cs end.
Proof. unfold recorded. rewrite fold_left_app. reflexivity. Qed.
Record inv (cs : list call) (t : Tio) (e : list ev) : Prop := {
  iv_io : last_out cs (ti_io t); iv_act : last_act cs (ti_active t); iv_pr : ti_printed t = existsb prints cs; iv_file : ti_file t = existsb opens cs;
  iv_next : ti_next t = n_open cs; iv_times : ti_times t = recorded cs;
  iv_close : forall s, ~ In (EClose s) e; iv_open : forall i, (exists name, In (EOpen i name) e) <-> i < n_open cs;
  iv_pages : existsb prints cs = false -> forall s r, ~ In (EPage s r) e
}.
Lemma last_out_skip cs c s : opens c = false -> redirects c = false -> last_out cs s -> last_out (cs ++ [c]) s.
Proof.
  intros H1 H2 H. destruct H as [cs H|cs s rest H|cs name rest H].
  - apply LoNone. intros d [Hd|[<-|[]]]%in_app_iff; auto.
  - rewrite <- app_assoc. cbn [app]. apply LoStream. intros d [Hd|[<-|[]]]%in_app_iff; auto.
  - rewrite <- app_assoc. cbn [app]. apply LoFile. intros d [Hd|[<-|[]]]%in_app_iff; auto.
Qed.
Lemma last_act_skip cs c b : (forall b', c <> CAct b') -> last_act cs b -> last_act (cs ++ [c]) b.
Proof.
  intros H1 H. destruct H as [cs H|cs b rest H].
  - apply LaNone. intros b' [Hd|[E|[]]]%in_app_iff; [exact (H b' Hd)|exact (H1 b' E)].
  - rewrite <- app_assoc. cbn [app]. apply LaSome. intros b' [Hd|[E|[]]]%in_app_iff; [exact (H b' Hd)|exact (H1 b' E)].
Qed.
Lemma inv_new : inv [] ti_new [].
Proof.
  constructor; try reflexivity.
  - apply LoNone. intros c [].
  - apply LaNone. intros b [].
  - intros s [].
  - intros i. split; [intros [name []]|]. unfold n_open. cbn. lia.
  - intros _ s r [].
Qed.
Lemma inv_step cs t e c t' e' : inv cs t e -> ti_step c t = Ok (t', e') -> inv (cs ++ [c]) t' (e ++ e').
Proof.
  intros I E. destruct I as [Io Ia Ip If In' It Ic Iop Ipg].
  assert (Nadd : n_open (cs ++ [c]) = n_open cs + if opens c then 1 else 0) by (rewrite n_open_app; unfold n_open at 2; cbn [filter]; destruct (opens c); reflexivity).
  destruct c as [s|name ok|b|k v| |l]; cbn [ti_step] in E.
  - injection E as <- <-. rewrite app_nil_r. constructor; cbn [ti_io ti_active ti_printed ti_file ti_next ti_times]; rewrite ?existsb_app, ?recorded_snoc, ?Nadd; cbn [existsb prints opens]; rewrite ?orb_false_r, ?Nat.add_0_r; auto.
    + apply (LoStream cs s []). intros c [].
    + apply last_act_skip; auto. intros; discriminate.
  - destruct ok; injection E as <- <-.
    + constructor; cbn [ti_io ti_active ti_printed ti_file ti_next ti_times]; rewrite ?existsb_app, ?recorded_snoc, ?Nadd; cbn [existsb prints opens]; rewrite ?orb_false_r, ?orb_true_r, ?Nat.add_0_r; auto.
      * rewrite In'. apply (LoFile cs name []). intros c [].
      * apply last_act_skip; auto. intros; discriminate.
      * lia.
      * intros s [H|[H|[]]]%in_app_iff; [exact (Ic s H)|discriminate].
      * intros i. split.
        -- intros [nm [H|[H|[]]]%in_app_iff]; [assert (i < n_open cs) by (apply Iop; eauto); lia|]. injection H as <- _. lia.
        -- intros H. destruct (Nat.eq_dec i (n_open cs)) as [->|Hne]; [exists name; apply in_app_iff; right; left; rewrite In'; reflexivity|].
           destruct (proj2 (Iop i) ltac:(lia)) as [nm Hn]. exists nm. apply in_app_iff. auto.
      * intros Hp s r [H|[H|[]]]%in_app_iff; [exact (Ipg Hp s r H)|discriminate].
    + constructor; rewrite ?existsb_app, ?recorded_snoc, ?Nadd; cbn [existsb prints opens]; rewrite ?orb_false_r, ?Nat.add_0_r; auto.
      * apply last_out_skip; auto.
      * apply last_act_skip; auto. intros; discriminate.
      * intros s [H|[H|[]]]%in_app_iff; [exact (Ic s H)|discriminate].
      * intros i. rewrite <- Iop. split; intros [nm H]; exists nm; [apply in_app_iff in H; destruct H as [H|[H|[]]]; [exact H|discriminate]|apply in_app_iff; auto].
      * intros Hp s r [H|[H|[]]]%in_app_iff; [exact (Ipg Hp s r H)|discriminate].
  - injection E as <- <-. rewrite app_nil_r. constructor; cbn [ti_io ti_active ti_printed ti_file ti_next ti_times]; rewrite ?existsb_app, ?recorded_snoc, ?Nadd; cbn [existsb prints opens]; rewrite ?orb_false_r, ?Nat.add_0_r; auto.
    + apply last_out_skip; auto.
    + apply (LaSome cs b []). intros b' [].
  - injection E as <- <-. rewrite app_nil_r. constructor; cbn [ti_io ti_active ti_printed ti_file ti_next ti_times]; rewrite ?existsb_app, ?recorded_snoc, ?Nadd; cbn [existsb prints opens]; rewrite ?orb_false_r, ?Nat.add_0_r; auto.
    + apply last_out_skip; auto.
    + apply last_act_skip; auto. intros; discriminate.
    + rewrite It. reflexivity.
  - unfold ti_print in E. destruct (print_summary (ti_times t)) as [r| | | | |]; try discriminate. cbn [bind] in E. injection E as <- <-.
    constructor; cbn [ti_io ti_active ti_printed ti_file ti_next ti_times]; rewrite ?existsb_app, ?recorded_snoc, ?Nadd; cbn [existsb prints opens]; rewrite ?orb_false_r, ?orb_true_r, ?Nat.add_0_r; auto.
    + apply last_out_skip; auto.
    + apply last_act_skip; auto. intros; discriminate.
    + intros s [H|[H|[]]]%in_app_iff; [exact (Ic s H)|discriminate].
    + intros i. rewrite <- Iop. split; intros [nm H]; exists nm; [apply in_app_iff in H; destruct H as [H|[H|[]]]; [exact H|discriminate]|apply in_app_iff; auto].
    + discriminate.
  - unfold ti_print in E. destruct (print_summary l) as [r| | | | |]; try discriminate. cbn [bind] in E. injection E as <- <-.
    constructor; cbn [ti_io ti_active ti_printed ti_file ti_next ti_times]; rewrite ?existsb_app, ?recorded_snoc, ?Nadd; cbn [existsb prints opens]; rewrite ?orb_false_r, ?orb_true_r, ?Nat.add_0_r; auto.
    + apply last_out_skip; auto.
    + apply last_act_skip; auto. intros; discriminate.
    + intros s [H|[H|[]]]%in_app_iff; [exact (Ic s H)|discriminate].
    + intros i. rewrite <- Iop. split; intros [nm H]; exists nm; [apply in_app_iff in H; destruct H as [H|[H|[]]]; [exact H|discriminate]|apply in_app_iff; auto].
    + discriminate.
Qed.
Lemma inv_run : forall cs' cs t e t' e', inv cs t e -> ti_run cs' t = Ok (t', e') -> inv (cs ++ cs') t' (e ++ e').
Proof.
  induction cs' as [|c r IH]; intros cs t e t' e' I E; cbn [ti_run] in E.
  - injection E as <- <-. rewrite !app_nil_r. exact I.
  - destruct (ti_step c t) as [[t1 e1]| | | | |] eqn:E1; try discriminate. cbn [bind] in E.
    destruct (ti_run r t1) as [[t2 e2]| | | | |] eqn:E2; try discriminate. cbn [bind] in E. injection E as <- <-.
    pose proof (IH (cs ++ [c]) t1 (e ++ e1) t2 e2 (inv_step cs t e c t1 e1 I E1) E2) as K. rewrite <- !app_assoc in K. exact K.
Qed.
Lemma run_throw : forall cs t t' e nm, ti_run cs t = Ok (t', e) -> In (EThrow nm) e -> In (CFile nm false) cs.
Proof.
  induction cs as [|c r IH]; intros t t' e nm E H; cbn [ti_run] in E; [injection E as <- <-; destruct H|].
  destruct (ti_step c t) as [[t1 e1]| | | | |] eqn:E1; try discriminate. cbn [bind] in E. destruct (ti_run r t1) as [[t2 e2]| | | | |] eqn:E2; try discriminate. cbn [bind] in E. injection E as <- <-.
  apply in_app_iff in H. destruct H as [H|H]; [left|right; exact (IH _ _ _ _ E2 H)].
  destruct c as [s|n [|]|b|k v| |l]; cbn [ti_step] in E1; unfold ti_print in E1; try (injection E1 as <- <-; destruct H as [H|[]]; try discriminate H; injection H as ->; reflexivity); try (injection E1 as <- <-; destruct H).
  - destruct (print_summary (ti_times t)) as [q| | | | |]; try discriminate. injection E1 as <- <-. destruct H as [H|[]]. discriminate H.
  - destruct (print_summary l) as [q| | | | |]; try discriminate. injection E1 as <- <-. destruct H as [H|[]]. discriminate H.
Qed.
Lemma life_throw cs log nm : ti_life cs = Ok log -> In (EThrow nm) log -> In (CFile nm false) cs.
Proof.
  unfold ti_life. destruct (ti_run cs ti_new) as [[t e]| | | | |] eqn:E; try discriminate. cbn [bind]. unfold ti_destroy.
  destruct (negb (ti_printed t) && ti_active t).
  - unfold ti_print. destruct (print_summary (ti_times t)) as [q| | | | |]; try discriminate. cbn [bind ti_file ti_io]. intros L H. injection L as <-. apply in_app_iff in H. destruct H as [H|H]; [exact (run_throw _ _ _ _ _ E H)|].
    destruct (ti_file t); cbn in H; intuition discriminate.
  - cbn [bind]. intros L H. injection L as <-. apply in_app_iff in H. destruct H as [H|H]; [exact (run_throw _ _ _ _ _ E H)|]. destruct (ti_file t); cbn in H; intuition discriminate.
Qed.
(** the log of a whole life *)
Lemma life_log cs log : ti_life cs = Ok log -> exists s act e r, last_out cs s /\ last_act cs act /\
  (existsb prints cs = false -> act = true -> print_summary (recorded cs) = Ok r) /\
  log = e ++ (if negb (existsb prints cs) && act then [EPage s r] else []) ++ (if existsb opens cs then [EClose s] else []) /\
  (forall x, ~ In (EClose x) e) /\ (forall i, (exists name, In (EOpen i name) e) <-> i < n_open cs) /\ (existsb prints cs = false -> forall x y, ~ In (EPage x y) e).
Proof.
  unfold ti_life. destruct (ti_run cs ti_new) as [[t e]| | | | |] eqn:E; try discriminate. cbn [bind].
  pose proof (inv_run cs [] ti_new [] t e inv_new E) as [Io Ia Ip If In' It Ic Iop Ipg]. cbn [app] in *.
  unfold ti_destroy. rewrite Ip. destruct (negb (existsb prints cs) && ti_active t) eqn:Q.
  - unfold ti_print. rewrite It. destruct (print_summary (recorded cs)) as [r| | | | |] eqn:ER; try discriminate. cbn [bind ti_file ti_io]. intros L. injection L as <-.
    exists (ti_io t), (ti_active t), e, r. rewrite Q, If. repeat (split; [auto|]); auto.
  - cbn [bind]. intros L. injection L as <-. exists (ti_io t), (ti_active t), e, []. rewrite Q, If. split; [auto|]. split; [auto|]. split; [|auto].
    intros H1 H2. rewrite H1, H2 in Q. discriminate.
Qed.
Lemma run_ok cs : existsb prints cs = false -> forall t, exists t' e', ti_run cs t = Ok (t', e').
Proof.
  induction cs as [|c r IH]; intros H t; cbn [ti_run]; [eauto|]. cbn [existsb] in H. apply orb_false_iff in H. destruct H as [H1 H2].
  assert (exists t1 e1, ti_step c t = Ok (t1, e1)) as (t1 & e1 & ->).
  { destruct c as [s|nm [|]|b|k v| |l]; try discriminate; cbn; eauto. }
  cbn [bind]. destruct (IH H2 t1) as (t2 & e2 & ->). cbn [bind]. eauto.
Qed.
Lemma life_ok cs r : existsb prints cs = false -> print_summary (recorded cs) = Ok r -> exists log, ti_life cs = Ok log.
Proof.
  intros H Hr. unfold ti_life. destruct (run_ok cs H ti_new) as (t & e & E). rewrite E. cbn [bind].
  pose proof (inv_run cs [] ti_new [] t e inv_new E) as [_ _ _ _ _ It _ _ _]. cbn [app] in It. unfold ti_destroy, ti_print. rewrite It, Hr.
  destruct (negb (ti_printed t) && ti_active t); cbn [bind]; eauto.
Qed.
Lemma opens_n cs : existsb opens cs = negb (Nat.eqb (n_open cs) 0).
Proof. unfold n_open. induction cs as [|c r IH]; [reflexivity|]. cbn [existsb filter]. destruct (opens c); [reflexivity|exact IH]. Qed.
(** the two determined facts about a call list are functions of it *)
Lemma none_false (P : call -> bool) l : (forall c, In c l -> P c = false) -> existsb P l = false.
Proof. intros H. destruct (existsb P l) eqn:E; [|reflexivity]. apply existsb_exists in E. destruct E as (c & Hc & E). rewrite H in E by exact Hc. discriminate. Qed.
Lemma last_split (P : call -> bool) : forall a x b a' x' b', a ++ x :: b = a' ++ x' :: b' -> P x = true -> P x' = true ->
  (forall c, In c b -> P c = false) -> (forall c, In c b' -> P c = false) -> a = a' /\ x = x' /\ b = b'.
Proof.
  induction a as [|c a IH]; intros x b a' x' b' E Hx Hx' Hb Hb'.
  - destruct a' as [|c' a']; cbn in E; injection E as <- E; [auto|]. exfalso. subst b. specialize (Hb x' ltac:(apply in_app_iff; right; left; reflexivity)). congruence.
  - destruct a' as [|c' a']; cbn in E; injection E as -> E.
    + exfalso. subst b'. specialize (Hb' x ltac:(apply in_app_iff; right; left; reflexivity)). congruence.
    + destruct (IH x b a' x' b' E Hx Hx' Hb Hb') as (-> & -> & ->). auto.
Qed.
Definition sets (c : call) : bool := opens c || redirects c.
Lemma last_out_fun cs s : last_out cs s -> forall s', last_out cs s' -> s = s'.
Proof.
  intros H s' H'.
  assert (N : forall c, opens c = false /\ redirects c = false -> sets c = false) by (intros c [A B]; unfold sets; rewrite A, B; reflexivity).
  remember cs as cs2 eqn:EE in H'.
  destruct H as [cs H|cs s rest H|cs nm rest H], H' as [cs' G|cs' q rest' G|cs' nm' rest' G]; try subst cs'; auto.
  - destruct (H (CStream q) ltac:(rewrite <- EE; apply in_app_iff; right; left; reflexivity)) as [_ X]. discriminate X.
  - destruct (H (CFile nm' true) ltac:(rewrite <- EE; apply in_app_iff; right; left; reflexivity)) as [X _]. discriminate X.
  - destruct (G (CStream s) ltac:(apply in_app_iff; right; left; reflexivity)) as [_ X]. discriminate X.
  - destruct (last_split sets _ _ _ _ _ _ EE eq_refl eq_refl (fun c Hc => N c (G c Hc)) (fun c Hc => N c (H c Hc))) as (_ & X & _). injection X as ->. reflexivity.
  - destruct (last_split sets _ _ _ _ _ _ EE eq_refl eq_refl (fun c Hc => N c (G c Hc)) (fun c Hc => N c (H c Hc))) as (_ & X & _). discriminate X.
  - destruct (G (CFile nm true) ltac:(apply in_app_iff; right; left; reflexivity)) as [X _]. discriminate X.
  - destruct (last_split sets _ _ _ _ _ _ EE eq_refl eq_refl (fun c Hc => N c (G c Hc)) (fun c Hc => N c (H c Hc))) as (_ & X & _). discriminate X.
  - destruct (last_split sets _ _ _ _ _ _ EE eq_refl eq_refl (fun c Hc => N c (G c Hc)) (fun c Hc => N c (H c Hc))) as (-> & _ & _). reflexivity.
Qed.
Definition is_act (c : call) : bool := match c with CAct _ => true | _ => false end.
Lemma last_act_fun cs s : last_act cs s -> forall s', last_act cs s' -> s = s'.
Proof.
  intros H s' H'.
  assert (N : forall l : list call, (forall b, ~ In (CAct b) l) -> forall c, In c l -> is_act c = false) by (intros l Hl c Hc; destruct c; auto; exfalso; exact (Hl _ Hc)).
  remember cs as cs2 eqn:EE in H'. destruct H as [cs H|cs s rest H], H' as [cs' G|cs' q rest' G]; try subst cs'; auto.
  - exfalso. apply (H q). rewrite <- EE. apply in_app_iff. right. left. reflexivity.
  - exfalso. apply (G s). apply in_app_iff. right. left. reflexivity.
  - destruct (last_split is_act _ _ _ _ _ _ EE eq_refl eq_refl (N _ G) (N _ H)) as (_ & X & _). injection X as ->. reflexivity.
Qed.
(** one close *)
Lemma life_close cs log s : ti_life cs = Ok log -> last_out cs s -> forall x, In (EClose x) log <-> existsb opens cs = true /\ x = s.
Proof.
  intros E L x. destruct (life_log cs log E) as (s' & act & e & r & L' & _ & _ & -> & Hc & _). rewrite <- (last_out_fun cs s L s' L').
  rewrite !in_app_iff. destruct (existsb opens cs); destruct (negb (existsb prints cs) && act); split; intros H;
    repeat match goal with H : _ \/ _ |- _ => destruct H | H : In _ [_] |- _ => destruct H | H : In _ [] |- _ => destruct H | H : _ /\ _ |- _ => destruct H end;
    try (exfalso; eapply Hc; eassumption); try discriminate; try congruence; subst; cbn; auto.
  all: match goal with H : EClose _ = EClose _ |- _ => injection H as <- | _ => idtac end; auto.
Qed.
Lemma life_open cs log i : ti_life cs = Ok log -> (exists name, In (EOpen i name) log) <-> i < n_open cs.
Proof.
  intros E. destruct (life_log cs log E) as (s' & act & e & r & _ & _ & _ & -> & _ & Ho & _). rewrite <- Ho. split; intros [nm H]; exists nm.
  - rewrite !in_app_iff in H. destruct H as [H|[H|H]]; [exact H| |]; exfalso.
    + destruct (negb (existsb prints cs) && act); cbn in H; intuition discriminate.
    + destruct (existsb opens cs); cbn in H; intuition discriminate.
  - apply in_app_iff. auto.
Qed.
Lemma clean_iff cs log : (forall c, In c cs -> user_call c) -> ti_life cs = Ok log ->
  (clean log <-> n_open cs = 0 \/ exists pre name rest, cs = pre ++ CFile name true :: rest /\ n_open pre = 0 /\ forall c, In c rest -> opens c = false /\ redirects c = false).
Proof.
  intros U E. destruct (life_log cs log E) as (s & act & e & r & L & _). pose proof (life_close cs log s E L) as HC. pose proof (fun i => life_open cs log i E) as HO.
  rewrite opens_n in HC. split.
  - intros C. destruct (Nat.eq_dec (n_open cs) 0) as [Z|NZ]; [auto|right].
    apply Nat.eqb_neq in NZ. rewrite NZ in HC. apply Nat.eqb_neq in NZ. cbn in HC.
    assert (N1 : n_open cs = 1).
    { destruct (Nat.eq_dec (n_open cs) 1) as [|N1]; [auto|exfalso].
      destruct (proj2 (HO 0) ltac:(lia)) as [n0 H0]. destruct (proj2 (HO 1) ltac:(lia)) as [n1 H1].
      assert (A : In (EClose (SFile 0)) log) by (apply C; eauto). assert (B : In (EClose (SFile 1)) log) by (apply C; eauto).
      apply HC in A. apply HC in B. destruct A as [_ A], B as [_ B]. congruence. }
    assert (S0 : s = SFile 0).
    { destruct (proj2 (HO 0) ltac:(lia)) as [n0 H0]. assert (A : In (EClose (SFile 0)) log) by (apply C; eauto). apply HC in A. destruct A; auto. }
    destruct L as [cs H|cs s rest H|cs name rest H].
    + discriminate S0.
    + exfalso. subst s. apply (U (CStream (SFile 0))). apply in_app_iff. right. left. reflexivity.
    + exists cs, name, rest. injection S0 as S0. auto.
  - intros [Z|(pre & name & rest & -> & HZ & HR)].
    + intros x. rewrite HC, Z. cbn. split; [intros [X _]; discriminate X|]. intros (i & nm & _ & Hi). exfalso. assert (i < n_open cs) by (apply HO; eauto). lia.
    + assert (N1 : n_open (pre ++ CFile name true :: rest) = 1).
      { rewrite n_open_app, HZ. unfold n_open. cbn [filter opens List.length]. replace (filter opens rest) with (@nil call); [reflexivity|].
        clear - HR. induction rest as [|c rest IH]; [reflexivity|]. cbn [filter]. destruct (HR c (or_introl eq_refl)) as [-> _]. apply IH. intros d Hd. apply HR. right. exact Hd. }
      pose proof (last_out_fun _ _ L _ (LoFile pre name rest HR)) as S0. rewrite HZ in S0. subst s. rewrite N1 in HC, HO. intros x. rewrite HC. cbn. split.
      * intros [_ ->]. destruct (proj2 (HO 0) ltac:(lia)) as [nm H]. eauto.
      * intros (i & nm & -> & Hi). split; [reflexivity|]. assert (i < 1) by (apply HO; eauto). f_equal. lia.
Qed.
Lemma life_pages cs log s act : ti_life cs = Ok log -> last_out cs s -> last_act cs act -> existsb prints cs = false ->
  (act = true -> exists r, print_summary (recorded cs) = Ok r /\ forall x y, In (EPage x y) log <-> x = s /\ y = r) /\ (act = false -> forall x y, ~ In (EPage x y) log).
Proof.
  intros E L A P. destruct (life_log cs log E) as (s' & act' & e & r & L' & A' & R & -> & _ & _ & Hp).
  rewrite <- (last_out_fun cs s L s' L'). rewrite <- (last_act_fun cs act A act' A') in *. rewrite P. cbn [negb andb]. specialize (Hp P). split.
  - intros ->. exists r. split; [apply R; auto|]. intros x y. rewrite !in_app_iff. split.
    + intros [H|[[H|[]]|H]]; [exfalso; exact (Hp x y H)|injection H as -> ->; auto|]. destruct (existsb opens cs); cbn in H; intuition discriminate.
    + intros [-> ->]. right. left. left. reflexivity.
  - intros -> x y H. rewrite !in_app_iff in H. destruct H as [H|[[]|H]]; [exact (Hp x y H)|]. destruct (existsb opens cs); cbn in H; intuition discriminate.
Qed.

(** * solves *)
Notation n_file := files_asked.
Lemma recs_quiet l c : In c (map (fun kv : string * Z => CRec (fst kv) (snd kv)) l) -> opens c = false /\ redirects c = false /\ prints c = false /\ is_act c = false.
Proof. rewrite in_map_iff. intros (kv & <- & _). auto. Qed.
Lemma filter_nil {A} (f : A -> bool) l : (forall c, In c l -> f c = false) -> filter f l = [].
Proof. induction l as [|c l IH]; intros H; [reflexivity|]. cbn. rewrite H by (left; auto). apply IH. intros; apply H; right; auto. Qed.
Lemma solve_n_open p : n_open (al_solve_calls p) = if ps_tofile p then 1 else 0.
Proof.
  unfold al_solve_calls, profiler_output, n_open. cbn [filter opens]. rewrite filter_app, app_length, (filter_nil opens (map _ _)) by (intros c Hc; apply (recs_quiet _ _ Hc)).
  destruct (ps_tofile p); reflexivity.
Qed.
Lemma solves_n_open ps : n_open (flat_map al_solve_calls ps) = n_file ps.
Proof. induction ps as [|p ps IH]; [reflexivity|]. cbn [flat_map]. rewrite n_open_app, IH, solve_n_open. unfold files_asked. cbn [filter]. destruct (ps_tofile p); reflexivity. Qed.
Lemma solves_no_print ps : existsb prints (flat_map al_solve_calls ps) = false.
Proof.
  apply none_false. intros c. rewrite in_flat_map. intros (p & _ & H). unfold al_solve_calls, profiler_output in H.
  destruct H as [<-|H]; [reflexivity|]. apply in_app_iff in H. destruct H as [H|H]; [|apply (recs_quiet _ _ H)]. destruct (ps_tofile p), H as [<-|[]]; reflexivity.
Qed.
Lemma solves_out ps p : last_out (flat_map al_solve_calls (ps ++ [p])) (if ps_tofile p then SFile (n_file ps) else SOut).
Proof.
  rewrite flat_map_app. cbn [flat_map]. rewrite app_nil_r. unfold al_solve_calls at 2. unfold profiler_output.
  assert (Q : forall c, In c (map (fun kv : string * Z => CRec (fst kv) (snd kv)) (ps_recs p)) -> opens c = false /\ redirects c = false) by (intros c Hc; destruct (recs_quiet _ _ Hc) as (A & B & _); auto).
  set (A := flat_map al_solve_calls ps). destruct (ps_tofile p); cbn [app].
  - replace (A ++ CAct (ps_enable p) :: CFile (ps_path p) true :: map (fun kv => CRec (fst kv) (snd kv)) (ps_recs p)) with ((A ++ [CAct (ps_enable p)]) ++ CFile (ps_path p) true :: map (fun kv => CRec (fst kv) (snd kv)) (ps_recs p)) by (rewrite <- app_assoc; reflexivity).
    replace (n_file ps) with (n_open (A ++ [CAct (ps_enable p)])) by (rewrite n_open_app; unfold A; rewrite solves_n_open; unfold n_open; cbn; lia). apply LoFile. exact Q.
  - replace (A ++ CAct (ps_enable p) :: CStream SOut :: map (fun kv => CRec (fst kv) (snd kv)) (ps_recs p)) with ((A ++ [CAct (ps_enable p)]) ++ CStream SOut :: map (fun kv => CRec (fst kv) (snd kv)) (ps_recs p)) by (rewrite <- app_assoc; reflexivity).
    apply LoStream. exact Q.
Qed.
Lemma solves_act ps p : last_act (flat_map al_solve_calls (ps ++ [p])) (ps_enable p).
Proof.
  rewrite flat_map_app. cbn [flat_map]. rewrite app_nil_r. unfold al_solve_calls at 2. apply LaSome. intros b H. apply in_app_iff in H. destruct H as [H|H].
  - unfold profiler_output in H. destruct (ps_tofile p), H as [H|[]]; discriminate.
  - destruct (recs_quiet _ _ H) as (_ & _ & _ & X). discriminate X.
Qed.
Lemma ilqr_calls ps c : In c (flat_map ilqr_solve_calls ps) -> opens c = false /\ redirects c = false /\ prints c = false /\ forall nm, c <> CFile nm false.
Proof.
  rewrite in_flat_map. intros (p & _ & H). destruct H as [<-|H]; [repeat split; discriminate|]. destruct (recs_quiet _ _ H) as (A & B & C & _). repeat split; auto.
  intros nm ->. apply in_map_iff in H. destruct H as (kv & X & _). discriminate X.
Qed.
Lemma recorded_spec cs : sorted (recorded cs) /\ forall k, tget k (recorded cs) = rec_sum cs k.
Proof.
  induction cs as [|c cs IH] using rev_ind; [split; [constructor|reflexivity]|]. destruct IH as [S IH]. rewrite recorded_snoc.
  assert (Skip : (forall k v, c <> CRec k v) -> forall k, rec_sum (cs ++ [c]) k = rec_sum cs k).
  { intros H k. unfold rec_sum, recs_of. rewrite flat_map_app. cbn [flat_map]. destruct c; try (rewrite !app_nil_r; reflexivity). exfalso. exact (H _ _ eq_refl). }
  destruct c as [s|nm ok|b|k v| |l]; try (split; [exact S|]; intros q; rewrite IH, Skip by (intros; discriminate); reflexivity).
  split; [apply tadd_sorted; exact S|]. intros q. rewrite tadd_get by exact S. unfold rec_sum, recs_of. rewrite flat_map_app. cbn [flat_map]. rewrite app_nil_r. fold (recs_of cs q).
  destruct (String.eqb_spec q k) as [->|N].
  - unfold tval. rewrite IH. unfold rec_sum. destruct (recs_of cs k) as [|z r]; [cbn; f_equal; lia|]. cbn [app]. f_equal. rewrite app_comm_cons, fold_right_app. change (fold_right Z.add 0%Z [v]) with (v + 0)%Z.
    generalize (z :: r). intros l. induction l as [|a l IHl]; cbn [fold_right]; lia.
  - rewrite app_nil_r, IH. reflexivity.
Qed.
Lemma sorted_get_unique : forall l l' : tmap, sorted l -> sorted l' -> (forall k, tget k l = tget k l') -> l = l'.
Proof.
  induction l as [|[k v] l IH]; intros l' S S' G.
  - destruct l' as [|[k' v'] l']; [reflexivity|]. specialize (G k'). cbn in G. rewrite String.eqb_refl in G. discriminate.
  - destruct l' as [|[k' v'] l']; [specialize (G k); cbn in G; rewrite String.eqb_refl in G; discriminate|].
    inversion S as [|? ? S1 S2]; subst. inversion S' as [|? ? S1' S2']; subst. rewrite Forall_forall in S2, S2'.
    assert (NG : forall q (m : tmap), (forall a, In a m -> slt q (fst a)) -> tget q m = None).
    { intros q m. induction m as [|[a b] m IHm]; intros H; [reflexivity|]. cbn [tget]. destruct (String.eqb_spec q a) as [->|N].
      - exfalso. specialize (H (a, b) (or_introl eq_refl)). cbn in H. revert H. apply slt_irrefl.
      - apply IHm. intros c Hc. apply H. right. exact Hc. }
    assert (K : k = k').
    { destruct (String.eqb_spec k k') as [E|N]; [exact E|exfalso].
      assert (Gk := G k). cbn [tget] in Gk. rewrite String.eqb_refl in Gk. apply String.eqb_neq in N as N1. rewrite N1 in Gk.
      assert (Gk' := G k'). cbn [tget] in Gk'. rewrite String.eqb_refl in Gk'. rewrite String.eqb_sym, N1 in Gk'.
      pose proof (tget_some l' k v (eq_sym Gk)) as H1. pose proof (tget_some l k' v' Gk') as H2.
      specialize (S2 _ H2). specialize (S2' _ H1). cbn [fst] in S2, S2'. apply (slt_irrefl k). eapply slt_trans; eassumption. }
    subst k'. assert (Gk := G k). cbn [tget] in Gk. rewrite String.eqb_refl in Gk. injection Gk as ->. f_equal. apply IH; auto.
    intros q. specialize (G q). cbn [tget] in G. destruct (String.eqb q k) eqn:EQ; [|exact G]. apply String.eqb_eq in EQ. subst q. rewrite !NG by auto. reflexivity.
Qed.
Definition not_failed (c : call) : bool := match c with CFile _ false => false | _ => true end.
Definition not_throw (e : ev) : bool := match e with EThrow _ => false | _ => true end.
Lemma run_failed : forall cs t t' e, ti_run cs t = Ok (t', e) -> ti_run (filter not_failed cs) t = Ok (t', filter not_throw e).
Proof.
  induction cs as [|c r IH]; intros t t' e E; cbn [ti_run] in E; [injection E as <- <-; reflexivity|].
  destruct (ti_step c t) as [[t1 e1]| | | | |] eqn:E1; try discriminate. cbn [bind] in E. destruct (ti_run r t1) as [[t2 e2]| | | | |] eqn:E2; try discriminate. cbn [bind] in E. injection E as <- <-.
  specialize (IH _ _ _ E2). rewrite filter_app. cbn [filter]. destruct (not_failed c) eqn:N.
  - cbn [ti_run]. rewrite E1. cbn [bind]. rewrite IH. cbn [bind]. repeat f_equal.
    destruct c as [s|n [|]|b|k v| |l]; cbn [ti_step] in E1; unfold ti_print in E1; try discriminate N; try (injection E1 as <- <-; reflexivity).
    + destruct (print_summary (ti_times t)) as [q| | | | |]; try discriminate. injection E1 as <- <-. reflexivity.
    + destruct (print_summary l) as [q| | | | |]; try discriminate. injection E1 as <- <-. reflexivity.
  - destruct c as [s|n [|]|b|k v| |l]; try discriminate N. cbn in E1. injection E1 as <- <-. cbn. exact IH.
Qed.
Lemma life_failed cs log : ti_life cs = Ok log -> ti_life (filter not_failed cs) = Ok (filter not_throw log).
Proof.
  unfold ti_life. destruct (ti_run cs ti_new) as [[t e]| | | | |] eqn:E; try discriminate. rewrite (run_failed _ _ _ _ E). cbn [bind].
  destruct (ti_destroy t) as [e'| | | | |] eqn:ED; try discriminate. cbn [bind]. intros L. injection L as <-. rewrite filter_app. repeat f_equal.
  unfold ti_destroy in ED. destruct (negb (ti_printed t) && ti_active t).
  - unfold ti_print in ED. destruct (print_summary (ti_times t)) as [q| | | | |]; try discriminate. cbn [bind ti_file ti_io] in ED. injection ED as <-. destruct (ti_file t); reflexivity.
  - cbn [bind] in ED. injection ED as <-. destruct (ti_file t); reflexivity.
Qed.
