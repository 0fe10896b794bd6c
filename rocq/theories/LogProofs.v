(** Proofs about the console logger. *)
From Coq Require Import ZArith String List Bool Lia.
From Verif Require Import Base LogModel StatsModel StatsSpec.
Import ListNotations.
Local Open Scope Z_scope.

Section Log.
Context {F : Scalar}.
Implicit Types (g : Logger F) (ops : list (lgop F)) (cs : list column).

(** ** nothing is printed at the silent level *)
Lemma silent_step debug o g out g' : lg_level g = kSilent -> lg_step debug o g = Ok (out, g') -> out = [].
Proof.
  intros H. destruct o; simpl; intros E; try (inversion E; subst; reflexivity).
  - unfold lg_print, lg_print_header, lg_print_data in E. rewrite H in E. simpl in E.
    destruct (lg_freq g =? 0); [discriminate|]. destruct (_ =? 0); inversion E; reflexivity.
  - unfold lg_print_header in E. rewrite H in E. simpl in E. inversion E; reflexivity.
  - unfold lg_print_data in E. rewrite H in E. simpl in E. inversion E; reflexivity.
  - destruct (lg_set_frequency debug f g); inversion E; reflexivity.
  - destruct (lg_add debug col t _ g); inversion E; reflexivity.
  - destruct (lg_bound debug up t b g); inversion E; reflexivity.
Qed.
Lemma lg_bound_keeps debug up t b g g' : lg_bound debug up t b g = Ok g' ->
  lg_level g' = lg_level g /\ lg_freq g' = lg_freq g /\ lg_count g' = lg_count g /\ lg_order g' = lg_order g.
Proof.
  unfold lg_bound. destruct (lg_find _ _); [|intros E; inversion E; auto].
  destruct (if up then _ else _); cbn [bind]; intros E; inversion E; auto.
Qed.
Lemma lg_add_level debug col t mk g g' : lg_add debug col t mk g = Ok g' -> lg_level g' = lg_level g.
Proof.
  unfold lg_add, altro_assert. destruct (debug && negb _); simpl; [discriminate|].
  destruct (debug && negb _); simpl; [discriminate|].
  destruct (_ && _); intros E; inversion E; reflexivity.
Qed.
Lemma level_step debug o g out g' : lg_step debug o g = Ok (out, g') ->
  lg_level g' = match o with LgSetLevel l => l | _ => lg_level g end.
Proof.
  destruct o; simpl; intros E; try (inversion E; subst; reflexivity).
  - inversion E; subst. unfold lg_log. destruct (kSilent <? lg_level g); auto.
    destruct (lg_find t _); auto. destruct le_active; auto.
  - unfold lg_print in E. destruct (lg_freq g =? 0); [discriminate|]. destruct (_ =? 0); inversion E; reflexivity.
  - unfold lg_set_frequency, altro_assert in E. destruct (debug && negb _); simpl in E; inversion E; reflexivity.
  - destruct (lg_add debug col t _ g) eqn:Ea; inversion E; subst. eapply lg_add_level; eauto.
  - destruct (lg_bound debug up t b g) eqn:Ea; inversion E; subst. apply (lg_bound_keeps _ _ _ _ _ _ Ea).
Qed.
Lemma level_run debug ops : forall g out g', lg_run debug ops g = Ok (out, g') ->
  lg_level g' = level_after (lg_level g) ops.
Proof.
  induction ops as [|o ops IH]; simpl; intros g out g' E; [inversion E; reflexivity|].
  destruct (lg_step debug o g) as [[o1 g1]| | | | |] eqn:E1; simpl in E; try discriminate.
  destruct (lg_run debug ops g1) as [[o2 g2]| | | | |] eqn:E2; simpl in E; try discriminate.
  inversion E; subst. rewrite (IH _ _ _ E2). unfold level_after; simpl. f_equal.
  apply level_step in E1. destruct o; auto.
Qed.
Theorem silent_run debug ops : forall g out g', lg_run debug ops g = Ok (out, g') -> lg_level g = kSilent ->
  Forall (fun o => match o with LgSetLevel l => l = kSilent | _ => True end) ops -> out = [].
Proof.
  induction ops as [|o ops IH]; simpl; intros g out g' E Hl Ho; [inversion E; reflexivity|].
  destruct (lg_step debug o g) as [[o1 g1]| | | | |] eqn:E1; simpl in E; try discriminate.
  destruct (lg_run debug ops g1) as [[o2 g2]| | | | |] eqn:E2; simpl in E; try discriminate.
  inversion E; subst. inversion Ho; subst.
  rewrite (silent_step _ _ _ _ _ Hl E1). simpl. eapply IH; eauto.
  apply level_step in E1. rewrite E1. destruct o; auto.
Qed.

(** ** columns *)
(** bounds and content of a column *)
Notation cst := (option F * option F * (option (lval F) * color))%type.
Definition is_some {A} (o : option A) : bool := match o with Some _ => true | None => false end.
Definition entry_of (v : cst) (c : column) : LogEntry F :=
  let '(lo, up, (x, k)) := v in mkLE (c_title c) x (c_level c) (c_width c) (is_some lo || is_some up) lo up k.
Definition blank : cst := (None, None, (None, CDefault)).
Definition cols_inv cs (vals : column -> cst) g : Prop :=
  lg_order g = map c_title cs /\
  forall c, In c cs -> lg_find (c_title c) (lg_entries g) = Some (entry_of (vals c) c).

Lemma lg_find_upd t t' f (l : list (string * LogEntry F)) :
  lg_find t (lg_upd t' f l) = if String.eqb t' t then option_map f (lg_find t l) else lg_find t l.
Proof.
  unfold lg_find, lg_upd. induction l as [|[a e] l IH]; simpl.
  - destruct String.eqb; auto.
  - destruct (String.eqb_spec a t'); simpl.
    + subst. destruct (String.eqb_spec t' t); simpl; auto.
    + destruct (String.eqb_spec a t); simpl; auto.
      subst. destruct (String.eqb_spec t' t); [congruence|auto].
Qed.
Lemma lg_find_app t (l l' : list (string * LogEntry F)) :
  lg_find t (l ++ l') = match lg_find t l with Some e => Some e | None => lg_find t l' end.
Proof.
  unfold lg_find. induction l as [|[a e] l IH]; simpl; auto. destruct (String.eqb a t); simpl; auto.
Qed.
Lemma lg_find_touch_some t t' e (l : list (string * LogEntry F)) :
  lg_find t l = Some e -> lg_find t (lg_touch t' l) = Some e.
Proof.
  intros H. unfold lg_touch. destruct (lg_find t' l); auto. now rewrite lg_find_app, H.
Qed.
Lemma lg_find_map t (f : LogEntry F -> LogEntry F) l :
  lg_find t (map (fun p => (fst p, f (snd p))) l) = option_map f (lg_find t l).
Proof.
  unfold lg_find. induction l as [|[a e] l IH]; simpl; auto. destruct (String.eqb a t); simpl; auto.
Qed.

Lemma cols_inv_ext cs v v' g : (forall c, In c cs -> v c = v' c) -> cols_inv cs v g -> cols_inv cs v' g.
Proof. intros H [H1 H2]. split; auto. intros c Hc. rewrite <- H by auto. auto. Qed.

Lemma cols_add debug cs c g g' : cols_inv cs (fun _ => blank) g -> ~ In (c_title c) (map c_title cs) ->
  map fst (lg_entries g) = map c_title cs ->
  lg_add debug (-1) (c_title c) (fun e => le_set_width (c_width c) (le_set_level (c_level c) e)) g = Ok g' ->
  cols_inv (cs ++ [c]) (fun _ => blank) g' /\ map fst (lg_entries g') = map c_title (cs ++ [c]).
Proof.
  intros [Ho Hf] Hn Hk E. unfold lg_add, altro_assert in E.
  destruct (debug && negb _); simpl in E; [discriminate|].
  destruct (debug && negb _); simpl in E; [discriminate|].
  assert (Hnone : lg_find (c_title c) (lg_entries g) = None).
  { unfold lg_find. destruct (find _ (lg_entries g)) eqn:Ef; auto. exfalso.
    apply find_some in Ef. destruct Ef as [Hin Heq]. apply String.eqb_eq in Heq. apply Hn. rewrite <- Hk, <- Heq. now apply in_map. }
  rewrite Hnone in E.
  assert (Hp : lg_pos (-1) (length (lg_order g)) = Z.of_nat (length (lg_order g))) by (unfold lg_pos; simpl; lia).
  rewrite Hp in E. rewrite Z.leb_refl in E. replace (0 <=? Z.of_nat (length (lg_order g))) with true in E by (symmetry; apply Z.leb_le; lia).
  simpl in E. inversion E; subst; clear E. rewrite Nat2Z.id. unfold insert_at. rewrite firstn_all, skipn_all. simpl.
  split; [split|].
  - simpl. rewrite Ho, map_app. reflexivity.
  - intros c' Hc'. simpl. rewrite lg_find_upd, lg_find_app. apply in_app_iff in Hc'. destruct Hc' as [Hc'|[<-|[]]].
    + rewrite (Hf _ Hc'). destruct (String.eqb_spec (c_title c) (c_title c')) as [e|]; auto.
      exfalso. apply Hn. rewrite e. now apply in_map.
    + rewrite Hnone, String.eqb_refl. unfold lg_find. simpl. rewrite String.eqb_refl. reflexivity.
  - simpl. unfold lg_upd. rewrite map_map. rewrite (map_ext _ fst) by (intros p; destruct String.eqb; auto).
    rewrite !map_app, Hk. reflexivity.
Qed.
Lemma cols_adds debug cs' : forall cs g out g', cols_inv cs (fun _ => blank) g -> NoDup (map c_title (cs ++ cs')) ->
  map fst (lg_entries g) = map c_title cs ->
  lg_run debug (map add_col cs') g = Ok (out, g') ->
  cols_inv (cs ++ cs') (fun _ => blank) g' /\ out = [] /\ lg_level g' = lg_level g.
Proof.
  induction cs' as [|c cs' IH]; simpl; intros cs g out g' Hi Hnd Hk E.
  - inversion E; subst. rewrite app_nil_r; auto.
  - destruct (lg_add debug (-1) (c_title c) _ g) as [g1| | | | |] eqn:Ea; simpl in E; try discriminate.
    destruct (lg_run debug (map add_col cs') g1) as [[o2 g2]| | | | |] eqn:E2; simpl in E; try discriminate.
    inversion E; subst. replace (cs ++ c :: cs') with ((cs ++ [c]) ++ cs') in * by (rewrite <- app_assoc; auto).
    assert (Hn : ~ In (c_title c) (map c_title cs)).
    { rewrite map_app, map_app in Hnd. simpl in Hnd. rewrite <- app_assoc in Hnd. simpl in Hnd. apply NoDup_remove_2 in Hnd.
      intros Hin. apply Hnd. apply in_app_iff. now left. }
    destruct (cols_add _ _ _ _ _ Hi Hn Hk Ea) as [Hi' Hk'].
    destruct (IH _ _ _ _ Hi' Hnd Hk' E2) as (H1 & H2 & H3). subst. repeat split; try apply H1.
    rewrite H3. eapply lg_add_level; eauto.
Qed.
Definition vals_step (l : Z) (v : column -> cst) (o : lgop F) (c : column) : cst :=
  let '(lo, up, x) := v c in
  match o with
  | LgLog t y => (lo, up, if String.eqb t (c_title c) && (kSilent <? l) && (c_level c <=? l) then (Some y, tint lo up (lval_num y)) else x)
  | LgBound u t b => if String.eqb t (c_title c) then (if u then (lo, Some b, x) else (Some b, up, x)) else (lo, up, x)
  | LgClear => (lo, up, (None, snd x))
  | _ => (lo, up, x)
  end.
Lemma color_of lo up x c k y : le_get_color (entry_of (lo, up, (x, k)) c) y = tint lo up (lval_num y).
Proof. unfold le_get_color, tint. cbn. destruct lo as [l|], up as [u|]; cbn; try reflexivity; destruct (ltb _ _); reflexivity. Qed.
Lemma bound_entry debug (u : bool) b lo up x c (e : LogEntry F) : (if u then le_set_upper debug b (entry_of (lo, up, x) c) else le_set_lower debug b (entry_of (lo, up, x) c)) = Ok e ->
  e = entry_of (if u then (lo, Some b, x) else (Some b, up, x)) c.
Proof.
  destruct x as [x k], u; unfold le_set_upper, le_set_lower; destruct (altro_assert _ _); cbn [bind]; intros E; inversion E; cbn; [rewrite orb_true_r|]; reflexivity.
Qed.
Lemma cols_step debug cs v o g out g' : no_add o = true -> cols_inv cs v g -> lg_step debug o g = Ok (out, g') ->
  cols_inv cs (vals_step (lg_level g) v o) g'.
Proof.
  assert (ID : forall c, (let '(lo, up, x) := v c in (lo, up, x)) = v c) by (intros c; destruct (v c) as [[? ?] ?]; reflexivity).
  intros Hno [Ho Hf] E. destruct o; simpl in E; try discriminate.
  - inversion E; subst; clear E. split.
    + rewrite <- Ho. unfold lg_log. destruct (kSilent <? lg_level g); auto. destruct (lg_find t _); auto. destruct le_active; auto.
    + intros c Hc. specialize (Hf c Hc). unfold lg_log, vals_step. destruct (v c) as [[lo up] x] eqn:Ev.
      destruct (kSilent <? lg_level g) eqn:Es; [|rewrite andb_false_r; exact Hf].
      pose proof (lg_find_touch_some _ t _ _ Hf) as Ht.
      destruct (String.eqb_spec t (c_title c)) as [->|Hne]; cbn [andb].
      * rewrite Ht. replace (le_active (lg_level g) (entry_of (lo, up, x) c)) with (c_level c <=? lg_level g) by (destruct x; reflexivity).
        destruct (c_level c <=? lg_level g) eqn:El; [|exact Ht].
        cbn [lg_set lg_entries]. rewrite lg_find_upd, String.eqb_refl, Ht. cbn [option_map]. f_equal. destruct x as [x k]. unfold le_log. rewrite color_of. reflexivity.
      * destruct (lg_find t (lg_touch t (lg_entries g))) eqn:Eq; simpl; auto.
        destruct le_active; simpl; auto. rewrite lg_find_upd. destruct (String.eqb_spec t (c_title c)); [easy|auto].
  - unfold lg_print in E. destruct (lg_freq g =? 0); [discriminate|]. eapply cols_inv_ext; [intros c _; symmetry; apply ID|].
    destruct (_ =? 0); inversion E; subst; split; simpl; auto.
  - inversion E; subst. eapply cols_inv_ext; [intros c _; symmetry; apply ID|]. split; auto.
  - inversion E; subst. eapply cols_inv_ext; [intros c _; symmetry; apply ID|]. split; auto.
  - inversion E; subst; split; [exact Ho|]. intros c Hc. cbn [lg_clear lg_set lg_entries]. rewrite (lg_find_map _ le_clear). rewrite (Hf c Hc). unfold vals_step. destruct (v c) as [[lo up] [x k]]. reflexivity.
  - inversion E; subst. eapply cols_inv_ext; [intros c _; symmetry; apply ID|]. split; auto.
  - unfold lg_set_frequency, altro_assert in E. eapply cols_inv_ext; [intros c _; symmetry; apply ID|]. destruct (debug && negb _); simpl in E; inversion E; subst; split; auto.
  - destruct (lg_bound debug up t b g) as [g1| | | | |] eqn:Eb; cbn [bind] in E; inversion E; subst; clear E.
    split; [rewrite (proj2 (proj2 (proj2 (lg_bound_keeps _ _ _ _ _ _ Eb)))); exact Ho|].
    intros c Hc. specialize (Hf c Hc). pose proof (lg_find_touch_some _ t _ _ Hf) as Ht. unfold lg_bound in Eb. unfold vals_step. destruct (v c) as [[lo hi] x] eqn:Ev.
    destruct (String.eqb_spec t (c_title c)) as [->|Hne].
    + rewrite Ht in Eb. destruct (if up then _ else _) as [e'| | | | |] eqn:Ee; cbn [bind] in Eb; inversion Eb; subst; clear Eb. apply bound_entry in Ee. subst e'.
      cbn [lg_set lg_entries]. rewrite lg_find_upd, String.eqb_refl, Ht. cbn [option_map]. destruct up; reflexivity.
    + destruct (lg_find t (lg_touch t (lg_entries g))) as [e|] eqn:Eq; [|inversion Eb; subst; exact Ht].
      destruct (if up then _ else _) as [e'| | | | |]; cbn [bind] in Eb; inversion Eb; subst; clear Eb. cbn [lg_set lg_entries]. rewrite lg_find_upd. destruct (String.eqb_spec t (c_title c)); [easy|exact Ht].
Qed.
Definition cell_st (l : Z) (v : column -> cst) (ops : list (lgop F)) (c : column) : option (lval F) * color :=
  let '(lo, up, x) := v c in cell c l lo up x ops.
Lemma cell_cons l v o ops c : cell_st l v (o :: ops) c = cell_st (match o with LgSetLevel l' => l' | _ => l end) (vals_step l v o) ops c.
Proof.
  unfold cell_st, vals_step. destruct (v c) as [[lo up] x]. destruct o as [| | | | | | | |u t b]; try reflexivity. cbn [cell]. destruct (String.eqb t (c_title c)); [destruct u|]; reflexivity.
Qed.
Lemma cols_run debug cs ops : forall v g out g', forallb no_add ops = true -> cols_inv cs v g ->
  lg_run debug ops g = Ok (out, g') -> exists v', cols_inv cs v' g' /\ forall c, snd (v' c) = cell_st (lg_level g) v ops c.
Proof.
  induction ops as [|o ops IH]; intros v g out g' Hno Hi E.
  - simpl in E. inversion E; subst. exists v. split; [exact Hi|]. intros c. unfold cell_st. destruct (v c) as [[? ?] ?]. reflexivity.
  - simpl in E, Hno. apply andb_prop in Hno. destruct Hno as [Hno1 Hno2].
    destruct (lg_step debug o g) as [[o1 g1]| | | | |] eqn:E1; simpl in E; try discriminate.
    destruct (lg_run debug ops g1) as [[o2 g2]| | | | |] eqn:E2; simpl in E; try discriminate.
    inversion E; subst. pose proof (cols_step _ _ _ _ _ _ _ Hno1 Hi E1) as Hi1.
    destruct (IH _ _ _ _ Hno2 Hi1 E2) as (v' & H & H'). exists v'. split; [exact H|].
    intros c. rewrite cell_cons, H'. rewrite (level_step _ _ _ _ _ E1). destruct o; reflexivity.
Qed.

Lemma cols_of cs v g : cols_inv cs v g ->
  lg_cols g = map (fun c => entry_of (v c) c) (active (lg_level g) cs).
Proof.
  intros [Ho Hf]. unfold lg_cols, active. rewrite Ho. clear Ho. induction cs as [|c cs IH]; simpl; auto.
  rewrite (Hf c) by (left; auto). rewrite IH by (intros c' Hc'; apply Hf; right; auto).
  unfold le_active; replace (le_level (entry_of (v c) c)) with (c_level c) by (destruct (v c) as [[? ?] [? ?]]; reflexivity). destruct (c_level c <=? lg_level g); reflexivity.
Qed.

(** what header and data prints show after any history *)
Theorem logger_columns debug l0 cs ops out g : NoDup (map c_title cs) -> forallb no_add ops = true ->
  lg_run debug (map add_col cs ++ ops) (lg_new l0) = Ok (out, g) ->
  lg_print_header g = expected_header (level_after l0 ops) cs /\ lg_print_data g = expected_data l0 ops cs.
Proof.
  intros Hnd Hno E.
  assert (exists o1 g1 o2, lg_run debug (map add_col cs) (lg_new l0) = Ok (o1, g1) /\ lg_run debug ops g1 = Ok (o2, g)) as (o1 & g1 & o2 & E1 & E2).
  { clear Hnd Hno. revert E. generalize (lg_new l0 : Logger F). revert out. induction cs as [|c cs IH]; intros out g0 E.
    - exists [], g0, out. auto.
    - change (lg_run debug (add_col c :: (map add_col cs ++ ops)) g0 = Ok (out, g)) in E. cbn [lg_run] in E.
      destruct (lg_step debug (add_col c) g0) as [[oa ga]| | | | |] eqn:Ea; cbn [bind] in E; try discriminate.
      destruct (lg_run debug (map add_col cs ++ ops) ga) as [[ob gb]| | | | |] eqn:Eb; cbn [bind] in E; try discriminate.
      inversion E; subst. destruct (IH _ _ Eb) as (p1 & h1 & p2 & Q1 & Q2).
      exists (oa ++ p1), h1, p2. split; auto.
      change (lg_run debug (add_col c :: map add_col cs) g0 = Ok (oa ++ p1, h1)). cbn [lg_run]. rewrite Ea; cbn [bind]. rewrite Q1. reflexivity. }
  destruct (cols_adds debug cs [] (lg_new l0) o1 g1) as (Hi & _ & Hl); auto.
  { split; simpl; auto. easy. }
  simpl in Hi, Hl.
  destruct (cols_run _ _ _ _ _ _ _ Hno Hi E2) as (v' & Hi2 & Hv). rewrite Hl in Hv.
  pose proof (level_run _ _ _ _ _ E2) as Hlev. rewrite Hl in Hlev.
  pose proof (cols_of _ _ _ Hi2) as Hc. rewrite Hlev in Hc.
  unfold lg_print_header, lg_print_data, expected_header, expected_data. rewrite Hlev, Hc.
  destruct (level_after l0 ops =? kSilent); [split; reflexivity|].
  destruct (active (level_after l0 ops) cs) eqn:Ea; [split; reflexivity|].
  destruct (map (fun c0 => entry_of (v' c0) c0) (c :: l)) as [|e0 es] eqn:Em; [discriminate|]. rewrite <- Em.
  split; f_equal; f_equal; rewrite map_map; apply map_ext; intros c'; specialize (Hv c'); destruct (v' c') as [[? ?] [? ?]]; cbn in *; [reflexivity|rewrite <- Hv; reflexivity].
Qed.

(** ** header frequency *)
Definition count_inv (f i : Z) g : Prop :=
  lg_freq g = f /\ (i = 0 /\ lg_count g = 0 \/ 0 < i /\ lg_count g = (i - 1) mod f + 1).
Lemma lg_log_count t v g : lg_count (lg_log t v g) = lg_count g /\ lg_freq (lg_log t v g) = lg_freq g.
Proof.
  unfold lg_log. destruct (kSilent <? lg_level g); auto. destruct (lg_find t _); auto. destruct le_active; auto.
Qed.
Lemma count_print f i g : 0 < f -> count_inv f i g ->
  (lg_freq g =? 0) = false /\ (Z.rem (lg_count g) (lg_freq g) =? 0) = (i mod f =? 0).
Proof.
  intros Hf [E H]. rewrite E. split; [apply Z.eqb_neq; lia|].
  destruct H as [[-> ->]|[Hi ->]].
  - rewrite Z.rem_0_l, Z.mod_0_l by lia. reflexivity.
  - pose proof (Z.mod_pos_bound (i - 1) f Hf).
    rewrite Z.rem_mod_nonneg by lia.
    replace (((i - 1) mod f + 1) mod f) with (i mod f); auto.
    rewrite Zplus_mod_idemp_l. f_equal. lia.
Qed.
Lemma count_step debug f i o g out g' : 0 < f -> 0 <= i -> keeps_count o = true -> count_inv f i g ->
  lg_step debug o g = Ok (out, g') -> count_inv f (if is_print o then i + 1 else i) g'.
Proof.
  intros Hf Hi Hk H E. destruct o; simpl in *; try discriminate.
  - inversion E; subst. destruct H as [H1 H2]. destruct (lg_log_count t v g) as [Ha Hb]. split; rewrite ?Ha, ?Hb; auto.
  - destruct (count_print f i g Hf H) as [P1 P2]. unfold lg_print in E. rewrite P1, P2 in E.
    destruct H as [H1 H2]. destruct (Z.eqb_spec (i mod f) 0) as [E0|E0]; inversion E; subst; clear E; split; simpl; auto; right; split; try lia.
    + replace (i + 1 - 1) with i by lia. rewrite E0. lia.
    + destruct H2 as [[-> _]|[Hi' ->]]; [rewrite Z.mod_0_l in E0 by lia; lia|].
      replace (i + 1 - 1) with i by lia. set (f := lg_freq g) in *.
      pose proof (Z.mod_pos_bound (i - 1) f Hf). pose proof (Z.mod_pos_bound i f Hf).
      pose proof (Z.div_mod (i - 1) f ltac:(lia)). pose proof (Z.div_mod i f ltac:(lia)).
      assert ((i - 1) mod f + 1 < f \/ (i-1) mod f = f - 1) as [Hc|Hc] by lia.
      * replace (i mod f) with ((i - 1) mod f + 1); auto.
        apply (Z.mod_unique_pos i f ((i-1)/f)); lia.
      * exfalso. apply E0. symmetry. apply (Z.mod_unique_pos i f ((i-1)/f + 1)); lia.
  - inversion E; subst; auto.
  - inversion E; subst; auto.
  - inversion E; subst; auto.
  - unfold lg_add, altro_assert in E. destruct (debug && negb _); simpl in E; [discriminate|].
    destruct (debug && negb _); simpl in E; [discriminate|]. destruct (_ && _); simpl in E; inversion E; subst; auto.
  - destruct (lg_bound debug up t b g) eqn:Ea; inversion E; subst. destruct (lg_bound_keeps _ _ _ _ _ _ Ea) as (_ & K1 & K2 & _). unfold count_inv. rewrite K1, K2. exact H.
Qed.
Lemma count_run debug f ops : forall i g out g', 0 < f -> 0 <= i -> forallb keeps_count ops = true -> count_inv f i g ->
  lg_run debug ops g = Ok (out, g') -> count_inv f (i + prints ops) g'.
Proof.
  induction ops as [|o ops IH]; intros i g out g' Hf Hi Hk H E.
  - simpl in E. inversion E; subst. unfold prints; simpl. rewrite Z.add_0_r; auto.
  - simpl in E, Hk. apply andb_prop in Hk. destruct Hk as [Hk1 Hk2].
    destruct (lg_step debug o g) as [[o1 g1]| | | | |] eqn:E1; simpl in E; try discriminate.
    destruct (lg_run debug ops g1) as [[o2 g2]| | | | |] eqn:E2; simpl in E; try discriminate.
    inversion E; subst. pose proof (count_step _ _ _ _ _ _ _ Hf Hi Hk1 H E1) as H1.
    assert (Hi' : 0 <= (if is_print o then i + 1 else i)) by (destruct (is_print o); lia).
    pose proof (IH _ _ _ _ Hf Hi' Hk2 H1 E2) as H2.
    unfold prints in *. simpl. destruct (is_print o); simpl length; [|exact H2].
    replace (i + Z.of_nat (S (length (filter is_print ops)))) with (i + 1 + Z.of_nat (length (filter is_print ops))) by lia. exact H2.
Qed.
(** after a Clear (or on a new logger), print number i shows a header exactly when f divides i *)
Theorem logger_header debug f ops g out g' : 0 < f -> lg_freq g = f -> lg_count g = 0 -> forallb keeps_count ops = true ->
  lg_run debug ops g = Ok (out, g') ->
  exists g'', lg_step debug LgPrint g' =
    Ok ((if prints ops mod f =? 0 then lg_print_header g' else []) ++ lg_print_data g', g'').
Proof.
  intros Hf Hg Hc Hk E. assert (H0 : count_inv f 0 g) by (split; auto).
  pose proof (count_run debug f ops 0 g out g' Hf (Z.le_refl 0) Hk H0 E) as H. simpl in H.
  destruct (count_print _ _ _ Hf H) as [P1 P2]. simpl. unfold lg_print. rewrite P1, P2.
  destruct (prints ops mod f =? 0); eexists; reflexivity.
Qed.
Theorem logger_clear_count g : lg_count (lg_clear g) = 0 /\ lg_freq (lg_clear g) = lg_freq g /\
  forall l : Z, lg_count (lg_new l : Logger F) = 0.
Proof. repeat split. Qed.
End Log.
