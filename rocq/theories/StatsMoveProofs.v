(** Proofs about copied and moved statistics. *)
From Coq Require Import ZArith String List Bool Lia.
From Verif Require Import Base LogModel StatsModel StatsSpec StatsProofs StatLogProofs StatsMoveModel StatsMoveSpec.
Import ListNotations.
Local Open Scope Z_scope.

Section Move.
Context {F : Scalar}.
Implicit Types (s : Stats F) (h : Mem F).

Lemma set_ser_id s : st_set_ser s (st_ser s) (st_len s) = s.
Proof. destruct s; reflexivity. Qed.

Definition flat s : Prop := forall p, In p (st_ser s) -> length (snd p) = st_len s.
Lemma flat_new : flat (@st_new F).
Proof. intros p Hp. simpl in *. repeat (destruct Hp as [<-|Hp]; [reflexivity|]). destruct Hp. Qed.
Lemma flat_new_iteration s : flat s -> flat (st_new_iteration s).
Proof.
  intros H p Hp. rewrite (new_iteration_ser s H) in Hp. apply in_map_iff in Hp. destruct Hp as (q & <- & Hq).
  cbn [snd]. rewrite new_ser_length. cbn. now rewrite (H q Hq).
Qed.
Lemma flat_set_data t v s : flat s -> flat (st_set_data t v s).
Proof.
  intros H. unfold st_set_data. set (s1 := if Nat.eqb (st_len s) 0 then st_new_iteration s else s).
  assert (H1 : flat s1) by (unfold s1; destruct Nat.eqb; auto using flat_new_iteration).
  intros p Hp. cbn in Hp. apply in_map_iff in Hp. destruct Hp as (q & <- & Hq). specialize (H1 q Hq).
  destruct String.eqb; cbn [snd]; [rewrite set_back_length|]; exact H1.
Qed.
Lemma flat_sl debug o s s' : flat s -> sl_step debug o s = Ok s' -> flat s'.
Proof.
  intros H E. destruct o as [o|c v g|l| |]; cbn [sl_step] in E.
  - destruct o; cbn [st_step] in E.
    + inversion E; subst. apply (flat_set_data t _ (st_set_log s _)). exact H.
    + inversion E; subst. apply (flat_set_data t _ (st_set_log s _)). exact H.
    + inversion E; subst. now apply flat_new_iteration.
    + unfold st_reset in E. destruct (_ <? 0); [discriminate|].
      destruct (lg_set_frequency _ _ _); cbn [bind] in E; try discriminate. inversion E; subst.
      intros p Hp. cbn in Hp. apply in_map_iff in Hp. destruct Hp as (q & <- & Hq). reflexivity.
  - unfold st_set_tolerances in E.
    destruct (lg_bound _ _ "dJ" _ _) as [g1| | | | |]; cbn [bind] in E; try discriminate.
    destruct (lg_bound _ _ "viol" _ _) as [g2| | | | |]; cbn [bind] in E; try discriminate.
    destruct (lg_bound _ _ "grad" _ _) as [g3| | | | |]; cbn [bind] in E; try discriminate.
    inversion E; subst. exact H.
  - inversion E; subst. exact H.
  - unfold st_print_last in E. destruct (lg_print _) as [[out g]| | | | |]; cbn [bind] in E; try discriminate.
    inversion E; subst. exact H.
  - inversion E; subst. exact H.
Qed.

Lemma back_ok_flat t s : flat s -> back_ok t (st_len s) (st_ser s) = true.
Proof.
  intros H. unfold back_ok. destruct (Nat.eqb_spec (st_len s) 0) as [E|E]; cbn [orb]; [reflexivity|].
  apply forallb_forall. intros p Hp. specialize (H p Hp). destruct (snd p); cbn in *; [lia|]. now destruct String.eqb.
Qed.
Lemma call_ok_flat op s : flat s -> call_ok op s = true.
Proof. intros H. destruct op as [[]| | | |]; cbn; auto; now apply back_ok_flat. Qed.

Lemma own_call debug a op h s : own_obj h a s ->
  match sl_step debug op s with
  | Ok s' => exists h', m_call debug a op h = Ok h' /\ own_obj h' a s' /\ (forall b, b <> a -> h' b = h b)
  | Abort => m_call debug a op h = Abort | UB => m_call debug a op h = UB | Throw => m_call debug a op h = Throw
  | Deadlock => m_call debug a op h = Deadlock | Fuel => m_call debug a op h = Fuel
  end.
Proof.
  intros [E W]. unfold m_call. rewrite E. cbn [ob_gone ob_st ob_ord ob_ptr]. rewrite E, andb_false_r.
  destruct (uses_floats op) eqn:U.
  - unfold reach. cbn [ob_ptr]. rewrite E. cbn [bind ob_st]. rewrite set_ser_id, (call_ok_flat op s W).
    destruct (sl_step debug op s) as [s'| | | | |] eqn:ES; cbn [bind]; try reflexivity.
    unfold mput at 1. rewrite Nat.eqb_refl. cbn [ob_st ob_ptr ob_ord ob_gone].
    eexists. split; [reflexivity|]. split; [split|].
    + unfold mput. rewrite Nat.eqb_refl. cbn. destruct s'; reflexivity.
    + apply (flat_sl _ _ _ _ W ES).
    + intros b Hb. unfold mput. apply Nat.eqb_neq in Hb. now rewrite Hb.
  - destruct (sl_step debug op s) as [s'| | | | |] eqn:ES; cbn [bind]; try reflexivity.
    eexists. split; [reflexivity|]. split; [split|].
    + unfold mput. now rewrite Nat.eqb_refl.
    + apply (flat_sl _ _ _ _ W ES).
    + intros b Hb. unfold mput. apply Nat.eqb_neq in Hb. now rewrite Hb.
Qed.

Lemma m_run_app debug x : forall y h, m_run debug (x ++ y) h = do h1 <- m_run debug x h ; m_run debug y h1.
Proof.
  induction x as [|o x IH]; intros y h; cbn [List.app m_run bind]; [reflexivity|].
  destruct (m_step debug o h); cbn [bind]; auto.
Qed.
Lemma calls_app a (x : list (mop F)) o : calls_of a (x ++ [o]) = call_on a (calls_of a x) o.
Proof. unfold calls_of. rewrite fold_left_app. reflexivity. Qed.

Definition stands debug (ops : list (mop F)) h : Prop := forall a,
  match calls_of a ops with
  | None => h a = None
  | Some cs => exists s, own_obj h a s /\ sl_run debug cs st_new = Ok s
  end.
Lemma stands_step debug ops o h h' : stands debug ops h -> plain_op o -> m_step debug o h = Ok h' -> stands debug (ops ++ [o]) h'.
Proof.
  intros I P E a. specialize (I a) as Ia. rewrite calls_app. destruct o as [b| | |b|b op]; try contradiction; cbn [call_on]; cbn [m_step] in E.
  - destruct (h b) eqn:Eb; [discriminate|]. inversion E; subst. clear E. destruct (Nat.eqb_spec b a) as [->|N].
    + exists st_new. split; [split|reflexivity]; [unfold mput; now rewrite Nat.eqb_refl|apply flat_new].
    + assert (K : mput b (Some (ob_new b)) h a = h a) by (unfold mput; destruct (Nat.eqb_spec a b); congruence).
      destruct (calls_of a ops); [|now rewrite K]. destruct Ia as (s & [S1 S2] & R). exists s. split; [split|]; auto. now rewrite K.
  - destruct (h b) eqn:Eb; [|discriminate]. inversion E; subst. clear E. destruct (Nat.eqb_spec b a) as [->|N].
    + unfold mput. now rewrite Nat.eqb_refl.
    + assert (K : mput b None h a = h a) by (unfold mput; destruct (Nat.eqb_spec a b); congruence).
      destruct (calls_of a ops); [|now rewrite K]. destruct Ia as (s & [S1 S2] & R). exists s. split; [split|]; auto. now rewrite K.
  - specialize (I b). destruct (calls_of b ops) as [cs|] eqn:Cb.
    + destruct I as (s & O & R). pose proof (own_call debug b op h s O) as K.
      destruct (sl_step debug op s) as [s'| | | | |] eqn:ES; try congruence.
      destruct K as (h2 & E2 & O2 & Fr). assert (h2 = h') by congruence. subst h2. destruct (Nat.eqb_spec b a) as [->|N].
      * rewrite Cb. cbn [option_map]. exists s'. split; auto. rewrite sl_run_app, R. cbn [bind sl_run]. rewrite ES. reflexivity.
      * destruct (calls_of a ops); [|rewrite Fr; auto]. destruct Ia as (s2 & [S1 S2] & R2). exists s2. split; [split|]; auto. rewrite Fr; auto.
    + exfalso. unfold m_call in E. rewrite I in E. discriminate.
Qed.
Lemma stands_run debug ops : forall pre h h', stands debug pre h -> Forall plain_op ops -> m_run debug ops h = Ok h' -> stands debug (pre ++ ops) h'.
Proof.
  induction ops as [|o ops IH]; intros pre h h' I P E; cbn [m_run] in E.
  - inversion E; subst. now rewrite app_nil_r.
  - inversion P; subst. destruct (m_step debug o h) as [h1| | | | |] eqn:E1; cbn [bind] in E; try discriminate.
    replace (pre ++ o :: ops) with ((pre ++ [o]) ++ ops) by now rewrite <- app_assoc. eapply IH; eauto using stands_step.
Qed.
Lemma stands_empty debug : stands debug [] m_empty.
Proof. intros a. reflexivity. Qed.

Theorem plain_independent debug ops h : Forall plain_op ops -> m_run debug ops m_empty = Ok h ->
  (forall a, match calls_of a ops with
             | None => h a = None
             | Some cs => exists s, own_obj h a s /\ sl_run debug cs st_new = Ok s
             end) /\
  (forall a op cs, calls_of a ops = Some cs ->
    ((exists h', m_run debug (ops ++ [MCall a op]) m_empty = Ok h') <-> (exists s', sl_run debug (cs ++ [op]) st_new = Ok s'))).
Proof.
  intros P E. pose proof (stands_run debug ops [] _ _ (stands_empty debug) P E) as I. cbn [List.app] in I. split; [exact I|].
  intros a op cs C. specialize (I a). rewrite C in I. destruct I as (s & O & R).
  rewrite m_run_app, E, sl_run_app, R. cbn [bind m_run sl_run m_step].
  pose proof (own_call debug a op h s O) as K. destruct (sl_step debug op s) as [s'| | | | |] eqn:ES; cbn [bind].
  - destruct K as (h' & -> & _). cbn [bind]. split; intros _; eauto.
  - rewrite K. cbn [bind]. split; intros [x X]; discriminate.
  - rewrite K. cbn [bind]. split; intros [x X]; discriminate.
  - rewrite K. cbn [bind]. split; intros [x X]; discriminate.
  - rewrite K. cbn [bind]. split; intros [x X]; discriminate.
  - rewrite K. cbn [bind]. split; intros [x X]; discriminate.
Qed.

(** ** Copies and moves *)
Definition logs (t : string) (x : lval F) : slop F := SlOp (match x with VInt z => StLogZ t z | VFlt v => StLogF t v end).
Lemma logs_step debug t x s : sl_step debug (logs t x) s = Ok (st_log_val t x s).
Proof. destruct x; reflexivity. Qed.
Lemma logs_ok t x s : call_ok (logs t x) s = back_ok t (st_len s) (st_ser s).
Proof. destruct x; reflexivity. Qed.
Lemma logs_floats t (x : lval F) : uses_floats (logs t x) = true.
Proof. reflexivity. Qed.

Lemma st_get_app t s : st_get t s = option_map snd (find (fun p => String.eqb (fst p) t) (st_ser s)).
Proof. reflexivity. Qed.
Lemma find_map_fst (f : string * list F -> string * list F) t l : (forall p, fst (f p) = fst p) ->
  find (fun p => String.eqb (fst p) t) (map f l) = option_map f (find (fun p => String.eqb (fst p) t) l).
Proof.
  intros Hf. induction l as [|p l IH]; cbn; auto. rewrite Hf. destruct String.eqb; auto.
Qed.
(** a Log through the pointers, seen from the owner of the vectors *)
Lemma st_get_log t x s l t' : flat s -> st_get t' s = Some l ->
  st_get t' (st_log_val t x s) = Some (log_ser t t' (lval_num x) l).
Proof.
  intros H E. unfold st_log_val, st_set_data. cbn [st_len st_set_log].
  assert (L : length l = st_len s).
  { unfold st_get in E. destruct (find _ (st_ser s)) as [p|] eqn:Ef; cbn in E; [|discriminate]. inversion E; subst.
    apply H. now apply find_some in Ef. }
  unfold log_ser. destruct (Nat.eqb_spec (st_len s) 0) as [Z|Z].
  - destruct l; [|cbn in L; lia].
    rewrite st_get_app. cbn [st_ser st_set_ser]. rewrite find_map_fst by (intros p; destruct String.eqb; reflexivity).
    rewrite (new_iteration_ser (st_set_log s _)) by exact H. cbn [st_ser st_set_log]. rewrite find_map_fst by reflexivity.
    unfold st_get in E. destruct (find _ (st_ser s)) as [p|] eqn:Ef; cbn in E; [|discriminate]. inversion E as [E']. rewrite E' in *.
    cbn [option_map fst snd]. apply find_some in Ef. destruct Ef as [_ Ef]. apply String.eqb_eq in Ef. rewrite Ef.
    rewrite E'. destruct (String.eqb t' t); reflexivity.
  - destruct l as [|y l]; [cbn in L; lia|].
    rewrite st_get_app. cbn [st_ser st_set_ser st_set_log]. rewrite find_map_fst by (intros p; destruct String.eqb; reflexivity).
    unfold st_get in E. destruct (find _ (st_ser s)) as [p|] eqn:Ef; cbn in E; [|discriminate]. inversion E as [E']. 
    cbn [option_map]. apply find_some in Ef. destruct Ef as [_ Ef]. apply String.eqb_eq in Ef. rewrite Ef, E'.
    destruct (String.eqb t' t); cbn [snd]; [reflexivity|now rewrite E'].
Qed.

Lemma set_back_newest v (l : list F) : l <> [] -> set_back v l = newest v l.
Proof. destruct l; [congruence|reflexivity]. Qed.
Lemma log_ser_newest t v (l : list F) : log_ser t t v l = newest v l.
Proof.
  unfold log_ser. rewrite String.eqb_refl. destruct l; [reflexivity|]. now apply set_back_newest.
Qed.

Lemma mput_same a o h : mput a o h a = o.
Proof. unfold mput. now rewrite Nat.eqb_refl. Qed.
Lemma mput_other a b o h : b <> a -> mput a o h b = h b.
Proof. intros N. unfold mput. apply Nat.eqb_neq in N. now rewrite N. Qed.

Theorem copy_log debug h a b s t x l : own_obj h a s -> h b = None -> st_get t s = Some l ->
  exists h1 h2, m_step debug (MCopy a b) h = Ok h1 /\ m_step debug (MCall b (logs t x)) h1 = Ok h2 /\
    (forall t', own_series h1 b t' = st_get t' s) /\
    (forall t', own_series h2 b t' = st_get t' s) /\ own_series h2 a t = Some (newest (lval_num x) l).
Proof.
  intros [E W] B L. assert (N : b <> a) by congruence. cbn [m_step]. rewrite E, B. cbn [ob_gone ob_st ob_ptr ob_ord].
  set (h1 := mput b _ h). exists h1.
  assert (H1b : h1 b = Some (mkObj s (Some a) a false)) by (apply mput_same).
  assert (H1a : h1 a = Some (mkObj s (Some a) a false)) by (unfold h1; rewrite mput_other; auto).
  unfold m_call. rewrite H1b. cbn [ob_gone ob_st ob_ptr ob_ord uses_order logs andb]. rewrite logs_floats.
  unfold reach. cbn [ob_ptr]. rewrite H1a. cbn [bind ob_st]. rewrite set_ser_id, logs_ok, (back_ok_flat t s W), logs_step. cbn [bind].
  rewrite (mput_other b a) by auto. rewrite H1a. cbn [ob_st ob_ptr ob_ord ob_gone].
  eexists. split; [reflexivity|]. split; [reflexivity|]. split; [|split].
  - intros t'. unfold own_series. rewrite H1b. reflexivity.
  - intros t'. unfold own_series. rewrite mput_other, mput_same by auto. reflexivity.
  - unfold own_series. rewrite mput_same. cbn [ob_st].
    pose proof (st_get_log t x s l t W L) as G. rewrite log_ser_newest in G. exact G.
Qed.

Lemma gone_ptr debug h b o p op : h b = Some o -> ob_ptr o = Some p -> h p = None -> records op -> m_step debug (MCall b op) h = UB.
Proof.
  intros E P D R. cbn [m_step]. unfold m_call. rewrite E. destruct (ob_gone o); [reflexivity|].
  destruct op; try contradiction. cbn [uses_order andb uses_floats]. unfold reach. rewrite P, D. reflexivity.
Qed.
Lemma gone_ord debug h b o op : h b = Some o -> h (ob_ord o) = None -> shows op -> lg_level (st_log (ob_st o)) <> kSilent ->
  m_step debug (MCall b op) h = UB.
Proof.
  intros E D S V. cbn [m_step]. unfold m_call. rewrite E. destruct (ob_gone o); [reflexivity|].
  rewrite D. apply Z.eqb_neq in V. destruct op; try contradiction; cbn [uses_order]; rewrite V; reflexivity.
Qed.

Theorem copy_dangles debug h a b s : own_obj h a s -> h b = None ->
  exists h2, m_run debug [MCopy a b; MDestroy a] h = Ok h2 /\ h2 b = Some (mkObj s (Some a) a false) /\
    (forall op, records op -> m_step debug (MCall b op) h2 = UB) /\
    (forall op, shows op -> lg_level (st_log s) <> kSilent -> m_step debug (MCall b op) h2 = UB).
Proof.
  intros [E W] B. assert (N : b <> a) by congruence. cbn [m_run m_step]. rewrite E, B. cbn [ob_gone ob_st ob_ptr ob_ord bind].
  rewrite mput_other, E by auto. cbn [bind]. eexists. split; [reflexivity|].
  set (h2 := mput a None _).
  assert (Hb : h2 b = Some (mkObj s (Some a) a false)) by (unfold h2; rewrite mput_other, mput_same; auto).
  assert (Ha : h2 a = None) by apply mput_same.
  split; [exact Hb|]. split.
  - intros op R. exact (gone_ptr debug h2 b _ a op Hb eq_refl Ha R).
  - intros op S V. exact (gone_ord debug h2 b _ op Hb Ha S V).
Qed.

(** what the moved-from object holds *)
Lemma left_get t s l : st_get t s = Some l -> st_get t (st_set_ser s (map (fun p => (fst p, [])) (st_ser s)) (st_len s)) = Some [].
Proof.
  unfold st_get. cbn [st_ser st_set_ser]. rewrite find_map_fst by reflexivity. destruct (find _ (st_ser s)); cbn; [reflexivity|discriminate].
Qed.
Lemma move_step debug h a b s : own_obj h a s -> h b = None ->
  exists h1, m_step debug (MMove a b) h = Ok h1 /\ h1 b = Some (mkObj s (Some a) b false) /\
    h1 a = Some (mkObj (st_set_ser s (map (fun p => (fst p, [])) (st_ser s)) (st_len s)) None b true).
Proof.
  intros [E W] B. assert (N : b <> a) by congruence. cbn [m_step]. rewrite E, B. cbn [ob_gone ob_st ob_ptr ob_ord].
  eexists. split; [reflexivity|]. unfold re_ord. split.
  - rewrite mput_other, mput_same by auto. cbn. now rewrite Nat.eqb_refl.
  - rewrite mput_same. unfold ob_left. cbn [option_map ob_st ob_ptr ob_ord ob_gone]. now rewrite Nat.eqb_refl.
Qed.

Theorem move_log debug h a b s t x l : own_obj h a s -> h b = None -> st_get t s = Some l ->
  exists h1, m_step debug (MMove a b) h = Ok h1 /\ (forall t', own_series h1 b t' = st_get t' s) /\
    (l <> [] -> m_step debug (MCall b (logs t x)) h1 = UB) /\
    (l = [] -> exists h2, m_step debug (MCall b (logs t x)) h1 = Ok h2 /\
       own_series h2 a t = Some [lval_num x] /\ (forall t', own_series h2 b t' = st_get t' s) /\ own_back h2 b t = UB) /\
    (exists h2, m_step debug (MDestroy a) h1 = Ok h2 /\ forall op, records op -> m_step debug (MCall b op) h2 = UB).
Proof.
  intros O B L. pose proof O as [E W]. assert (N : b <> a) by congruence. destruct (move_step debug h a b s O B) as (h1 & M & H1b & H1a).
  exists h1. split; [exact M|]. split; [intros t'; unfold own_series; now rewrite H1b|].
  set (s0 := st_set_ser s (map (fun p => (fst p, [])) (st_ser s)) (st_len s)) in *.
  assert (Len : length l = st_len s).
  { unfold st_get in L. destruct (find _ (st_ser s)) as [p|] eqn:Ef; cbn in L; [|discriminate]. inversion L; subst. apply W. now apply find_some in Ef. }
  assert (K : m_step debug (MCall b (logs t x)) h1 =
    if back_ok t (st_len s) (st_ser s0) then
      Ok (mput a (Some (mkObj (st_set_ser s0 (st_ser (st_log_val t x s0)) (st_len s0)) None b true))
          (mput b (Some (mkObj (st_set_ser (st_log_val t x s0) (st_ser s) (st_len (st_log_val t x s0))) (Some a) b false)) h1))
    else UB).
  { cbn [m_step]. unfold m_call. rewrite H1b. cbn [ob_gone ob_st ob_ptr ob_ord uses_order logs andb]. rewrite logs_floats.
    unfold reach. cbn [ob_ptr]. rewrite H1a. cbn [bind ob_st]. rewrite logs_ok, logs_step. cbn [st_len st_set_ser st_ser].
    destruct (back_ok _ _ _); [|reflexivity]. cbn [bind]. rewrite mput_other, H1a by auto. reflexivity. }
  split; [|split].
  - intros NE. rewrite K. replace (back_ok t (st_len s) (st_ser s0)) with false; [reflexivity|]. symmetry. unfold back_ok.
    destruct (Nat.eqb_spec (st_len s) 0) as [Z|Z]; [destruct l; cbn in Len; [congruence|lia]|]. cbn [orb].
    destruct (forallb _ _) eqn:EF; [|reflexivity]. exfalso. rewrite forallb_forall in EF.
    unfold st_get in L. destruct (find _ (st_ser s)) as [p|] eqn:Ef; cbn in L; [|discriminate]. apply find_some in Ef. destruct Ef as [Ip Ep].
    specialize (EF (fst p, [])). cbn [fst snd] in EF. rewrite Ep in EF. cbn in EF. assert (X : false = true); [|discriminate].
    apply EF. unfold s0. cbn [st_ser st_set_ser]. apply in_map_iff. exists p. auto.
  - intros ->. cbn in Len. rewrite K. unfold back_ok. rewrite <- Len. cbn [Nat.eqb orb]. eexists. split; [reflexivity|].
    assert (W0 : flat s0).
    { intros p Hp. unfold s0 in *. cbn [st_ser st_set_ser st_len] in *. apply in_map_iff in Hp. destruct Hp as (q & <- & _). exact Len. }
    split; [|split].
    + unfold own_series. rewrite mput_same. cbn [ob_st].
      pose proof (st_get_log t x s0 [] t W0 (left_get t s [] L)) as G. rewrite log_ser_newest in G. exact G.
    + intros t'. unfold own_series. rewrite mput_other, mput_same by auto. reflexivity.
    + unfold own_back. rewrite mput_other, mput_same by auto. cbn [ob_st]. unfold st_back.
      replace (st_get t (st_set_ser (st_log_val t x s0) (st_ser s) (st_len (st_log_val t x s0)))) with (st_get t s) by reflexivity. rewrite L. reflexivity.
  - cbn [m_step]. rewrite H1a. eexists. split; [reflexivity|]. intros op R.
    apply (gone_ptr debug _ b (mkObj s (Some a) b false) a op); auto; [rewrite mput_other; auto|apply mput_same].
Qed.

(** ** No call on an object whose map points elsewhere changes its own vectors *)
Lemma console_ser debug op s s' : uses_floats op = false -> sl_step debug op s = Ok s' -> st_ser s' = st_ser s.
Proof.
  intros U E. destruct op as [o|c v g|l| |]; cbn in U; try discriminate; cbn [sl_step] in E.
  - unfold st_set_tolerances in E.
    destruct (lg_bound _ _ "dJ" _ _) as [g1| | | | |]; cbn [bind] in E; try discriminate.
    destruct (lg_bound _ _ "viol" _ _) as [g2| | | | |]; cbn [bind] in E; try discriminate.
    destruct (lg_bound _ _ "grad" _ _) as [g3| | | | |]; cbn [bind] in E; try discriminate.
    inversion E; subst. reflexivity.
  - inversion E; subst. reflexivity.
  - unfold st_print_last in E. destruct (lg_print _) as [[out g]| | | | |]; cbn [bind] in E; try discriminate.
    inversion E; subst. reflexivity.
  - inversion E; subst. reflexivity.
Qed.
Lemma far_call debug b a op h h' o : a <> b -> h b = Some o -> ob_ptr o = Some a -> m_step debug (MCall b op) h = Ok h' ->
  exists o', h' b = Some o' /\ ob_ptr o' = Some a /\ st_ser (ob_st o') = st_ser (ob_st o).
Proof.
  intros N E P M. cbn [m_step] in M. unfold m_call in M. rewrite E in M. destruct (ob_gone o); [discriminate|].
  destruct (uses_order op (ob_st o) && _); [discriminate|]. destruct (uses_floats op) eqn:U.
  - destruct (reach h o) as [ser| | | | |]; cbn [bind] in M; try discriminate. destruct (call_ok op _); [|discriminate].
    destruct (sl_step debug op _) as [v'| | | | |]; cbn [bind] in M; try discriminate. rewrite P in M.
    rewrite mput_other in M by auto. destruct (h a) as [t|]; [|discriminate]. inversion M; subst.
    eexists. rewrite mput_other, mput_same by auto. split; [reflexivity|]. split; reflexivity.
  - destruct (sl_step debug op (ob_st o)) as [v'| | | | |] eqn:ES; cbn [bind] in M; try discriminate. inversion M; subst.
    eexists. rewrite mput_same. split; [reflexivity|]. split; [exact P|]. cbn [ob_st]. eapply console_ser; eauto.
Qed.
Lemma far_run debug b a ops : a <> b -> forall h h' o, h b = Some o -> ob_ptr o = Some a ->
  m_run debug (map (MCall b) ops) h = Ok h' -> forall t, own_series h' b t = own_series h b t.
Proof.
  intros N. induction ops as [|op ops IH]; intros h h' o E P M t; cbn [map m_run] in M.
  - inversion M; subst. reflexivity.
  - destruct (m_step debug (MCall b op) h) as [h1| | | | |] eqn:E1; cbn [bind] in M; try discriminate.
    destruct (far_call debug b a op h h1 o N E P E1) as (o1 & E2 & P2 & S2).
    rewrite (IH h1 h' o1 E2 P2 M t). unfold own_series. rewrite E, E2. unfold st_get. now rewrite S2.
Qed.
Theorem copy_never_records debug h a b s ops h' : own_obj h a s -> h b = None ->
  m_run debug (MCopy a b :: map (MCall b) ops) h = Ok h' \/ m_run debug (MMove a b :: map (MCall b) ops) h = Ok h' ->
  forall t, own_series h' b t = own_series h a t.
Proof.
  intros O B [M|M] t; pose proof O as [E W]; assert (N : a <> b) by congruence.
  - cbn [m_run m_step] in M. rewrite E, B in M. cbn [ob_gone ob_st ob_ptr ob_ord bind] in M.
    set (h1 := mput b _ h) in M. assert (H1 : h1 b = Some (mkObj s (Some a) a false)) by apply mput_same.
    rewrite (far_run debug b a ops N h1 h' _ H1 eq_refl M t). unfold own_series. now rewrite H1, E.
  - destruct (move_step debug h a b s O B) as (h1 & M1 & H1 & _). cbn [m_run] in M. rewrite M1 in M. cbn [bind] in M.
    rewrite (far_run debug b a ops N h1 h' _ H1 eq_refl M t). unfold own_series. now rewrite H1, E.
Qed.
(** the first calls of a solve on a moved solver: Reset, then the cost is logged *)
Theorem move_solve debug h a b s o t x l : own_obj h a s -> h b = None -> st_get t s = Some l ->
  o_max_total o >= 0 -> o_header_freq o >= 0 ->
  exists h', m_run debug [MMove a b; MCall b (SlOp (StReset o)); MCall b (logs t x)] h = Ok h' /\
    own_series h' a t = Some [lval_num x] /\ own_series h' b t = Some l.
Proof.
  intros O B L Mx Fq. pose proof O as [E W]. assert (N : a <> b) by congruence. destruct (move_step debug h a b s O B) as (h1 & M & H1b & H1a).
  set (s0 := st_set_ser s (map (fun p => (fst p, [])) (st_ser s)) (st_len s)) in *.
  assert (R : exists s1, st_reset debug o s0 = Ok s1 /\ st_ser s1 = st_ser s0 /\ st_len s1 = 0%nat).
  { unfold st_reset. destruct (Z.ltb_spec (o_max_total o) 0); [lia|]. unfold lg_set_frequency, altro_assert.
    replace (debug && negb _) with false.
    - cbn [bind]. eexists. split; [reflexivity|]. split; [|reflexivity]. unfold s0. cbn. rewrite map_map. reflexivity.
    - symmetry. destruct debug; [|reflexivity]. cbn [andb]. apply negb_false_iff, Z.leb_le. unfold int_max. destruct (_ <? kInner); lia. }
  destruct R as (s1 & R1 & R2 & R3).
  assert (W0 : flat s1).
  { intros p Hp. rewrite R2 in Hp. unfold s0 in Hp. cbn in Hp. apply in_map_iff in Hp. destruct Hp as (q & <- & _). now rewrite R3. }
  assert (G0 : st_get t s1 = Some []).
  { unfold st_get. rewrite R2. change (st_get t s0 = Some []). now apply (left_get t s l). }
  cbn [m_run]. rewrite M. cbn [bind m_step]. unfold m_call at 1. rewrite H1b.
  cbn [ob_gone ob_st ob_ptr ob_ord uses_order andb uses_floats]. unfold reach at 1. cbn [ob_ptr]. rewrite H1a. cbn [bind ob_st call_ok sl_step st_step].
  change (st_set_ser s (st_ser s0) (st_len s)) with s0. rewrite R1. cbn [bind]. rewrite mput_other, H1a by auto. cbn [ob_st ob_ptr ob_ord ob_gone bind].
  set (h2 := mput a _ _).
  assert (H2b : h2 b = Some (mkObj (st_set_ser s1 (st_ser s) (st_len s1)) (Some a) b false)) by (unfold h2; rewrite mput_other, mput_same by auto; reflexivity).
  assert (H2a : h2 a = Some (mkObj (st_set_ser s0 (st_ser s1) (st_len s0)) None b true)) by (apply mput_same).
  unfold m_call. rewrite H2b. cbn [ob_gone ob_st ob_ptr ob_ord uses_order logs andb]. rewrite logs_floats.
  unfold reach. cbn [ob_ptr]. rewrite H2a. cbn [bind ob_st st_ser st_len st_set_ser].
  replace (st_set_ser (st_set_ser s1 (st_ser s) (st_len s1)) (st_ser s1) (st_len s1)) with s1 by (destruct s1; reflexivity).
  rewrite logs_ok, (back_ok_flat t s1 W0), logs_step. cbn [bind]. rewrite mput_other, H2a by auto. cbn [ob_st ob_ptr ob_ord ob_gone].
  eexists. split; [reflexivity|]. split.
  - unfold own_series. rewrite mput_same. cbn [ob_st].
    pose proof (st_get_log t x s1 [] t W0 G0) as G. rewrite log_ser_newest in G. exact G.
  - unfold own_series. rewrite mput_other, mput_same by auto. exact L.
Qed.
End Move.
