(** Proofs about the logger and the statistics. *)
From Coq Require Import ZArith String List Bool Lia.
From Verif Require Import Base LogModel StatsModel StatsSpec.
Import ListNotations.
Local Open Scope Z_scope.

Section Stats.
Context {F : Scalar}.
Implicit Types (s : Stats F) (ops : list (stop F)).

(** ** Thread option *)
Lemma num_threads_spec hw (o : Opts F) :
  (o_nthreads o = -1 -> num_threads hw o = hw) /\
  (o_nthreads o <> -1 -> 1 <= num_threads hw o) /\
  (0 < o_nthreads o -> num_threads hw o = o_nthreads o).
Proof.
  unfold num_threads. repeat split; intros H.
  - rewrite H. reflexivity.
  - destruct (Z.eqb_spec (o_nthreads o) (-1)); lia.
  - destruct (Z.eqb_spec (o_nthreads o) (-1)); lia.
Qed.

(** ** Series invariant *)
Lemma last_app {A} (l : list A) x d : last (l ++ [x]) d = x.
Proof. induction l as [|a l IH]; simpl; auto. destruct l; simpl in *; auto. Qed.
Lemma removelast_snoc {A} (l : list A) x : removelast (l ++ [x]) = l.
Proof. rewrite removelast_app by discriminate. simpl. apply app_nil_r. Qed.

Lemma set_back_snoc v (l : list F) x : set_back v (l ++ [x]) = l ++ [v].
Proof. unfold set_back. rewrite removelast_snoc. destruct l; reflexivity. Qed.
Lemma set_back_nil v : set_back v (@nil F) = [].
Proof. reflexivity. Qed.

Lemma vresize_S (l : list F) : vresize (S (length l)) l = l ++ [zero].
Proof.
  unfold vresize. rewrite firstn_all2 by lia. f_equal.
  replace (S (length l) - length l)%nat with 1%nat by lia. reflexivity.
Qed.

(** what one series looks like after each call *)
Definition new_ser (l : list F) : list F := l ++ [last l zero].
Lemma new_iteration_ser s : (forall p, In p (st_ser s) -> length (snd p) = st_len s) ->
  st_ser (st_new_iteration s) = map (fun p => (fst p, new_ser (snd p))) (st_ser s).
Proof.
  intros H. unfold st_new_iteration; simpl. apply map_ext_in. intros p Hp.
  specialize (H p Hp). f_equal. rewrite <- H. rewrite vresize_S. rewrite set_back_snoc. unfold new_ser. f_equal. f_equal.
  rewrite rev_app_distr. simpl.
  destruct (snd p) as [|a l] using rev_ind; simpl; auto.
  rewrite rev_app_distr, last_app. rewrite app_length; simpl. 
  replace (Nat.ltb 1 (S (length l + 1))) with true; auto. symmetry. apply Nat.ltb_lt. lia.
Qed.

Definition ser_inv s (f : string -> list F) : Prop :=
  (forall p, In p (st_ser s) -> length (snd p) = st_len s /\ snd p = f (fst p)).

Definition log_ser (t t' : string) (v : F) (l : list F) : list F :=
  let l := match l with [] => new_ser l | _ => l end in
  if String.eqb t' t then set_back v l else l.

Lemma new_ser_length (l : list F) : length (new_ser l) = S (length l).
Proof. unfold new_ser. rewrite app_length; simpl; lia. Qed.
Lemma set_back_length v (l : list F) : length (set_back v l) = length l.
Proof.
  destruct l as [|x l] using rev_ind; auto. rewrite set_back_snoc, !app_length; simpl; lia.
Qed.

Lemma ser_new s f : ser_inv s f -> ser_inv (st_new_iteration s) (fun t => new_ser (f t)).
Proof.
  intros H p Hp. rewrite new_iteration_ser in Hp by (intros; now apply H).
  apply in_map_iff in Hp. destruct Hp as (q & <- & Hq). simpl. specialize (H q Hq). destruct H as [H1 H2].
  rewrite new_ser_length. split; [now rewrite H1|now rewrite H2].
Qed.
Lemma ser_set t v s f : ser_inv s f -> ser_inv (st_set_data t v s) (fun t' => log_ser t t' v (f t')).
Proof.
  intros H. unfold st_set_data.
  destruct (Nat.eqb_spec (st_len s) 0) as [E|E].
  - pose proof (ser_new s f H) as H'. intros p Hp. simpl in Hp.
    apply in_map_iff in Hp. destruct Hp as (q & <- & Hq). specialize (H' q Hq). destruct H' as [H1 H2].
    assert (Hnil : f (fst q) = []).
    { apply length_zero_iff_nil. rewrite H2, new_ser_length in H1. simpl in H1. lia. }
    unfold log_ser. destruct (String.eqb (fst q) t) eqn:Et; simpl; rewrite ?Et, Hnil.
    + rewrite set_back_length. split; auto. rewrite H2, Hnil. reflexivity.
    + split; auto. rewrite H2, Hnil. reflexivity.
  - intros p Hp. simpl in Hp. apply in_map_iff in Hp. destruct Hp as (q & <- & Hq). destruct (H q Hq) as [H1 H2].
    assert (Hc : match f (fst q) with [] => new_ser (f (fst q)) | _ => f (fst q) end = f (fst q)).
    { rewrite <- H2. destruct (snd q); auto. simpl in H1. lia. }
    unfold log_ser. destruct (String.eqb (fst q) t) eqn:Et; simpl; rewrite ?Et, Hc.
    + rewrite set_back_length. split; auto. now rewrite H2.
    + auto.
Qed.

(** the titles never change *)
Definition titles s : list string := map fst (st_ser s).
Lemma titles_new s : titles (st_new_iteration s) = titles s.
Proof. unfold titles; simpl. rewrite map_map. apply map_ext; auto. Qed.
Lemma titles_set t v s : titles (st_set_data t v s) = titles s.
Proof.
  unfold st_set_data. set (s' := if Nat.eqb _ _ then _ else _).
  assert (titles s' = titles s) by (unfold s'; destruct Nat.eqb; auto using titles_new).
  rewrite <- H. unfold titles; simpl. rewrite map_map. apply map_ext. intros p. destruct String.eqb; auto.
Qed.

(** value-level semantics of a history, by the three effects *)
Definition ser_step (t : string) (l : list F) (o : stop F) : list F :=
  match o with
  | StLogF t' x => log_ser t' t x l
  | StLogZ t' z => log_ser t' t (ofZ z) l
  | StNew => new_ser l
  | StReset _ => []
  end.
Lemma ser_inv_step debug o s s' f : ser_inv s f -> st_step debug o s = Ok s' ->
  ser_inv s' (fun t => ser_step t (f t) o) /\ titles s' = titles s.
Proof.
  intros H. destruct o; simpl; intros E.
  - inversion E; subst. split; [|unfold st_logF, st_log_val; now rewrite titles_set].
    unfold st_logF, st_log_val. apply (ser_set t x (st_set_log s _) f). exact H.
  - inversion E; subst. split; [|unfold st_logZ, st_log_val; now rewrite titles_set].
    unfold st_logZ, st_log_val. apply (ser_set t (ofZ z) (st_set_log s _) f). exact H.
  - inversion E; subst. split; [now apply ser_new|apply titles_new].
  - unfold st_reset in E. destruct (o_max_total o <? 0); [discriminate|].
    unfold lg_set_frequency, altro_assert in E. destruct (debug && negb _); simpl in E; [discriminate|].
    inversion E; subst. split.
    + intros p Hp. simpl in Hp. apply in_map_iff in Hp. destruct Hp as (q & <- & Hq). simpl; auto.
    + unfold titles; simpl. rewrite map_map. apply map_ext; auto.
Qed.
Lemma ser_inv_run debug ops : forall s s' f, ser_inv s f -> st_run debug ops s = Ok s' ->
  ser_inv s' (fun t => fold_left (ser_step t) ops (f t)) /\ titles s' = titles s.
Proof.
  induction ops as [|o ops IH]; simpl; intros s s' f H E.
  - inversion E; subst; auto.
  - destruct (st_step debug o s) as [s1| | | | |] eqn:E1; simpl in E; try discriminate.
    destruct (ser_inv_step _ _ _ _ _ H E1) as [H1 T1].
    destruct (IH _ _ _ H1 E) as [H2 T2]. split; auto. congruence.
Qed.

(** ** connection to the specification *)
Lemma since_reset_app ops o : since_reset (ops ++ [o]) = match o with StReset _ => [] | _ => since_reset ops ++ [o] end.
Proof.
  induction ops as [|a ops IH]; simpl.
  - destruct o; reflexivity.
  - rewrite existsb_app; simpl. destruct o; simpl; rewrite ?orb_false_r, ?orb_true_r; rewrite ?IH; auto;
    destruct (existsb _ ops) eqn:E; auto; destruct a; auto.
Qed.
Lemma since_reset_no ops : Forall (fun o => match o with StReset _ => False | _ => True end) (since_reset ops).
Proof.
  induction ops as [|o ops IH] using rev_ind; [constructor|].
  rewrite since_reset_app. destruct o; auto; apply Forall_app; split; auto.
Qed.

Definition started (k : nat) (o : stop F) : nat := if is_new o then S k else Nat.max k 1.
Definition iters_from (k : nat) ops : nat := fold_left started ops k.
Lemma iters_from_pos ops : forall k, (1 <= k)%nat -> iters_from k ops = (k + length (filter is_new ops))%nat.
Proof.
  induction ops as [|o ops IH]; simpl; intros k Hk; [lia|].
  unfold iters_from in *. simpl. unfold started at 2. destruct (is_new o); simpl; rewrite IH; lia.
Qed.
Lemma iterations_eq ops : Forall (fun o => match o with StReset _ => False | _ => True end) ops ->
  iterations ops = iters_from 0 ops.
Proof.
  intros H. destruct ops as [|o ops]; auto. inversion H; subst.
  unfold iterations, iters_from. simpl. unfold started at 2.
  destruct o; simpl in *; try easy; fold (iters_from 1 ops); rewrite iters_from_pos; lia.
Qed.
Lemma iters_snoc k ops o : iters_from k (ops ++ [o]) = started (iters_from k ops) o.
Proof. unfold iters_from. now rewrite fold_left_app. Qed.
Lemma iters_mono ops : forall k, (k <= iters_from k ops)%nat.
Proof.
  induction ops as [|o ops IH]; simpl; intros k; [unfold iters_from; simpl; lia|].
  unfold iters_from in *; simpl. specialize (IH (started k o)). unfold started in *. destruct (is_new o); lia.
Qed.

(** calls in iterations before the last one are unaffected by a further call *)
Lemma upto_all i ops : forall k, (iters_from k ops <= S i)%nat -> upto i k ops = ops.
Proof.
  induction ops as [|o ops IH]; simpl; intros k H; auto. unfold iters_from in H; simpl in H. fold (started k o).
  pose proof (iters_mono ops (started k o)). unfold iters_from in *.
  destruct (Nat.ltb_spec (S i) (started k o)); [lia|]. f_equal. now apply IH.
Qed.
Lemma upto_snoc_new i ops o : forall k, (S i < started (iters_from k ops) o)%nat -> upto i k (ops ++ [o]) = upto i k ops.
Proof.
  induction ops as [|a ops IH]; simpl; intros k H.
  - unfold iters_from in H; simpl in H. fold (started k o). destruct (Nat.ltb_spec (S i) (started k o)); auto; lia.
  - fold (started k a). destruct (Nat.ltb_spec (S i) (started k a)); auto. f_equal. apply IH. exact H.
Qed.

Lemma last_logged_app t ops o : last_logged t (ops ++ [o]) =
  match logged t o with [] => last_logged t ops | x :: _ => x end.
Proof.
  unfold last_logged. rewrite flat_map_app. simpl. rewrite app_nil_r.
  destruct o as [t' x|t' z| |]; simpl; rewrite ?app_nil_r; auto; destruct (String.eqb t' t); simpl;
    rewrite ?app_nil_r; auto; apply last_app.
Qed.

Lemma series_len t ops : length (series_of t ops) = iterations ops.
Proof. unfold series_of. now rewrite map_length, seq_length. Qed.
Lemma series_last t ops : Forall (fun o => match o with StReset _ => False | _ => True end) ops ->
  (0 < iterations ops)%nat ->
  series_of t ops = map (fun i => last_logged t (upto i 0 ops)) (seq 0 (iterations ops - 1)) ++ [last_logged t ops].
Proof.
  intros H Hp. unfold series_of. destruct (iterations ops) as [|k] eqn:E; [lia|].
  rewrite seq_S, map_app. simpl. rewrite Nat.sub_0_r. f_equal. f_equal. f_equal. apply upto_all.
  rewrite <- iterations_eq, E; auto.
Qed.
Lemma series_step t ops o : Forall (fun o => match o with StReset _ => False | _ => True end) ops ->
  match o with StReset _ => False | _ => True end ->
  series_of t (ops ++ [o]) = ser_step t (series_of t ops) o.
Proof.
  intros H Ho.
  assert (H' : Forall (fun o => match o with StReset _ => False | _ => True end) (ops ++ [o])) by (apply Forall_app; auto).
  assert (Hn : iterations (ops ++ [o]) = started (iterations ops) o) by (rewrite !iterations_eq by auto; apply iters_snoc).
  assert (Hpos : (0 < iterations (ops ++ [o]))%nat) by (rewrite Hn; unfold started; destruct is_new; lia).
  rewrite (series_last t _ H' Hpos). rewrite Hn.
  assert (Hfront : forall n, (n < started (iterations ops) o)%nat ->
            map (fun i => last_logged t (upto i 0 (ops ++ [o]))) (seq 0 n) =
            map (fun i => last_logged t (upto i 0 ops)) (seq 0 n)).
  { intros n Hlt. apply map_ext_in. intros i Hi. apply in_seq in Hi. f_equal. apply upto_snoc_new.
    rewrite <- iterations_eq by auto. lia. }
  rewrite Hfront by (unfold started; destruct is_new; lia). rewrite last_logged_app.
  assert (Hz : iterations ops = 0%nat -> ops = []).
  { intros E. destruct ops as [|a ops']; auto. inversion H; subst. unfold iterations in E. simpl in E.
    destruct a; simpl in E; try easy; lia. }
  destruct o as [t' x|t' z| |]; simpl in Ho; try easy.
  - (* log float *) unfold started; simpl is_new; cbv iota. simpl ser_step. unfold log_ser.
    destruct (iterations ops) as [|k] eqn:E.
    + rewrite (Hz eq_refl). simpl. rewrite (String.eqb_sym t t'). destruct (String.eqb t' t); reflexivity.
    + replace (Nat.max (S k) 1 - 1)%nat with k by lia.
      pose proof (series_last t ops H ltac:(lia)) as Hs. rewrite E in Hs.
      replace (S k - 1)%nat with k in Hs by lia. rewrite Hs.
      set (fr := map _ _). replace (match fr ++ [last_logged t ops] with [] => new_ser (fr ++ [last_logged t ops]) | _ :: _ => fr ++ [last_logged t ops] end) with (fr ++ [last_logged t ops]) by (destruct fr; auto).
      simpl. rewrite (String.eqb_sym t t'). destruct (String.eqb t' t) eqn:Et; auto. now rewrite set_back_snoc.
  - (* log int *) unfold started; simpl is_new; cbv iota. simpl ser_step. unfold log_ser.
    destruct (iterations ops) as [|k] eqn:E.
    + rewrite (Hz eq_refl). simpl. rewrite (String.eqb_sym t t'). destruct (String.eqb t' t); reflexivity.
    + replace (Nat.max (S k) 1 - 1)%nat with k by lia.
      pose proof (series_last t ops H ltac:(lia)) as Hs. rewrite E in Hs.
      replace (S k - 1)%nat with k in Hs by lia. rewrite Hs.
      set (fr := map _ _). replace (match fr ++ [last_logged t ops] with [] => new_ser (fr ++ [last_logged t ops]) | _ :: _ => fr ++ [last_logged t ops] end) with (fr ++ [last_logged t ops]) by (destruct fr; auto).
      simpl. rewrite (String.eqb_sym t t'). destruct (String.eqb t' t) eqn:Et; auto. now rewrite set_back_snoc.
  - (* new *) unfold started; simpl is_new; cbv iota. simpl. rewrite Nat.sub_0_r. unfold new_ser.
    destruct (iterations ops) as [|k] eqn:E.
    + rewrite (Hz eq_refl). reflexivity.
    + pose proof (series_last t ops H ltac:(lia)) as Hs.
      assert (L : last (series_of t ops) zero = last_logged t ops) by (rewrite Hs; apply last_app).
      rewrite L. f_equal. unfold series_of. rewrite E. reflexivity.
Qed.

Lemma fold_series t ops : fold_left (ser_step t) ops [] = series_of t (since_reset ops).
Proof.
  induction ops as [|o ops IH] using rev_ind; [reflexivity|].
  rewrite fold_left_app. simpl. rewrite IH, since_reset_app.
  destruct o; [| | |reflexivity]; symmetry; apply series_step; try exact I; apply since_reset_no.
Qed.

Lemma find_in {A} (t : string) (l : list (string * A)) :
  In t (map fst l) -> exists v, find (fun p => String.eqb (fst p) t) l = Some (t, v) /\ In (t, v) l.
Proof.
  induction l as [|[a v] l IH]; simpl; [easy|]. intros [E|H].
  - subst. rewrite String.eqb_refl. eauto.
  - destruct (String.eqb_spec a t); [subst; eauto|]. destruct (IH H) as (w & ? & ?). eauto.
Qed.

Theorem stats_series debug ops s : st_run debug ops st_new = Ok s ->
  forall t, In t series_titles -> st_get t s = Some (series_of t (since_reset ops)).
Proof.
  intros E t Ht.
  assert (H0 : ser_inv (@st_new F) (fun _ => [])).
  { intros p Hp. simpl in Hp. repeat (destruct Hp as [<-|Hp]; [simpl; auto|]). easy. }
  destruct (ser_inv_run _ _ _ _ _ H0 E) as [H1 T1].
  assert (Hin : In t (titles s)) by (rewrite T1; exact Ht).
  destruct (find_in t (st_ser s) Hin) as (v & Hf & Hv).
  unfold st_get. rewrite Hf. simpl. f_equal. specialize (H1 _ Hv). simpl in H1. destruct H1 as [_ ->].
  apply fold_series.
Qed.
(** nothing but the eight series is ever recorded *)
Theorem stats_titles debug ops s : st_run debug ops st_new = Ok s -> map fst (st_ser s) = series_titles.
Proof.
  intros E.
  assert (H0 : ser_inv (@st_new F) (fun _ => [])).
  { intros p Hp. simpl in Hp. repeat (destruct Hp as [<-|Hp]; [simpl; auto|]). easy. }
  destruct (ser_inv_run _ _ _ _ _ H0 E) as [H1 T1]. exact T1.
Qed.
(** entries, one by one *)
Theorem series_entry t ops i : (i < iterations ops)%nat ->
  nth_error (series_of t ops) i = Some (last_logged t (upto i 0 ops)).
Proof.
  intros H. unfold series_of. rewrite nth_error_map, nth_error_nth' with (d := 0%nat) by (rewrite seq_length; auto).
  rewrite seq_nth by auto. reflexivity.
Qed.
(** logging an unregistered title once an iteration exists changes no series *)
Theorem stats_unregistered t v s : ~ In t (map fst (st_ser s)) -> st_len s <> 0%nat ->
  st_ser (st_log_val t v s) = st_ser s.
Proof.
  intros H Hl. unfold st_log_val, st_set_data. simpl. destruct (Nat.eqb_spec (st_len s) 0); [easy|]. simpl.
  rewrite <- (map_id (st_ser s)) at 2. apply map_ext_in. intros p Hp.
  destruct (String.eqb_spec (fst p) t) as [<-|]; auto. exfalso. apply H. now apply in_map.
Qed.
End Stats.
(** the status comparison decides equality *)
Lemma status_eqb_spec a b : status_eqb a b = true <-> a = b.
Proof. destruct a, b; split; intros H; try reflexivity; discriminate. Qed.
