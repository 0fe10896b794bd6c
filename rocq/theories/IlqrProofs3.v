(** iLQR: recorded statistics, statuses and costs over a whole solve (any arithmetic). *)
From Coq Require Import ZArith String List Bool Lia.
From Verif Require Import Base Lin RLin LogModel StatsModel StatsProofs TrajModel IlqrModel IlqrSpec IlqrFrame IlqrProofs IlqrProofs2.
Import ListNotations.

Section Series.
Context {F : Scalar}.
(** the recorded series, as a function of the title *)
Definition st_series (st : Stats F) (g : string -> list F) : Prop :=
  titles st = series_titles /\ ser_inv st g.
Lemma ser_len st g t : st_series st g -> In t series_titles -> length (g t) = st_len st.
Proof.
  intros [H1 H2] Ht. rewrite <- H1 in Ht. destruct (find_in t (st_ser st) Ht) as (v & _ & Hin).
  destruct (H2 _ Hin) as [A B]. simpl in *. now rewrite <- B.
Qed.
Lemma ser_get st g t : st_series st g -> In t series_titles -> st_get t st = Some (g t).
Proof.
  intros [H1 H2] Ht. rewrite <- H1 in Ht. destruct (find_in t (st_ser st) Ht) as (v & Hf & Hin).
  unfold st_get. rewrite Hf. simpl. f_equal. apply (H2 _ Hin).
Qed.
Lemma ser_log st g t v : st_series st g -> st_series (st_log_val t v st) (fun t' => log_ser t t' (lval_num v) (g t')).
Proof.
  intros [H1 H2]. split.
  - unfold st_log_val. rewrite titles_set. exact H1.
  - unfold st_log_val. apply ser_set. exact H2.
Qed.
Lemma ser_newit st g : st_series st g -> st_series (st_new_iteration st) (fun t => new_ser (g t)).
Proof. intros [H1 H2]. split; [now rewrite titles_new|now apply ser_new]. Qed.
Lemma ser_ext st st' g : st_ser st' = st_ser st -> st_len st' = st_len st -> st_series st g -> st_series st' g.
Proof. intros A B [H1 H2]. split; unfold titles, ser_inv in *; rewrite A, ?B; auto. Qed.
Lemma st_new_series : st_series (@st_new F) (fun _ => []).
Proof. split; [reflexivity|]. intros p Hp. simpl in Hp. repeat (destruct Hp as [<-|Hp]; [simpl; auto|]). easy. Qed.

Lemma last_log t t' v (l : list F) : last (log_ser t t' v l) zero = if String.eqb t' t then v else last l zero.
Proof.
  unfold log_ser. destruct l as [|x l] using rev_ind.
  - simpl. destruct (String.eqb t' t); reflexivity.
  - clear IHl. replace (match l ++ [x] with [] => new_ser (l ++ [x]) | _ => l ++ [x] end) with (l ++ [x]) by (destruct l; reflexivity).
    destruct (String.eqb t' t); [|reflexivity]. rewrite set_back_snoc, !last_app. reflexivity.
Qed.
Lemma last_newser (l : list F) : last (new_ser l) zero = last l zero.
Proof. unfold new_ser. apply last_app. Qed.
Lemma ser_back st g t : st_series st g -> In t series_titles -> (1 <= st_len st)%nat -> st_back t st = Ok (last (g t) zero).
Proof.
  intros H Ht Hl. unfold st_back. rewrite (ser_get _ _ _ H Ht). pose proof (ser_len _ _ _ H Ht) as E.
  destruct (g t) as [|x l] using rev_ind; [simpl in E; lia|]. unfold last_opt. rewrite rev_app_distr. simpl. now rewrite last_app.
Qed.
Lemma len_log t v (st : Stats F) : st_len (st_log_val t v st) = Nat.max 1 (st_len st).
Proof. unfold st_log_val, st_set_data. cbn -[Nat.max]. destruct (Nat.eqb_spec (st_len st) 0); cbn -[Nat.max]; lia. Qed.
Lemma log_ser_other t t' v (l : list F) : t' <> t -> l <> [] -> log_ser t t' v l = l.
Proof.
  intros H Hl. unfold log_ser. destruct l; [easy|]. destruct (String.eqb_spec t' t); [easy|reflexivity].
Qed.
Lemma log_ser_same t v (l : list F) x : log_ser t t v (l ++ [x]) = l ++ [v].
Proof.
  unfold log_ser. rewrite String.eqb_refl.
  replace (match l ++ [x] with [] => new_ser (l ++ [x]) | _ => l ++ [x] end) with (l ++ [x]) by (destruct l; reflexivity).
  apply set_back_snoc.
Qed.
Lemma back2_snoc st g t l x y : st_series st g -> In t series_titles -> g t = l ++ [x; y] -> st_back2 t st = Ok x.
Proof.
  intros H Ht E. unfold st_back2. rewrite (ser_get _ _ _ H Ht), E. rewrite rev_app_distr. reflexivity.
Qed.

(** what an iteration records (series only) *)
Definition last_of (g : string -> list F) (t : string) : F := last (g t) zero.
(** shape at an iteration boundary *)
Definition boundary (inner : Z) (g : string -> list F) : Prop :=
  inner = 0%Z \/ exists l c, g "cost"%string = l ++ [c; c].

Lemma In_titles : In "cost"%string series_titles /\ In "dJ"%string series_titles /\ In "grad"%string series_titles /\ In "viol"%string series_titles /\ In "pen"%string series_titles.
Proof. unfold series_titles. simpl. auto 20. Qed.

(** statistics right after the backward and forward pass *)
Definition fp_stats (rho : F) (acc : option (F * F * F)) (st : Stats F) : Stats F :=
  let st1 := st_logF "reg" rho st in
  match acc with None => st1 | Some (J, alpha, z) => st_logF "z" z (st_logF "alpha" alpha (st_logF "cost" J st1)) end.

Lemma fp_series rho acc st g : st_series st g ->
  exists g3, st_series (fp_stats rho acc st) g3 /\ (1 <= st_len (fp_stats rho acc st))%nat /\
    last_of g3 "cost" = match acc with None => last_of g "cost" | Some (J, _, _) => J end /\
    (forall l c d, g "cost"%string = l ++ [c; d] -> g3 "cost"%string = l ++ [c; match acc with None => d | Some (J, _, _) => J end]).
Proof.
  intros H. destruct acc as [[[J alpha] z]|]; unfold fp_stats; cbv zeta.
  - unfold st_logF. eexists. split; [do 4 apply ser_log; exact H|]. split; [rewrite !len_log; lia|]. split.
    + unfold last_of. rewrite !last_log. reflexivity.
    + intros l c d E. rewrite E. cbn [lval_num].
      replace (l ++ [c; d]) with ((l ++ [c]) ++ [d]) by (rewrite <- app_assoc; reflexivity).
      rewrite (log_ser_other "reg"%string "cost"%string) by (try discriminate; destruct l; discriminate).
      rewrite log_ser_same.
      rewrite (log_ser_other "alpha"%string "cost"%string) by (try discriminate; destruct l; discriminate).
      rewrite (log_ser_other "z"%string "cost"%string) by (try discriminate; destruct l; discriminate).
      now rewrite <- app_assoc.
  - unfold st_logF. eexists. split; [apply ser_log; exact H|]. split; [rewrite !len_log; lia|]. split.
    + unfold last_of. rewrite !last_log. reflexivity.
    + intros l c d E. rewrite E. apply log_ser_other; [discriminate|destruct l; discriminate].
Qed.

(** statistics at the end of the iteration *)
Definition end_stats (dJ viol grad : F) (inner total : Z) (st : Stats F) : Stats F :=
  st_new_iteration (st_logF "grad" grad (st_logZ "iters" total (st_logF "viol" viol (st_logF "dJ" dJ
    (st_set_counts st (st_initial_cost st) inner (st_outer st) total))))).
Lemma end_series dJ viol grad inner total st g : st_series st g -> (1 <= st_len st)%nat ->
  exists g', st_series (end_stats dJ viol grad inner total st) g' /\ (2 <= st_len (end_stats dJ viol grad inner total st))%nat /\
    last_of g' "dJ" = dJ /\ last_of g' "grad" = grad /\ last_of g' "viol" = viol /\ last_of g' "cost" = last_of g "cost" /\
    exists l, g' "cost"%string = l ++ [last_of g "cost"; last_of g "cost"].
Proof.
  intros H Hl. unfold end_stats, st_logF, st_logZ.
  set (st0 := st_set_counts _ _ _ _ _).
  assert (H0 : st_series st0 g) by (eapply ser_ext; [| |exact H]; reflexivity).
  assert (Hl0 : (1 <= st_len st0)%nat) by exact Hl.
  eexists. split; [apply ser_newit; do 4 apply ser_log; exact H0|].
  split; [match goal with |- (2 <= st_len (st_new_iteration ?s))%nat => change (2 <= S (st_len s))%nat end; rewrite !len_log; lia|].
  unfold last_of. rewrite !last_newser, !last_log. repeat split.
  assert (Hc : g "cost"%string <> []).
  { intros E. pose proof (ser_len _ _ "cost"%string H (proj1 In_titles)) as E'. rewrite E in E'. simpl in E'. lia. }
  rewrite (log_ser_other "dJ"%string "cost"%string) by (auto; discriminate).
  rewrite (log_ser_other "viol"%string "cost"%string) by (auto; discriminate).
  rewrite (log_ser_other "iters"%string "cost"%string) by (auto; discriminate).
  rewrite (log_ser_other "grad"%string "cost"%string) by (auto; discriminate).
  destruct (g "cost"%string) as [|x l] using rev_ind; [easy|]. clear IHl. exists l. unfold new_ser. rewrite !last_app, <- app_assoc. reflexivity.
Qed.
End Series.

Section Solve3.
Context {F : Scalar} {CS : Type} (ops : CostOps F CS) (n m : nat) (cb : list CS -> F).
Context (R : CS -> CS -> Prop)
  (Rrefl : forall c, R c c) (Rtrans : forall a b c, R a b -> R b c -> R a c)
  (Re : forall c x u, R c (snd (co_eval ops c x u)))
  (Rg : forall c x u b, R c (snd (co_grad ops c x u b)))
  (Rh : forall c x u b, R c (snd (co_hess ops c x u b))).
Notation frame := (frame R). Notation kps_sim := (kps_sim R).
Notation ILQR := (ILQR F CS).

Lemma loop_frame fuel iters s s' : il_ready s -> il_loop ops n m cb fuel iters s = Ok s' -> il_ready s' /\ frame s s'.
Proof.
  intros Hr E. eapply (loop_ind ops n m cb R Rrefl Rtrans Re Rg Rh (fun x => frame s x)); [|exact Hr|apply (frame_refl R Rrefl)|exact E].
  intros sa fin sb Hra Hfa Ea.
  destruct (iteration_spec ops n m cb R Rrefl Rtrans Re Rg Rh _ _ _ _ Hra Ea) as (Zc & s2 & s3 & Hio & _).
  eapply (frame_trans R Rtrans); [exact Hfa|]. eapply (frame_trans R Rtrans); [apply Hio|]. eapply (frame_trans R Rtrans); apply Hio.
Qed.
Lemma solve_ready debug fuel s s' : il_solve ops n m cb debug fuel s = Ok s' -> il_ready s' /\ frame s s'.
Proof.
  intros E. destruct (solve_start ops n m cb R Rrefl Re _ _ _ _ E) as (s4 & Z & Z1 & EB & [] & El).
  destruct (loop_frame _ _ _ _ so_ready El). split; [auto|]. eapply (frame_trans R Rtrans); eauto.
Qed.

(** ** forward-pass status *)
Lemma forward_status Z s Zb : il_Zb s = Some Zb ->
  (forall a : F, ltb a a = false) -> (forall a b : F, ltb a b = true -> ltb b a = false) ->
  let st := il_status (il_forward_pass ops n m Z s) in
  (st = il_status s /\ (o_ls_iters (il_opts s) <= 0)%Z) \/ st = kUnsolved \/ st = kStateLimit \/ st = kControlLimit.
Proof.
  intros HZb Hirr Has. unfold il_forward_pass.
  destruct (line_search ops n m (Z.to_nat (o_ls_iters (il_opts s))) (lsum (il_costs s)) one Z s) as [[ok J] s1] eqn:E.
  destruct (line_search_spec ops n m R Rrefl Rtrans Re _ _ _ _ _ _ _ _ _ HZb E) as (L & Hok & Hfail & Hst & Hst' & _).
  assert (Hcase : (il_status s1 = il_status s /\ (o_ls_iters (il_opts s) <= 0)%Z) \/ il_status s1 = kUnsolved \/ il_status s1 = kStateLimit \/ il_status s1 = kControlLimit).
  { destruct (Z_le_gt_dec (o_ls_iters (il_opts s)) 0) as [H|H]; [|right; apply Hst'; lia].
    destruct Hst as [Hst|Hst]; auto. }
  destruct ok; cbv zeta.
  - specialize (Hok eq_refl). destruct Hok as (a & ks & Zc & Zd & z & P). decompose [and] P.
    rewrite Has by assumption. exact Hcase.
  - rewrite Hirr. exact Hcase.
Qed.

(** ** the record of one iteration *)
Lemma iteration_record fuel s fin s' g : il_ready s -> il_iteration ops n m cb fuel s = Ok (fin, s') ->
  st_series (il_stats s) g -> boundary (st_inner (il_stats s)) g ->
  exists Z Z' s2 s3 g' Jnew,
    iter_out ops n m R fin s s' Z s2 s3 /\ il_Z s' = Some Z' /\
    st_series (il_stats s') g' /\ (2 <= st_len (il_stats s'))%nat /\ 
    (exists l, g' "cost"%string = l ++ [Jnew; Jnew]) /\ last_of g' "cost" = Jnew /\
    last_of g' "grad" = fst (il_ff_gain m Z' s') /\ last_of g' "viol" = cb (map kp_cost (il_kps s')) /\
    last_of g' "dJ" = sub (if (st_inner (il_stats s) =? 0)%Z then st_initial_cost (il_stats s) else last_of g "cost") Jnew /\
    ((fp_accept ops n m R Z s2 s3 /\ Jnew = lsum (il_costs s') /\ ltb Jnew (lsum (il_costs s2)) = true) \/
     (fp_reject s2 s3 /\ Jnew = last_of g "cost" /\ Z' = Z)).
Proof.
  intros Hr E Hg Hb.
  destruct (iteration_spec ops n m cb R Rrefl Rtrans Re Rg Rh _ _ _ _ Hr E) as (Z & s2 & s3 & Hio & Hr2 & Hr' & Z' & s4 & s5 & b & HZ' & ES & EP & ED).
  pose proof Hio as Hio'. destruct Hio' as [I1 I2 I3 I4 I5 I6 I7 I8 I9 I10 (rho & I11) I12 I13 I14 I14c I15 I16 I17 I18].
  assert (Hacc : exists acc, il_stats s3 = fp_stats rho acc (il_stats s) /\
     match acc with
     | Some (J, _, _) => fp_accept ops n m R Z s2 s3 /\ J = lsum (il_costs s3) /\ ltb J (lsum (il_costs s2)) = true
     | None => fp_reject s2 s3 end).
  { destruct I4 as [I4|I4].
    - pose proof I4 as I4'. destruct I4' as (s1 & J & Hs & A1 & A2 & A3 & A4 & A5 & _).
      destruct Hs as (alpha & ks & Zc & Zd & z & P). decompose [and] P.
      exists (Some (J, alpha, z)). split; [|split; [exact I4|split; [congruence|assumption]]].
      rewrite A5. unfold fp_stats. cbv zeta. rewrite <- I11. assumption.
    - exists None. split; [|exact I4]. destruct I4 as (_ & A & _). rewrite A, I11. reflexivity. }
  destruct Hacc as (acc & Hs3 & Hacc).
  destruct (fp_series rho acc _ g Hg) as (g3 & G1 & G2 & G3 & G4). rewrite <- Hs3 in G1, G2.
  destruct (update_stats_spec m cb R Rrefl Z' s3 s4 ES) as (S1 & S2 & S3 & S4 & S5 & S6 & S7 & S8 & S9 & S10 & S11 & S12 & dJ & st1 & HdJ & Hst1 & Hs4).
  destruct (print_spec R Rrefl b s4 s5 EP) as (P1 & P2 & P3 & P4 & P5 & P6 & P7 & P8 & P9 & P10 & P11).
  destruct (is_done_spec s5 fin s' ED) as (D1 & D2).
  assert (Hin3 : st_inner (il_stats s3) = st_inner (il_stats s) /\ st_initial_cost (il_stats s3) = st_initial_cost (il_stats s)).
  { assert (HC : same_stats_core (il_stats s) (il_stats s3)).
    { rewrite Hs3. unfold fp_stats. destruct acc as [[[? ?] ?]|]; cbv zeta; unfold st_logF.
      - do 3 (eapply same_core_trans; [|apply st_log_core]). apply st_log_core.
      - apply st_log_core. }
    destruct HC as (A & B & C & D). auto. }
  destruct Hin3 as [Hin3 Hic3].
  rewrite Hst1 in Hs4. 
  assert (Hs4' : il_stats s4 = end_stats dJ (cb (map kp_cost (il_kps s3))) (fst (il_ff_gain m Z' s3)) (st_inner (il_stats s3) + 1)%Z (st_total (il_stats s3) + 1)%Z (il_stats s3)) by exact Hs4.
  destruct (end_series dJ (cb (map kp_cost (il_kps s3))) (fst (il_ff_gain m Z' s3)) (st_inner (il_stats s3) + 1)%Z (st_total (il_stats s3) + 1)%Z _ _ G1 G2) as (g' & E1 & E2 & E3 & E4 & E5 & E6 & l & E7).
  rewrite <- Hs4' in E1, E2.
  set (Jnew := last_of g3 "cost") in *.
  assert (Hser : il_stats s' = il_stats s5) by (rewrite D1; reflexivity).
  assert (Hk : il_kps s' = il_kps s3) by exact I14.
  assert (Hff : il_ff_gain m Z' s' = (fst (il_ff_gain m Z' s3), snd (il_ff_gain m Z' s'))).
  { unfold il_ff_gain. rewrite Hk. destruct I6 as [-> _ _ _]. reflexivity. }
  exists Z, Z', s2, s3, g', Jnew. split; [exact Hio|]. split; [congruence|].
  split; [rewrite Hser; eapply ser_ext; [exact P10|exact P11|exact E1]|].
  split; [rewrite Hser, P11; exact E2|].
  split; [exists l; exact E7|]. split; [exact E6|].
  split; [rewrite Hff; exact E4|]. split; [rewrite Hk; exact E5|]. split.
  - rewrite E3. rewrite Hin3, Hic3 in HdJ. destruct (st_inner (il_stats s) =? 0)%Z eqn:Ei.
    + destruct HdJ as (c & Hc & ->). rewrite (ser_back _ _ _ G1 (proj1 In_titles) G2) in Hc. inversion Hc. reflexivity.
    + destruct HdJ as (c1 & c0 & Hc1 & Hc0 & ->). rewrite (ser_back _ _ _ G1 (proj1 In_titles) G2) in Hc0. inversion Hc0.
      destruct Hb as [Hb|(l0 & c & Hb)]; [rewrite Hb in Ei; discriminate|].
      rewrite (back2_snoc _ _ _ _ _ _ G1 (proj1 In_titles) (G4 _ _ _ Hb)) in Hc1. inversion Hc1; subst.
      unfold Jnew, last_of. rewrite Hb. 
      replace (l0 ++ [c1; c1]) with ((l0 ++ [c1]) ++ [c1]) by (rewrite <- app_assoc; reflexivity). rewrite last_app. reflexivity.
  - destruct acc as [[[J alpha] z]|].
    + left. destruct Hacc as (A1 & A2 & A3). split; [exact A1|]. rewrite G3. split; [congruence|exact A3].
    + right. split; [exact Hacc|]. split; [exact G3|]. destruct Hacc as (A & _). congruence.
Qed.
End Solve3.
