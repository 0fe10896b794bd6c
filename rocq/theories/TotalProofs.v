(** A solve always completes: no undefined behaviour, failed assertion, exception or endless loop. *)
From Coq Require Import Reals Lra Lia List Bool ZArith String Psatz Arith.
From Verif Require Import Base Lin RLin LogModel StatsModel StatsSpec StatsProofs TrajModel IlqrModel IlqrSpec IlqrFrame IlqrProofs IlqrProofs2 IlqrProofs3 IlqrProofs4 IlqrProofs5 IlqrProofs6.
Import ListNotations.
Local Open Scope nat_scope.

Section Any.
Context {F : Scalar} {CS : Type} (ops : CostOps F CS) (n m : nat) (cb : list CS -> F).
Notation ILQR := (ILQR F CS).
Definition freq (s : ILQR) : Z := lg_freq (st_log (il_stats s)).
Lemma freq_log t v (st : Stats F) : lg_freq (st_log (st_log_val t v st)) = lg_freq (st_log st).
Proof.
  unfold st_log_val, st_set_data. assert (H : forall g : Logger F, lg_freq (lg_log t v g) = lg_freq g).
  { intros g. unfold lg_log. destruct (_ <? _)%Z; [|reflexivity]. destruct (lg_find _ _); [|reflexivity]. destruct (le_active _ _); reflexivity. }
  cbn [st_len st_set_log]. destruct (Nat.eqb _ 0); cbn [st_log st_set_ser st_new_iteration st_set_log]; apply H.
Qed.
Lemma freq_end dJ v gr i t (st : Stats F) : lg_freq (st_log (end_stats dJ v gr i t st)) = lg_freq (st_log st).
Proof.
  unfold end_stats, st_logF, st_logZ. assert (H : forall x : Stats F, st_log (st_new_iteration x) = st_log x) by reflexivity. rewrite H, !freq_log. reflexivity.
Qed.
Lemma freq_fp rho acc (st : Stats F) : lg_freq (st_log (fp_stats rho acc st)) = lg_freq (st_log st).
Proof. unfold fp_stats, st_logF. destruct acc as [[[? ?] ?]|]; cbv zeta; rewrite ?freq_log; reflexivity. Qed.
Lemma update_total Z' (s3 : ILQR) g : st_series (il_stats s3) g -> (1 <= st_len (il_stats s3)) -> (st_inner (il_stats s3) = 0%Z \/ exists l c d, g "cost"%string = l ++ [c; d]) ->
  exists dJ, il_update_stats m cb Z' s3 = Ok (il_set_stats (snd (il_ff_gain m Z' s3)) (end_stats dJ (cb (map kp_cost (il_kps s3))) (fst (il_ff_gain m Z' s3)) (st_inner (il_stats s3) + 1) (st_total (il_stats s3) + 1) (il_stats s3))).
Proof.
  intros G1 G2 Hb. destruct In_titles as (Tc & _).
  assert (Htot : forall a b (st : Stats F), st_total (st_logF "viol" a (st_logF "dJ" b st)) = st_total st).
  { intros a b st. unfold st_logF. destruct (st_log_counts "viol" (VFlt a) (st_log_val "dJ" (VFlt b) st)) as (_ & -> & _).
    destruct (st_log_counts "dJ" (VFlt b) st) as (_ & -> & _). reflexivity. }
  unfold il_update_stats. destruct (il_ff_gain m Z' s3) as [dg s3'] eqn:Eg. assert (Es : il_stats s3' = il_stats s3 /\ il_kps s3' = il_kps s3) by (unfold il_ff_gain in Eg; inversion Eg; auto). destruct Es as [Es Ek]. rewrite Es, Ek. cbn [fst snd].
  destruct (Z.eqb_spec (st_inner (il_stats s3)) 0).
  - rewrite (ser_back _ _ _ G1 Tc G2). cbn [bind]. exists (sub (st_initial_cost (il_stats s3)) (last (g "cost"%string) zero)). unfold end_stats. rewrite Htot. reflexivity.
  - destruct Hb as [Hb|(l & c & d & Hb)]; [congruence|]. rewrite (back2_snoc _ _ _ _ _ _ G1 Tc Hb), (ser_back _ _ _ G1 Tc G2). cbn [bind]. exists (sub c (last (g "cost"%string) zero)). unfold end_stats. rewrite Htot. reflexivity.
Qed.
Lemma end_total (s4 : ILQR) g' fr : st_series (il_stats s4) g' -> 2 <= st_len (il_stats s4) -> freq s4 = fr -> fr <> 0%Z ->
  exists fin s', (do s5 <- (if (kInner <=? lg_level (st_log (il_stats s4)))%Z then do st <- st_print_last (il_stats s4) ; Ok (il_set_stats s4 st) else Ok s4) ; il_is_done s5) = Ok (fin, s') /\ freq s' = fr.
Proof.
  intros E1 E2 F4 Hf. destruct In_titles as (Tc & Td & Tg & _).
  assert (EP : exists s5, (if (kInner <=? lg_level (st_log (il_stats s4)))%Z then do st <- st_print_last (il_stats s4) ; Ok (il_set_stats s4 st) else Ok s4) = Ok s5 /\ st_ser (il_stats s5) = st_ser (il_stats s4) /\ st_len (il_stats s5) = st_len (il_stats s4) /\ freq s5 = fr).
  { destruct (kInner <=? _)%Z; [|exists s4; auto]. unfold st_print_last, lg_print. unfold freq in F4. rewrite F4. destruct (Z.eqb_spec fr 0); [congruence|].
    destruct (Z.rem _ _ =? 0)%Z; cbn [bind]; eexists; (split; [reflexivity|]); (split; [reflexivity|]; split; [reflexivity|exact F4]). }
  destruct EP as (s5 & EP & P1 & P2 & P3). rewrite EP. cbn [bind].
  assert (E1' : st_series (il_stats s5) g') by (eapply ser_ext; [| |exact E1]; auto).
  unfold il_is_done. rewrite (ser_back _ _ _ E1' Td), (ser_back _ _ _ E1' Tg) by lia. cbn [bind].
  destruct (ltb _ _ && ltb _ _); [eexists _, _; split; [reflexivity|exact P3]|]. destruct (o_max_inner (il_opts s5) <=? st_inner (il_stats s5))%Z; [eexists _, _; split; [reflexivity|exact P3]|]. destruct (o_max_total (il_opts s5) <=? st_total (il_stats s5))%Z; [eexists _, _; split; [reflexivity|exact P3]|]. destruct (negb _); eexists _, _; (split; [reflexivity|exact P3]).
Qed.
Lemma iteration_total fuel (s : ILQR) Z s2 g : il_ready s -> il_Z s = Some Z -> il_backward_pass n m fuel (il_update_expansions ops n m Z s) = Ok s2 ->
  st_series (il_stats s) g -> boundary (st_inner (il_stats s)) g -> freq s <> 0%Z ->
  exists fin s', il_iteration ops n m cb fuel s = Ok (fin, s') /\ freq s' = freq s.
Proof.
  intros Hr HZ EB Hg Hb Hf. pose proof Hr as (Hk & (Z0 & HZ0 & HZl) & (Zb & HZb & HZbl)). rewrite HZ in HZ0. inversion HZ0; subst Z0.
  unfold il_iteration, il_get_Z. rewrite HZ. cbn [bind]. rewrite EB. cbn [bind].
  destruct (frame_update_expansions ops n m (fun _ _ => True) (fun _ => I) (fun _ _ _ _ _ => I) (fun _ _ _ => I) (fun _ _ _ _ => I) (fun _ _ _ _ => I) Z s) as (U1 & [U2 U3] & U4 & U5).
  assert (Us : il_stats (il_update_expansions ops n m Z s) = il_stats s) by (unfold il_update_expansions; destruct (expand_all ops n m (il_kps s) Z); reflexivity).
  set (s1 := il_update_expansions ops n m Z s) in *.
  assert (Hk1 : Datatypes.length (il_kps s1) = S (il_N s1)).
  { destruct U1 as [H1 _ _ H4]. rewrite H1, <- (kps_len (fun _ _ => True) _ _ H4). exact Hk. }
  destruct (frame_backward n m (fun _ _ => True) (fun _ => I) (fun _ _ _ _ _ => I) fuel s1 s2 Hk1 EB) as (B1 & [B2 B3] & B4 & B5 & (rho & B6) & B7).
  assert (HN2 : il_N s2 = il_N s) by (destruct B1 as [E _ _ _]; destruct U1 as [E' _ _ _]; congruence).
  assert (Hk2 : Datatypes.length (il_kps s2) = S (il_N s2)) by (destruct B1 as [H1 _ _ H4]; rewrite H1, <- (kps_len (fun _ _ => True) _ _ H4); exact Hk1).
  assert (HZ2 : il_Z s2 = Some Z) by congruence. assert (HZb2 : il_Zb s2 = Some Zb) by congruence. rewrite Us in B6.
  set (s3 := il_forward_pass ops n m Z s2).
  assert (X : exists Z' acc, il_Z s3 = Some Z' /\ il_stats s3 = fp_stats rho acc (il_stats s)).
  { destruct (forward_outcome ops n m Z s2 Zb HZ2 HZb2 Hk2 ltac:(lia) ltac:(lia)) as [[A B]|(Z' & J & al & z & A & _ & _ & _ & _ & B & _)]; fold s3 in A, B.
    - exists Z, None. split; [congruence|]. rewrite B, B6. reflexivity.
    - exists Z', (Some (J, al, z)). split; [exact A|]. rewrite B, B6. reflexivity. }
  destruct X as (Z' & acc & HZ3 & Hs3). rewrite HZ3. cbn [bind].
  destruct (fp_series rho acc _ g Hg) as (g3 & G1 & G2 & G3 & G4). rewrite <- Hs3 in G1, G2.
  assert (Hin3 : st_inner (il_stats s3) = st_inner (il_stats s)).
  { assert (HC : same_stats_core (il_stats s) (il_stats s3)).
    { rewrite Hs3. unfold fp_stats. destruct acc as [[[? ?] ?]|]; cbv zeta; unfold st_logF.
      - do 3 (eapply same_core_trans; [|apply st_log_core]). apply st_log_core.
      - apply st_log_core. }
    destruct HC as (A & B & C & D). auto. }
  assert (F3 : lg_freq (st_log (il_stats s3)) = freq s).
  { rewrite Hs3, freq_fp. reflexivity. }
  destruct In_titles as (Tc & Td & Tg & _).
  destruct (update_total Z' s3 g3 G1 G2) as [dJ ES]; [rewrite Hin3; destruct Hb as [Hb|(l & c & Hb)]; [left; exact Hb|right; eauto]|].
  rewrite ES. cbn [bind].
  destruct (end_series dJ (cb (map kp_cost (il_kps s3))) (fst (il_ff_gain m Z' s3)) (st_inner (il_stats s3) + 1)%Z (st_total (il_stats s3) + 1)%Z _ _ G1 G2) as (g' & E1 & E2 & _).
  set (es := end_stats _ _ _ _ _ _) in *. set (s4 := il_set_stats _ es).
  assert (F4 : lg_freq (st_log es) = freq s).
  { unfold es. rewrite freq_end. exact F3. }
  apply (end_total s4 g'); [exact E1|exact E2|exact F4|exact Hf].
Qed.
(** more fuel, same result *)
Lemma loop_fuel kN : forall fuel cnt (s s' : ILQR) fuel', bp_loop n m fuel kN cnt s = Ok s' -> fuel <= fuel' -> bp_loop n m fuel' kN cnt s = Ok s'.
Proof.
  induction fuel as [|f IH]; intros cnt s s' fuel' H L; [discriminate|]. destruct fuel' as [|f']; [lia|]. cbn [bp_loop] in *.
  destruct (sw_ok _); [destruct (il_N s); [apply IH with (fuel' := f') in H; [exact H|lia]|exact H]|]. destruct (_ <=? _)%Z; [exact H|]. apply IH with (fuel' := f') in H; [exact H|lia].
Qed.
Lemma pass_fuel fuel (s s' : ILQR) fuel' : il_backward_pass n m fuel s = Ok s' -> fuel <= fuel' -> il_backward_pass n m fuel' s = Ok s'.
Proof.
  unfold il_backward_pass. intros H L. destruct (nth_error _ _); [|discriminate]. destruct (bp_loop n m fuel _ _ _) eqn:E; try discriminate. rewrite (loop_fuel _ _ _ _ _ _ E L). exact H.
Qed.
Lemma iteration_fuel fuel (s : ILQR) r fuel' : il_iteration ops n m cb fuel s = Ok r -> fuel <= fuel' -> il_iteration ops n m cb fuel' s = Ok r.
Proof.
  unfold il_iteration. intros H L. destruct (il_get_Z s); cbn [bind] in *; try discriminate. destruct (il_backward_pass n m fuel _) eqn:E; try discriminate. rewrite (pass_fuel _ _ _ _ E L). exact H.
Qed.
(** if every backward pass that can come up completes, so does the loop *)
Lemma loop_total (P : ILQR -> Prop) :
  (forall s, P s -> il_ready s /\ exists g, st_series (il_stats s) g /\ boundary (st_inner (il_stats s)) g) ->
  (forall s, P s -> freq s <> 0%Z) ->
  (forall s Z, P s -> il_Z s = Some Z -> exists fuel s2, il_backward_pass n m fuel (il_update_expansions ops n m Z s) = Ok s2) ->
  (forall s fuel s', P s -> il_iteration ops n m cb fuel s = Ok (false, s') -> freq s' = freq s -> P s') ->
  forall iters s, P s -> exists fuel, forall fuel', fuel <= fuel' -> exists s', il_loop ops n m cb fuel' iters s = Ok s'.
Proof.
  intros P1 P2 P3 P4. induction iters as [|it IH]; intros s Ps; [exists 0; intros; eexists; reflexivity|].
  destruct (P1 s Ps) as (Hr & g & Hg & Hb). pose proof Hr as (_ & (Z & HZ & _) & _). destruct (P3 s Z Ps HZ) as (f & s2 & E2).
  destruct (iteration_total f s Z s2 g Hr HZ E2 Hg Hb (P2 s Ps)) as (fin & s' & E & Fq). destruct fin.
  - exists f. intros f' L. cbn [il_loop]. rewrite (iteration_fuel _ _ _ _ E L). cbn [bind]. eauto.
  - destruct (IH s' (P4 s f s' Ps E Fq)) as [f1 H1]. exists (Nat.max f f1). intros f' L. cbn [il_loop]. rewrite (iteration_fuel _ _ _ f' E) by lia. cbn [bind]. apply H1. lia.
Qed.
Lemma begin_total debug (s : ILQR) : il_ready s -> il_x0_set s = true -> exists b, il_begin ops n debug s = Ok b /\ freq b = freq s.
Proof.
  intros (Hk & (Z & HZ & HZl) & (Zb & HZb & HZbl)) HX. unfold il_begin. rewrite HX, HZ.
  assert (ET : (traj_N Z =? Z.of_nat (il_N s))%Z = true) by (apply Z.eqb_eq; unfold traj_N; rewrite HZl; lia). rewrite ET.
  assert (EA : altro_assert debug true = Ok tt) by (unfold altro_assert; destruct debug; reflexivity). rewrite EA. cbn [bind].
  unfold il_solve_setup. cbn [il_Z il_Zb il_set_stats]. rewrite HZ, HZb. cbn [bind].
  set (s1 := il_reset_internal _).
  assert (SZ : il_sized s1 = true).
  { unfold il_sized. change (il_kps s1) with (il_kps s). change (il_N s1) with (il_N s). change (il_Z s1) with (il_Z s). change (il_Zb s1) with (Some (copy_times Z Zb)). rewrite HZ, Hk, HZl, copy_times_len, HZbl, !Nat.eqb_refl. reflexivity. }
  rewrite SZ. cbn [bind]. unfold il_get_Z. change (il_Z s1) with (il_Z s). rewrite HZ. cbn [bind].
  destruct (il_cost ops _ _) as [J s3] eqn:EC. eexists. split; [reflexivity|]. unfold freq. cbn [il_stats il_set_stats st_log st_set_counts].
  unfold il_cost in EC. destruct (calc_costs _ _ _) in EC. inversion EC; subst. reflexivity.
Qed.
End Any.

Section Real.
Context {CS : Type} (ops : CostOps RS CS) (n m : nat) (cb : list CS -> RS).
Notation ILQR := (ILQR RS CS).
Theorem solve_total debug (s : ILQR) : il_ready s -> il_x0_set s = true -> 1 <= il_N s -> stats_ok (il_stats s) -> freq s <> 0%Z ->
  reg_ok (il_opts s) -> (0 < o_reg_min (il_opts s))%R ->
  exists fuel, forall fuel', fuel <= fuel' -> exists s', il_solve ops n m cb debug fuel' s = Ok s'.
Proof.
  intros Hr HX HN HS HF RO RM. destruct (begin_total ops n debug s Hr HX) as (b & Eb & Fb).
  destruct (begin_spec ops n (fun _ _ => True) (fun _ => I) (fun _ _ _ => I) debug s b Eb) as (Z & Z1 & S4). 
  pose proof (so_ready _ _ _ _ _ _ _ _ S4) as Hrb. pose proof (so_frame _ _ _ _ _ _ _ _ S4) as [f1 f2 f3 f4].
  apply stats_ok_series in HS. destruct HS as [g Hg]. apply (begin_series ops n debug s b g Eb) in Hg.
  set (P := fun x : ILQR => il_ready x /\ (exists g, st_series (il_stats x) g /\ boundary (st_inner (il_stats x)) g) /\ freq x = freq s /\ il_opts x = il_opts s /\ il_N x = il_N s).
  assert (Pb : P b) by (split; [exact Hrb|]; split; [exists g; split; [exact Hg|left; apply S4]|]; auto).
  destruct (loop_total ops n m cb P) with (iters := Z.to_nat (o_max_inner (il_opts b))) (s := b) as [fuel H].
  - intros x (A & B & _). auto.
  - intros x (_ & _ & A & _). congruence.
  - intros x Zx (A & _ & _ & C & D) HZx. 
    destruct (frame_update_expansions ops n m (fun _ _ => True) (fun _ => I) (fun _ _ _ _ _ => I) (fun _ _ _ => I) (fun _ _ _ _ => I) (fun _ _ _ _ => I) Zx x) as ([u1 u2 u3 u4] & _).
    destruct (backward_terminates n m (il_update_expansions ops n m Zx x)) as [f Hf]; [rewrite u3, C; exact RO|rewrite u3, C; exact RM|rewrite u1, D; exact HN|rewrite u1, <- (kps_len (fun _ _ => True) _ _ u4); apply A|].
    destruct (Hf f (le_n f)) as [s2 E2]. eauto.
  - intros x f x' (A & (gx & B1 & B2) & C & D & E) Ei Fx. destruct (iter_record ops n m cb f x false x' gx A Ei B1 B2) as (g' & Z' & _ & K1 & K2 & _ & _ & K5 & _).
    destruct (iter_counts ops n m cb f x false x' A Ei) as (_ & _ & _ & _ & O1 & O2). split; [exact K5|]. split; [exists g'; auto|]. split; [congruence|]. split; congruence.
  - exact Pb.
  - exists fuel. intros f' L. unfold il_solve. rewrite Eb. cbn [bind]. apply H. exact L.
Qed.
End Real.
