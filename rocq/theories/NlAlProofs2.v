(** Augmented Lagrangian and Lagrangian with the updated multipliers have the same slopes; fixed points of the iteration are the KKT points. *)
From Coq Require Import Reals Lra Lia List Bool ZArith Psatz Arith FunctionalExtensionality.
From Coquelicot Require Import Coquelicot.
Import List ListNotations.
From Verif Require Import Base Lin LogModel StatsModel TrajModel ConModel ConSpec IlqrModel IlqrSpec CostInst AlModel LsSpec RLin RDer ConProofs ConProofs2 ConProofs3 ConProofs4 ConProofs5 LqSpec LltProofs LqProofs LqProbSpec LqProofs2 LqProofs3 LqProofs4 LqProofs5 NlSpec NlAlSpec NlProofs NlProofs2 NlProofs3 NlProofs4 NlAlProofs.
Local Open Scope R_scope.

Lemma lfsum_map {A B} (f : B -> R) (g : A -> B) l : lfsum f (map g l) = lfsum (fun a => f (g a)) l.
Proof. induction l as [|a l IH]; [reflexivity|]. cbn. unfold lfsum in IH. rewrite IH. reflexivity. Qed.
Lemma lfsum_plus {A} (f g : A -> R) l : lfsum f l + lfsum g l = lfsum (fun a => f a + g a) l.
Proof. induction l as [|a l IH]; cbn; [lra|]. unfold lfsum in IH. rewrite <- IH. lra. Qed.
Lemma d_lfsum {A} (f : A -> R -> R) (d : R) l : d = 0 -> (forall v, In v l -> is_derive (f v) 0 0) -> is_derive (fun t => lfsum (fun v => f v t) l) 0 d.
Proof.
  intros -> H. induction l as [|v l IH]; [apply (d_ext (fun _ => 0)); [reflexivity|apply d_const]|]. cbn. eapply d_eq; [apply d_plus; [apply H; left; reflexivity|apply IH; intros w Hw; apply H; right; exact Hw]|lra].
Qed.
Section Obj.
Context (n m : nat).
(** multiplier after an update, from the values at (x, u) *)
Definition lam_new (v : CV RS) (x u : vec RS) i : R := dproj (cv_type v) (cv_lam v i - cv_pen v 0%nat * con_eval (cv_con v) x u vzero i).
Definition gap1 (v : CV RS) (x u y w : vec RS) : R := fst (cv_auglag v y w) + fsum (cv_p v) (fun i => lam_new v x u i * con_eval (cv_con v) y w vzero i).
Lemma gap1_formula v g J x u y w : cv_good n m v g J -> 0 < cv_pen v 0%nat ->
  gap1 v x u y w = (rsum (cv_p v) (fun i => (dproj (cv_type v) (sh v g y w i))^2) - rsum (cv_p v) (fun i => cv_lam v i * cv_lam v i)) * / (2 * cv_pen v 0%nat) + rsum (cv_p v) (fun i => lam_new v x u i * g y w i).
Proof.
  intros Hg Hp. unfold gap1. f_equal.
  - unfold cv_auglag. cbn [fst]. rs. unfold two; rs. unfold Rdiv. f_equal. f_equal. unfold sqnorm, dot. apply rsum_ext. intros i Hi.
    rewrite dproj_correct by auto. rewrite (shift_after_eval n m v g J Hg) by auto. rs. ring.
  - rewrite fsum_rsum. apply rsum_ext. intros i Hi. destruct Hg as (_ & _ & W & T & _). rewrite (ct_eval _ _ _ _ _ _ T) by exact Hi. reflexivity.
Qed.
Lemma gap1_flat v x u : 0 < cv_pen v 0%nat -> (exists g J, cv_good n m v g J) -> slopes n m (gap1 v x u) (fun _ => 0) (fun _ => 0) x u.
Proof.
  intros Hp (g & J & Hg). destruct (Hg) as (Hn & Hm & W & T & Hf).
  assert (SG : forall i, (i < cv_p v)%nat -> forall x u y v, (forall j, (j < n)%nat -> y j = x j) -> (forall j, (j < m)%nat -> v j = u j) -> g x u i = g y v i).
  { intros i Hi. apply (curves_same n m (fun x u => g x u i) (fun x u j => J x u i j) (fun x u j => J x u i (n + j)%nat)). intros X U a b CX CU. apply (ct_deriv _ _ _ _ _ _ T); auto. }
  apply slopes_at.
  - intros x1 u1 y1 v1 HY HV. rewrite !(gap1_formula v g J) by assumption. f_equal; [f_equal; f_equal|]; apply rsum_ext; intros i Hi; unfold sh; rewrite (SG i Hi x1 u1 y1 v1 HY HV); reflexivity.
  - intros X U a b CX CU X0 U0. rewrite !fsum_rsum, !rsum_zero' by (intros; lra).
    set (c' := fun i => fsum n (fun j => J (X 0) (U 0) i j * a j) + fsum m (fun j => J (X 0) (U 0) i (n + j)%nat * b j)).
    eapply d_ext; [intros t; symmetry; apply (gap1_formula v g J); assumption|].
    assert (DG : forall i, (i < cv_p v)%nat -> is_derive (fun t => g (X t) (U t) i) 0 (c' i)) by (intros i Hi; apply (ct_deriv _ _ _ _ _ _ T); auto).
    eapply d_eq.
    + apply d_plus.
      * apply d_scal_r. apply d_minus; [|apply d_const]. apply (d_rsum (cv_p v) (fun i t => (dproj (cv_type v) (sh v g (X t) (U t) i))^2) (fun i => 2 * dproj (cv_type v) (sh v g (X 0) (U 0) i) * (0 - cv_pen v 0%nat * c' i))). intros i Hi.
        apply (is_derive_dproj_sq (cv_type v) (fun s => sh v g (X s) (U s) i)). unfold sh. apply d_minus; [apply d_const|]. apply d_scal. apply DG. exact Hi.
      * apply (d_rsum (cv_p v) (fun i t => lam_new v x u i * g (X t) (U t) i) (fun i => lam_new v x u i * c' i)). intros i Hi. apply d_scal. apply DG. exact Hi.
    + rewrite Rminus_0_r, <- rsum_scal_r, <- rsum_plus, rsum_zero'; [lra|]. intros i Hi. unfold sh, lam_new. rewrite (ct_eval _ _ _ _ _ _ T) by exact Hi. rewrite X0, U0. field. lra.
Qed.
(** values stored for the point (x, u) *)
Definition evaluated (a : ALCost RS) (x u : vec RS) : Prop := forall v i, In v (al_cvs a) -> (i < cv_p v)%nat -> cv_c v i = con_eval (cv_con v) x u vzero i.
Lemma cvs_map (f : CV RS -> CV RS) a : al_cvs (al_map f a) = map f (al_cvs a).
Proof. unfold al_cvs, al_map. cbn. rewrite map_app. reflexivity. Qed.
Lemma lam_upd v x u i : (i < cv_p v)%nat -> cv_pen v i = cv_pen v 0%nat -> cv_c v i = con_eval (cv_con v) x u vzero i -> cv_lam (cv_update_duals v) i = lam_new v x u i.
Proof. intros Hi P E. rewrite update_duals_comp by exact Hi. unfold lam_new, dproj. rewrite P, E. reflexivity. Qed.
Lemma gap_sum a x u y w : smooth_al n m a -> evaluated a x u -> al_value a y w - lagr (al_update_duals a) y w = lfsum (fun v => gap1 v x u y w) (al_cvs a).
Proof.
  intros SA EV. destruct (smooth_facts n m a SA) as (_ & _ & _ & F). rewrite <- al_value_eval by (apply (smooth_writes n m); exact SA). rewrite al_eval_RS. unfold lagr, al_update_duals. rewrite cvs_map, lfsum_map.
  assert (E : forall p q r : R, p + q - (p - r) = q + r) by (intros; lra). cbn [al_map al_set al_cost]. unfold al_map. cbn [al_set al_cost]. rewrite E, lfsum_plus. apply lfsum_ext_in. intros v Hv. unfold gap1. f_equal. rewrite !fsum_rsum. change (cv_p (cv_update_duals v)) with (cv_p v). apply rsum_ext. intros i Hi. cbn [cv_update_duals set_lam cv_con].
  destruct (F v Hv) as (_ & _ & U & _). rewrite <- (lam_upd v x u i Hi (U i Hi) (EV v i Hv Hi)). reflexivity.
Qed.
Lemma gap_flat a x u : smooth_al n m a -> evaluated a x u -> slopes n m (fun y w => al_value a y w - lagr (al_update_duals a) y w) (fun _ => 0) (fun _ => 0) x u.
Proof.
  intros SA EV X U dx du PX PU. destruct (smooth_facts n m a SA) as (_ & _ & _ & F). eapply d_ext; [intros t; symmetry; apply (gap_sum a x u); assumption|].
  apply (d_lfsum (fun v t => gap1 v x u (X t) (U t))); [rewrite !inner_fsum, !fsum_rsum, !rsum_zero' by (intros; lra); lra|]. intros v Hv. destruct (F v Hv) as (P & _ & _ & GJ).
  eapply d_eq; [apply (gap1_flat v x u P GJ X U dx du PX PU)|]. rewrite !inner_fsum, !fsum_rsum, !rsum_zero' by (intros; lra). lra.
Qed.
(** expanding a knot point leaves the object alone up to the caches and stores the values at that point *)
Lemma expand_al (k : KPF RS (ALCost RS)) z J k' : smooth_al n m (kp_cost k) -> expand_kp al_ops n m z k = (J, k') -> al_fresh (kp_cost k') = al_fresh (kp_cost k) /\ evaluated (kp_cost k') (z_x z) (z_u z).
Proof.
  intros SA E. pose proof (al_smooth n m) as SC. unfold expand_kp, kpf_cost, kpf_dyn_expansion, kpf_cost_expansion in E. cbn [al_ops co_eval co_grad co_hess] in E.
  destruct (sc_faithful _ _ _ _ _ SC) as [FA FB FC FD].
  pose proof (al_grad_fresh (kp_cost k) (z_x z) (z_u z) (vzero, vzero)) as G1. pose proof (proj1 (FC _ (z_x z) (z_u z) (vzero, vzero) SA)) as I1. cbn [al_ops co_grad] in I1. destruct (al_gradient (kp_cost k) (z_x z) (z_u z) (vzero, vzero)) as [g c1]. cbn [fst snd] in *.
  pose proof (al_hess_fresh c1 (z_x z) (z_u z) (mzero, mzero, mzero)) as G2. pose proof (proj1 (FD _ (z_x z) (z_u z) (mzero, mzero, mzero) I1)) as I2. cbn [al_ops co_hess] in I2. destruct (al_hessian c1 (z_x z) (z_u z) (mzero, mzero, mzero)) as [[[hxx hxu] huu] c2]. cbn [fst snd kp_cost kp_ce kp_dyn] in *.
  pose proof (al_eval_fresh c2 (z_x z) (z_u z)) as G3. pose proof (al_eval_snd c2 (z_x z) (z_u z)) as G4. destruct (al_eval c2 (z_x z) (z_u z)) as [J' c3]. cbn [fst snd] in *. inversion E; subst J k'; clear E. cbn [kpf_set_cost kp_cost].
  split; [congruence|]. intros v i Hv Hi. rewrite G4, cvs_map in Hv. apply in_map_iff in Hv. destruct Hv as (w & <- & Hw). cbn [cv_eval_c set_c cv_c cv_con]. change (cv_p (cv_eval_c w (z_x z) (z_u z))) with (cv_p w) in Hi. rewrite vstore_lt by exact Hi.
  apply (proj1 (Forall_forall _ _) (smooth_writes n m c2 I2) w Hw). exact Hi.
Qed.
(** what the caches do not touch *)
Lemma fresh_cvs (a b : ALCost RS) : al_fresh a = al_fresh b -> al_cost a = al_cost b /\ map CostInst.cv_fresh (al_cvs a) = map CostInst.cv_fresh (al_cvs b).
Proof. intros E. split; [exact (f_equal (@al_cost RS) E)|]. rewrite <- !cvs_map. f_equal. exact E. Qed.
Lemma fresh_lagr (a b : ALCost RS) : al_fresh a = al_fresh b -> lagr a = lagr b.
Proof.
  intros E. destruct (fresh_cvs a b E) as [A B]. apply functional_extensionality. intros x. apply functional_extensionality. intros u. unfold lagr. rewrite A. f_equal.
  pose proof (f_equal (lfsum (fun v => fsum (cv_p v) (fun i => cv_lam v i * con_eval (cv_con v) x u vzero i))) B) as H. rewrite !lfsum_map in H. exact H.
Qed.
Lemma fresh_in (a b : ALCost RS) v : al_fresh a = al_fresh b -> In v (al_cvs a) -> exists w, In w (al_cvs b) /\ cv_con w = cv_con v /\ cv_type w = cv_type v /\ cv_lam w = cv_lam v.
Proof.
  intros E Hv. destruct (fresh_cvs a b E) as [_ B]. assert (H : In (CostInst.cv_fresh v) (map CostInst.cv_fresh (al_cvs b))) by (rewrite <- B; apply in_map; exact Hv).
  apply in_map_iff in H. destruct H as (w & EW & Hw). exists w. split; [exact Hw|]. split; [exact (f_equal (@cv_con RS) EW)|]. split; [exact (f_equal (@cv_type RS) EW)|exact (f_equal (@cv_lam RS) EW)].
Qed.
(** the last cost does not look at the controls *)
Definition blind (c : ALCost RS) : Prop := forall x u u', uc_eval (al_cost c) x u = uc_eval (al_cost c) x u' /\ forall v i, In v (al_cvs c) -> (i < cv_p v)%nat -> con_eval (cv_con v) x u vzero i = con_eval (cv_con v) x u' vzero i.
Lemma blind_value c x u u' : smooth_al n m c -> blind c -> al_value c x u = al_value c x u'.
Proof.
  intros SA B. rewrite <- !al_value_eval by (apply (smooth_writes n m); exact SA). rewrite !al_eval_RS. destruct (B x u u') as [E H]. f_equal; [exact E|]. apply lfsum_ext_in. intros v Hv.
  destruct (smooth_facts n m c SA) as (_ & _ & _ & F). destruct (F v Hv) as (P & _ & _ & g & J & Hg). pose proof (gap1_formula v g J x u x u Hg P) as A1. pose proof (gap1_formula v g J x u x u' Hg P) as A2. unfold gap1 in A1, A2.
  assert (EG : forall i, (i < cv_p v)%nat -> g x u i = g x u' i). { intros i Hi. destruct Hg as (_ & _ & W & T & _). rewrite <- (ct_eval _ _ _ _ _ _ T x u vzero i Hi), <- (ct_eval _ _ _ _ _ _ T x u' vzero i Hi). apply H; assumption. }
  rewrite !fsum_rsum in A1, A2. rewrite (rsum_ext _ (fun i => lam_new v x u i * con_eval (cv_con v) x u vzero i) (fun i => lam_new v x u i * con_eval (cv_con v) x u' vzero i)) in A1 by (intros i Hi; rewrite (H v i Hv Hi); reflexivity).
  rewrite (rsum_ext _ (fun i => dproj (cv_type v) (sh v g x u i) ^ 2) (fun i => dproj (cv_type v) (sh v g x u' i) ^ 2)) in A1 by (intros i Hi; unfold sh; rewrite (EG i Hi); reflexivity).
  rewrite (rsum_ext _ (fun i => lam_new v x u i * g x u i) (fun i => lam_new v x u i * g x u' i)) in A1 by (intros i Hi; rewrite (EG i Hi); reflexivity). lra.
Qed.
Lemma blind_lagr c x u u' : blind c -> lagr c x u = lagr c x u'.
Proof. intros B. unfold lagr. destruct (B x u u') as [E H]. f_equal; [exact E|]. apply lfsum_ext_in. intros v Hv. rewrite !fsum_rsum. apply rsum_ext. intros i Hi. rewrite (H v i Hv Hi). reflexivity. Qed.
Lemma blind_upd c : blind c -> blind (al_update_duals c).
Proof.
  intros B x u u'. destruct (B x u u') as [E H]. split; [exact E|]. intros v i Hv Hi. unfold al_update_duals in Hv. rewrite cvs_map in Hv. apply in_map_iff in Hv. destruct Hv as (w & <- & Hw). apply (H w i Hw Hi).
Qed.
Lemma blind_fresh a b : al_fresh a = al_fresh b -> blind b -> blind a.
Proof.
  intros EF B x u u'. destruct (B x u u') as [E H]. destruct (fresh_cvs a b EF) as [A _]. rewrite A. split; [exact E|]. intros v i Hv Hi. destruct (fresh_in a b v EF Hv) as (w & Hw & C & _). rewrite <- C. unfold cv_p in Hi. rewrite <- C in Hi. apply (H w i Hw Hi).
Qed.
End Obj.
(** ** trajectories *)
Lemma ccost_diff : forall (fs gs : list (vec RS -> vec RS -> R)) cs, length fs = length gs -> (forall i f g c, nth_error fs i = Some f -> nth_error gs i = Some g -> nth_error cs i = Some c -> is_derive (fun t => f (fst c t) (snd c t) - g (fst c t) (snd c t)) 0 0) ->
  is_derive (fun t => ccost fs cs t - ccost gs cs t) 0 0.
Proof.
  induction fs as [|f fs IH]; intros [|g gs] cs L H; try discriminate; [apply (d_ext (fun _ => 0)); [intros t; cbn; lra|apply d_const]|].
  destruct cs as [|c cs]; [apply (d_ext (fun _ => 0)); [intros t; cbn; lra|apply d_const]|].
  eapply d_ext; [|eapply d_eq; [apply d_plus; [apply (H 0%nat f g c); reflexivity|apply (IH gs cs); [cbn in L; lia|intros i f' g' c' Hf Hg Hc; apply (H (S i)); assumption]]|lra]].
  intros t. destruct c as [X U]. cbn [ccost fst snd]. lra.
Qed.
Section Kkt.
Context (n m : nat) (s : ILQR RS (ALCost RS)) (Z Zb : Traj RS) (AS : al_setting n m s Z Zb).
Lemma costobjs_nth i : nth_error (il_costobjs s) i = option_map kp_cost (nth_error (il_kps s) i). Proof. apply nth_error_map. Qed.
Lemma al_nl : nl_setting n m al_ops (smooth_al n m) al_value s Z Zb.
Proof.
  split; try apply AS; [apply al_smooth|]. pose proof (al_objs _ _ _ _ _ AS) as O. unfold il_costobjs in O. rewrite Forall_map in O. split; try apply AS; [exact O|].
  intros kp E x u u'. apply (blind_value n m); [rewrite Forall_forall in O; apply O; eapply nth_error_In; exact E|]. exact (al_end _ _ _ _ _ AS (kp_cost kp) ltac:(rewrite costobjs_nth, E; reflexivity)).
Qed.
Context (fuel : nat) (s2 : ILQR RS (ALCost RS)) (EB : il_backward_pass n m fuel (il_update_expansions al_ops n m Z s) = Ok s2) (ST : il_status s2 <> kBackwardPassRegularizationFailed).
Let SP := ns_prob _ _ _ _ _ _ _ _ al_nl.
Let LZ := ns_len _ _ _ _ _ _ _ _ al_nl.
Let FZ := ns_dyn _ _ _ _ _ _ _ _ al_nl.
Let LZb := ns_lenb _ _ _ _ _ _ _ _ al_nl.
Let N := il_N s.
Lemma objs2_len : length (il_costobjs s2) = S N.
Proof.
  pose proof (f_equal (@length _) (NlProofs3.Vs n m al_ops (smooth_al n m) al_value (al_smooth n m) s Z SP LZ fuel s2 EB)) as E. rewrite !map_length in E. unfold il_costobjs. rewrite map_length, E. apply AS.
Qed.
Lemma objs2 i c2 : nth_error (il_costobjs s2) i = Some c2 -> exists c z, nth_error (il_costobjs s) i = Some c /\ nth_error Z i = Some z /\ smooth_al n m c2 /\ al_fresh c2 = al_fresh c /\ evaluated c2 (z_x z) (z_u z).
Proof.
  intros H. assert (Hi : (i < S N)%nat) by (rewrite <- objs2_len; apply nth_error_Some; congruence). unfold il_costobjs in H. rewrite nth_error_map in H. destruct (nth_error (il_kps s2) i) as [k2|] eqn:E2; [|discriminate]. cbn in H. inversion H; subst c2.
  destruct (nth_error_ex (il_kps s) i) as [k Ek]; [rewrite (sp_len _ _ _ _ _ SP); exact Hi|]. destruct (nth_error_ex Z i) as [z Ez]; [rewrite LZ; exact Hi|].
  exists (kp_cost k), z. rewrite costobjs_nth, Ek. split; [reflexivity|]. split; [exact Ez|].
  destruct (expand_all_nth n m al_ops (smooth_al n m) (il_kps s) Z) as [_ X]; [rewrite LZ, (sp_len _ _ _ _ _ SP); reflexivity|apply SP|]. destruct (X i k z Ek Ez) as (J & k' & E & E').
  assert (HI : smooth_al n m (kp_cost k)). { pose proof (sp_inv _ _ _ _ _ SP) as F. rewrite Forall_forall in F. apply F. eapply nth_error_In; eauto. }
  pose proof (nth_map_eq _ _ _ i k2 k' (NlProofs3.same2 n m al_ops (smooth_al n m) al_value s Z SP LZ fuel s2 EB) E2 E') as EQ. inversion EQ as [[EC ED]]. rewrite EC. destruct (expand_al n m k z J k' HI E) as [A B]. split; [|split; [exact A|exact B]].
  apply (expand_smooth n m al_ops (smooth_al n m) al_value (al_smooth n m) k z J k' HI E).
Qed.
Lemma total_objs Y : total_cost al_value s Y = traj_cost (F:=RS) (map al_value (il_costobjs s2)) Y.
Proof. rewrite <- (NlProofs3.total2 n m al_ops (smooth_al n m) al_value (al_smooth n m) s Z SP LZ fuel s2 EB Y). unfold total_cost, il_costobjs. rewrite map_map. reflexivity. Qed.
Theorem lagr_gap du fam : (forall a, varied n m s Z du a (fam a)) -> is_derive (fun a => total_cost al_value s (fam a) - lagr_total (map al_update_duals (il_costobjs s2)) (fam a)) 0 0.
Proof.
  intros GV. assert (LF : forall a, length (fam a) = S N) by (intros a; rewrite (proj1 (GV a)); exact LZ).
  destruct (shape n m al_ops (smooth_al n m) al_value s Z Zb SP LZ LZb fuel s2 EB ST) as (rho & kps & v0 & v1 & k0 & E0 & SG & OK & K2). fold N in E0, SG. set (w := bp_sweep n m rho kps (e_xx (kp_ce k0)) (e_x (kp_ce k0)) v0 v1) in *.
  assert (SG2 : map (stage_of n) (sw_kps w) = map (stage_of n) (firstn N (snd (expand_all al_ops n m (il_kps s) Z)))) by (unfold w; rewrite sweep_stages; exact SG).
  pose proof (var_pts n m al_ops (smooth_al n m) al_value (al_smooth n m) s Z Zb SP LZ FZ LZb fuel s2 EB (sw_kps w) k0 K2 SG2 fam du GV) as VP. fold N in VP.
  set (fs := map al_value (il_costobjs s2)). set (gs := map lagr (map al_update_duals (il_costobjs s2))).
  assert (Lf : length fs = S N) by (unfold fs; rewrite map_length; apply objs2_len). assert (Lg : length gs = S N) by (unfold gs; rewrite !map_length; apply objs2_len).
  eapply d_ext; [|apply (ccost_diff fs gs (curves fam N))].
  - intros t. cbn beta. rewrite total_objs. unfold lagr_total. fold fs gs.
    assert (A1 : traj_cost (F:=RS) fs (fam t) = ccost fs (curves fam N) t). { pose proof (ccost_traj fam t fs (fam t) 0%nat) as Q. rewrite Lf in Q. apply Q; [apply LF|reflexivity]. }
    assert (A2 : traj_cost (F:=RS) gs (fam t) = ccost gs (curves fam N) t). { pose proof (ccost_traj fam t gs (fam t) 0%nat) as Q. change (@length (vec RS -> vec RS -> R) gs) with (@length (vec RS -> vec RS -> RS) gs) in Lg. rewrite Lg in Q. apply Q; [apply LF|reflexivity]. }
    rewrite A1. apply f_equal. symmetry. exact A2.
  - exact (eq_trans Lf (eq_sym Lg)).
  - intros i f g c Hf Hg Hc. assert (Hi : (i < S N)%nat) by (rewrite <- (curves_len fam N); apply nth_error_Some; intros Q; pose proof (eq_trans (eq_sym Q) Hc); discriminate). rewrite curves_nth in Hc by lia. inversion Hc; subst c; clear Hc.
    unfold fs in Hf. unfold gs in Hg. rewrite nth_error_map in Hf, Hg. rewrite nth_error_map in Hg. destruct (nth_error (il_costobjs s2) i) as [c2|] eqn:E2; [|discriminate]. cbn [option_map] in Hf, Hg. injection Hf as <-. injection Hg as <-.
    destruct (objs2 i c2 E2) as (c & z & Ec & Ez & SC & FR & EV). pose proof (gap_flat n m c2 (z_x z) (z_u z) SC EV) as GF. destruct (VP i z ltac:(lia) Ez) as [[dx PX] PU].
    destruct (Nat.eq_dec i N) as [->|NE].
    + assert (BL : blind c2) by (exact (blind_fresh _ c FR (al_end _ _ _ _ _ AS c Ec))).
      eapply d_ext; [|eapply d_eq; [apply (GF (fst (curve_of fam N)) (fun _ => z_u z) dx (fun _ => 0) PX); split; [reflexivity|intros; apply d_const]|]].
      * intros t. cbn beta. rewrite (blind_value n m c2 _ (z_u z) (snd (curve_of fam N) t) SC BL), (blind_lagr (al_update_duals c2) _ (z_u z) (snd (curve_of fam N) t) (blind_upd _ BL)). reflexivity.
      * rewrite !inner_fsum, !fsum_rsum, !rsum_zero' by (intros; lra). lra.
    + destruct (PU ltac:(lia)) as [dv PV]. eapply d_eq; [apply (GF _ _ dx dv PX PV)|]. rewrite !inner_fsum, !fsum_rsum, !rsum_zero' by (intros; lra). lra.
Qed.
Theorem multipliers : no_step m s2 <-> lagr_stationary n m s Z (map al_update_duals (il_costobjs s2)).
Proof.
  rewrite (stationary n m al_ops (smooth_al n m) al_value s Z Zb al_nl fuel s2 EB ST). unfold lagr_stationary. split; intros H du fam GV; specialize (H du fam GV); pose proof (lagr_gap du fam GV) as G.
  - eapply d_ext; [|eapply d_eq; [apply d_minus; [exact H|exact G]|lra]]. intros t. cbn beta. lra.
  - eapply d_ext; [|eapply d_eq; [apply d_plus; [exact H|exact G]|lra]]. intros t. cbn beta. lra.
Qed.
Lemma kept_kkt : duals_kept (il_costobjs s2) <-> forall k c z v i, nth_error (il_costobjs s) k = Some c -> nth_error Z k = Some z -> In v (al_cvs c) -> (i < cv_p v)%nat -> kkt (cv_type v) (con_eval (cv_con v) (z_x z) (z_u z) vzero i) (cv_lam v i).
Proof.
  split.
  - intros H k c z v i Hc Hz Hv Hi. assert (Hk : (k < S N)%nat) by (unfold N; rewrite <- LZ; apply nth_error_Some; congruence). destruct (nth_error_ex (il_costobjs s2) k) as [c2 E2]; [rewrite objs2_len; exact Hk|].
    destruct (objs2 k c2 E2) as (c' & z' & Ec & Ez & SC & FR & EV). rewrite Hc in Ec. inversion Ec; subst c'. rewrite Hz in Ez. inversion Ez; subst z'. symmetry in FR. destruct (fresh_in c c2 v FR Hv) as (w & Hw & C1 & C2 & C3). symmetry in FR.
    assert (Hi' : (i < cv_p w)%nat) by (unfold cv_p in *; rewrite C1; exact Hi). destruct (smooth_facts n m c2 SC) as (_ & _ & _ & F). destruct (F w Hw) as (P & _ & U & _). rewrite <- C1, <- C2, <- C3, <- (EV w i Hw Hi').
    apply (dual_fixed_point_kkt w i Hi'); [rewrite (U i Hi'); exact P|]. apply (H c2 w i); [eapply nth_error_In; exact E2|exact Hw|exact Hi'].
  - intros H c2 w i Hc Hw Hi. apply In_nth_error in Hc. destruct Hc as [k E2]. destruct (objs2 k c2 E2) as (c & z & Ec & Ez & SC & FR & EV). destruct (fresh_in c2 c w FR Hw) as (v & Hv & C1 & C2 & C3).
    destruct (smooth_facts n m c2 SC) as (_ & _ & _ & F). destruct (F w Hw) as (P & _ & U & _). apply (dual_fixed_point_kkt w i Hi); [rewrite (U i Hi); exact P|]. rewrite (EV w i Hw Hi), <- C1, <- C2, <- C3. apply (H k c z v i Ec Ez Hv). unfold cv_p in *. rewrite C1. exact Hi.
Qed.
Lemma kept_lagr Y : duals_kept (il_costobjs s2) -> lagr_total (map al_update_duals (il_costobjs s2)) Y = lagr_total (il_costobjs s) Y.
Proof.
  intros H. unfold lagr_total. f_equal. rewrite map_map. apply list_eq_nth; [rewrite !map_length; unfold il_costobjs at 2; rewrite map_length, objs2_len; symmetry; apply AS|].
  intros i a b Ha Hb. rewrite nth_error_map in Ha, Hb. destruct (nth_error (il_costobjs s2) i) as [c2|] eqn:E2; [|discriminate]. destruct (nth_error (il_costobjs s) i) as [c|] eqn:E; [|discriminate]. cbn in Ha, Hb. inversion Ha; inversion Hb; subst a b.
  destruct (objs2 i c2 E2) as (c' & z & Ec & Ez & SC & FR & EV). rewrite E in Ec. inversion Ec; subst c'. rewrite <- (fresh_lagr _ _ FR). apply functional_extensionality. intros x. apply functional_extensionality. intros u. unfold lagr, al_update_duals. rewrite cvs_map, lfsum_map.
  f_equal. apply lfsum_ext_in. intros v Hv. rewrite !fsum_rsum. change (cv_p (cv_update_duals v)) with (cv_p v). apply rsum_ext. intros j Hj. rewrite (H c2 v j); [reflexivity|eapply nth_error_In; exact E2|exact Hv|exact Hj].
Qed.
Theorem kkt_fixed : (no_step m s2 /\ duals_kept (il_costobjs s2)) <-> kkt_point n m s Z.
Proof.
  rewrite multipliers. unfold kkt_point. rewrite <- kept_kkt. split.
  - intros [H K]. split; [exact FZ|]. split; [exact K|]. intros du fam GV. eapply d_ext; [|apply (H du fam GV)]. intros t. cbn beta. apply kept_lagr. exact K.
  - intros (_ & K & H). split; [|exact K]. intros du fam GV. eapply d_ext; [|apply (H du fam GV)]. intros t. cbn beta. symmetry. apply kept_lagr. exact K.
Qed.
End Kkt.
