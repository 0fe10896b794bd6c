(** The backward sweep on the quadratic model. *)
From Coq Require Import Reals Lra Lia List Bool ZArith Psatz Arith.
From Verif Require Import Base Lin TrajModel IlqrModel RLin LqSpec LltProofs DynProofs LqProofs.
Import ListNotations.
Local Open Scope R_scope.

Section S.
Context {CS : Type} (n m : nat).
Notation K := (KPF RS CS).
Notation stage_of := (@stage_of CS n).
Lemma gains_fields (k k' : K) : kpf_gains n m k = Some k' -> kp_q k' = kp_q k /\ kp_qr k' = kp_qr k /\ kp_ce k' = kp_ce k /\ kp_jac k' = kp_jac k /\ kp_dyn k' = kp_dyn k /\ kp_cost k' = kp_cost k.
Proof. unfold kpf_gains. destruct (llt m _); [|discriminate]. intros H; inversion H; subst; repeat split; reflexivity. Qed.
Lemma ctg_fields (k : K) : kp_K (kpf_ctg n m k) = kp_K k /\ kp_d (kpf_ctg n m k) = kp_d k /\ kp_ce (kpf_ctg n m k) = kp_ce k /\ kp_jac (kpf_ctg n m k) = kp_jac k /\ kp_q (kpf_ctg n m k) = kp_q k /\ kp_qr (kpf_ctg n m k) = kp_qr k.
Proof. repeat split; reflexivity. Qed.

Lemma stage_cost_ext g dx dx' du du' : (forall i, (i < n)%nat -> dx i = dx' i) -> (forall i, (i < m)%nat -> du i = du' i) -> stage_cost n m g dx du = stage_cost n m g dx' du'.
Proof. intros A B. unfold stage_cost, lincost, quadcost. rewrite (inner_ext n (sg_x g) dx (sg_x g) dx'), (inner_ext m (sg_u g) du (sg_u g) du'), (form_ext n n (sg_xx g) dx dx (sg_xx g) dx' dx'), (form_ext n m (sg_xu g) dx du (sg_xu g) dx' du'), (form_ext m m (sg_uu g) du du (sg_uu g) du' du'); auto. Qed.
(** everything about one successful stage *)
Section Stage.
Context (rho : R) (S : nat -> nat -> R) (s : nat -> R) (k k2 : K).
Let kq := kpf_action_value n m S s k.
Let k1 := kpf_regularize m rho kq.
Let k3 := kpf_ctg n m k2.
Context (G : kpf_gains n m k1 = Some k2) (SY : sym_stage n m (stage_of k)) (SS : sym n S).
Let Q := q_stage (kp_q kq).
Lemma st_qsym : sym_stage n m Q. Proof. apply av_sym; auto. Qed.
Lemma st_q : kp_q k2 = kp_q kq. Proof. destruct (gains_fields _ _ G) as (E & _). rewrite E. reflexivity. Qed.
Lemma st_S : sym n (kp_S k3).
Proof. apply ctg_sym. rewrite st_q. exact st_qsym. Qed.
Lemma st_policy dx : stage_cost n m (stage_of k) dx (fun i => app n (kp_K k3) dx i + kp_d k3 i) + quadratic n s S (next n m (stage_of k) dx (fun i => app n (kp_K k3) dx i + kp_d k3 i))
  = quadratic n (kp_s k3) (kp_S k3) dx + kp_dv0 k3 + kp_dv1 k3.
Proof. rewrite <- (av_cost n m k S s) by auto. fold kq. rewrite <- st_q. apply (ctg_cost n m k2 dx). rewrite st_q. apply st_qsym. Qed.
Lemma st_gain : (forall w dx, form m m (e_uu (kp_q k2)) w (app n (kp_K k2) dx) + rho * inner m w (app n (kp_K k2) dx) = - form n m (e_xu (kp_q k2)) dx w) /\
  (forall w, form m m (e_uu (kp_q k2)) w (kp_d k2) + rho * inner m w (kp_d k2) = - inner m (e_u (kp_q k2)) w) /\
  posdef m (e_uu (kp_qr k2)) /\ forall w w', form m m (e_uu (kp_qr k2)) w w' = form m m (e_uu (kp_q k2)) w w' + rho * inner m w w'.
Proof.
  destruct (gains_eq n m k1 k2 G) as (A & B & P). { apply reg_sym. apply st_qsym. }
  destruct (gains_fields _ _ G) as (_ & E & _).
  assert (E2 : kp_qr k2 = kp_qr k1) by exact E. rewrite st_q.
  split; [|split; [|split]].
  - intros w dx. rewrite <- (reg_form m rho kq). exact (A w dx).
  - intros w. rewrite <- (reg_form m rho kq). exact (B w).
  - rewrite E2. exact P.
  - intros w w'. rewrite E2. apply reg_form.
Qed.
(** descent *)
Lemma st_descent : kp_dv0 k3 = - form m m (e_uu (kp_qr k3)) (kp_d k3) (kp_d k3) /\
  kp_dv1 k3 = 1 / 2 * (form m m (e_uu (kp_qr k3)) (kp_d k3) (kp_d k3) - rho * inner m (kp_d k3) (kp_d k3)) /\ posdef m (e_uu (kp_qr k3)).
Proof.
  destruct st_gain as (_ & B & P & E). destruct (ctg_dv n m k2) as [D0 D1]. change (kp_qr k3) with (kp_qr k2). change (kp_d k3) with (kp_d k2). fold k3 in D0, D1.
  rewrite D0, D1. rewrite !E. split; [rewrite B; lra|split; [lra|exact P]].
Qed.
(** unregularised: other step lengths and other controls *)
Context (R0 : rho = 0).
Lemma st_alpha a dx : stage_cost n m (stage_of k) dx (fun i => app n (kp_K k3) dx i + a * kp_d k3 i) + quadratic n s S (next n m (stage_of k) dx (fun i => app n (kp_K k3) dx i + a * kp_d k3 i))
  = quadratic n (kp_s k3) (kp_S k3) dx + a * kp_dv0 k3 + a * a * kp_dv1 k3.
Proof.
  rewrite <- (av_cost n m k S s) by auto. fold kq. rewrite <- st_q. unfold quadratic, k3. rewrite ctg_lin, ctg_quad. destruct (ctg_dv n m k2) as [-> ->].
  destruct st_gain as (A & B & _). rewrite R0 in A. specialize (A (kp_d k2) dx). destruct st_qsym as [_ SU]. unfold Q in SU. rewrite <- st_q in SU. cbn in SU.
  unfold stage_cost, lincost, quadcost, q_stage. cbn [sg_x sg_u sg_xx sg_xu sg_uu]. change (kp_K (kpf_ctg n m k2)) with (kp_K k2). change (kp_d (kpf_ctg n m k2)) with (kp_d k2).
  rewrite inner_add_r, inner_scal_r, !form_add_r, !form_add_l, !form_scal_r, !form_scal_l.
  rewrite (form_sym m _ (app n (kp_K k2) dx) (kp_d k2)) by auto. nra.
Qed.
Lemma st_min dx w : stage_cost n m Q dx (fun i => app n (kp_K k3) dx i + kp_d k3 i + w i)
  = stage_cost n m Q dx (fun i => app n (kp_K k3) dx i + kp_d k3 i) + 1 / 2 * form m m (e_uu (kp_q kq)) w w.
Proof.
  destruct st_gain as (A & B & _). rewrite R0 in A, B. specialize (A w dx). specialize (B w). pose proof st_qsym as [_ SU]. unfold Q in SU. rewrite <- st_q in SU. cbn in SU.
  unfold Q. rewrite <- st_q. unfold stage_cost, lincost, quadcost, q_stage. cbn [sg_x sg_u sg_xx sg_xu sg_uu]. change (kp_K k3) with (kp_K k2). change (kp_d k3) with (kp_d k2).
  rewrite (inner_add_r m _ (fun i => app n (kp_K k2) dx i + kp_d k2 i) w), (form_add_r n m _ dx (fun i => app n (kp_K k2) dx i + kp_d k2 i) w), (form_add_r m m _ _ (fun i => app n (kp_K k2) dx i + kp_d k2 i) w),
    !(form_add_l m m _ (fun i => app n (kp_K k2) dx i + kp_d k2 i) w).
  rewrite (form_sym m _ (fun i => app n (kp_K k2) dx i + kp_d k2 i) w) by auto. rewrite (form_add_r m m _ w). lra.
Qed.
Lemma st_pd : posdef m (e_uu (kp_q kq)).
Proof. destruct st_gain as (_ & _ & P & E). intros w W. specialize (P w W). rewrite E, R0, st_q in P. lra. Qed.
Lemma st_best dx du : quadratic n (kp_s k3) (kp_S k3) dx + kp_dv0 k3 + kp_dv1 k3 <= stage_cost n m (stage_of k) dx du + quadratic n s S (next n m (stage_of k) dx du).
Proof.
  rewrite <- st_policy. rewrite <- !(av_cost n m k S s) by auto. fold kq.
  set (u0 := fun i => app n (kp_K k3) dx i + kp_d k3 i). pose proof (st_min dx (fun i => du i - u0 i)) as M. fold u0 in M. unfold Q in M.
  assert (E : stage_cost n m (q_stage (kp_q kq)) dx (fun i => app n (kp_K k3) dx i + kp_d k3 i + (du i - u0 i)) = stage_cost n m (q_stage (kp_q kq)) dx du).
  { apply stage_cost_ext; auto. intros; unfold u0; lra. }
  rewrite E in M. rewrite M. pose proof (posdef_nonneg m _ (fun i => du i - u0 i) st_pd). lra.
Qed.
End Stage.

(** * the sweep *)
Lemma sweep_cons rho (k : K) r SN sN v0 v1 : sw_ok (bp_sweep n m rho (k :: r) SN sN v0 v1) = true ->
  let w := bp_sweep n m rho r SN sN v0 v1 in sw_ok w = true /\ exists k2, kpf_gains n m (kpf_regularize m rho (kpf_action_value n m (sw_S w) (sw_s w) k)) = Some k2 /\
  let k3 := kpf_ctg n m k2 in bp_sweep n m rho (k :: r) SN sN v0 v1 = mkSweep true (k3 :: sw_kps w) (kp_S k3) (kp_s k3) (sw_v0 w + kp_dv0 k3) (sw_v1 w + kp_dv1 k3).
Proof.
  cbn [bp_sweep]. intros H. cbv zeta. destruct (sw_ok (bp_sweep n m rho r SN sN v0 v1)) eqn:E; [|discriminate]. split; [reflexivity|].
  destruct (kpf_gains n m _) as [k2|] eqn:G; [|discriminate]. exists k2. split; [reflexivity|]. reflexivity.
Qed.
Notation gains l := (map (fun k : K => (kp_K k, kp_d k)) l).
Notation changes l := (fold_right (fun (k : K) a => kp_dv0 k + kp_dv1 k + a) 0 l).
Lemma sweep_sym rho kps SN sN v0 v1 : Forall (fun k => sym_stage n m (stage_of k)) kps -> sym n SN ->
  let w := bp_sweep n m rho kps SN sN v0 v1 in sym n (sw_S w) /\ (sw_ok w = true -> Forall (fun k => sym n (kp_S k)) (sw_kps w)).
Proof.
  cbv zeta. intros F HS. induction F as [|k r Hk F [IH1 IH2]]; [cbn; auto|]. cbn [bp_sweep]. set (w := bp_sweep n m rho r SN sN v0 v1) in *.
  destruct (sw_ok w) eqn:E; [|cbn; split; [auto|discriminate]]. destruct (kpf_gains n m _) as [k2|] eqn:G; [|cbn; split; [auto|discriminate]].
  pose proof (st_S rho (sw_S w) (sw_s w) k k2 G Hk IH1) as Q. cbn [sw_S sw_ok sw_kps]. split; [exact Q|]. intros _. constructor; auto.
Qed.
Lemma model_cost_cons g gs sN SN dx du us : model_cost n m (g :: gs) sN SN dx (du :: us) = stage_cost n m g dx du + model_cost n m gs sN SN (next n m g dx du) us.
Proof. reflexivity. Qed.
Lemma inner_eq1 x y z : (forall i, (i < n)%nat -> x i = y i) -> inner n z x = inner n z y.
Proof. intros. apply inner_ext; auto. Qed.
Lemma next_ext g dx du du' i : (forall j, (j < m)%nat -> du j = du' j) -> next n m g dx du i = next n m g dx du' i.
Proof. intros H. unfold next. f_equal. apply app_ext; auto. Qed.
Lemma quadratic_ext s S dx dx' : (forall i, (i < n)%nat -> dx i = dx' i) -> quadratic n s S dx = quadratic n s S dx'.
Proof. intros H. unfold quadratic. f_equal; [apply inner_ext; auto|]. f_equal. apply form_ext; auto. Qed.
Lemma sweep_front rho kps SN sN v0 v1 : Forall (fun k => sym_stage n m (stage_of k)) kps -> sym n SN ->
  let w := bp_sweep n m rho kps SN sN v0 v1 in sw_ok w = true ->
  forall dx, model_cost n m (map stage_of kps) sN SN dx (policy n m 1 (map stage_of kps) (gains (sw_kps w)) dx) = quadratic n (sw_s w) (sw_S w) dx + changes (sw_kps w).
Proof.
  cbv zeta. intros F HS. induction F as [|k r Hk F IH]; intros OK dx; [cbn; lra|].
  destruct (sweep_cons rho k r SN sN v0 v1 OK) as (OKr & k2 & G & E). cbv zeta in *. rewrite E. set (w := bp_sweep n m rho r SN sN v0 v1) in *.
  destruct (sweep_sym rho r SN sN v0 v1 F HS) as [SW _]. fold w in SW.
  pose proof (st_policy rho (sw_S w) (sw_s w) k k2 G Hk SW dx) as P. set (k3 := kpf_ctg n m k2) in *.
  cbn [map sw_kps sw_s sw_S policy fold_right]. rewrite model_cost_cons. rewrite IH by exact OKr.
  rewrite (stage_cost_ext (stage_of k) dx dx _ (fun i => app n (kp_K k3) dx i + kp_d k3 i)) by (auto; intros; lra).
  rewrite (quadratic_ext (sw_s w) (sw_S w) _ (next n m (stage_of k) dx (fun i => app n (kp_K k3) dx i + kp_d k3 i))) by (intros; apply next_ext; intros; lra). lra.
Qed.
Lemma sweep_len rho (kps : list K) SN sN v0 v1 : length (sw_kps (bp_sweep n m rho kps SN sN v0 v1)) = length kps.
Proof. induction kps as [|k r IH]; [reflexivity|]. cbn [bp_sweep]. destruct (sw_ok _); [|cbn; f_equal; auto]. destruct (kpf_gains n m _); cbn; f_equal; auto. Qed.
(** stored at every knot point *)
Theorem sweep_stored rho kps SN sN v0 v1 : Forall (fun k => sym_stage n m (stage_of k)) kps -> sym n SN ->
  let w := bp_sweep n m rho kps SN sN v0 v1 in sw_ok w = true -> forall i ki, nth_error (sw_kps w) i = Some ki -> forall dx,
  model_cost n m (skipn i (map stage_of kps)) sN SN dx (policy n m 1 (skipn i (map stage_of kps)) (skipn i (gains (sw_kps w))) dx)
  = quadratic n (kp_s ki) (kp_S ki) dx + changes (skipn i (sw_kps w)).
Proof.
  cbv zeta. intros F HS. induction F as [|k r Hk F IH]; intros OK i ki Hi dx; [destruct i; discriminate|].
  destruct (sweep_cons rho k r SN sN v0 v1 OK) as (OKr & k2 & G & E). cbv zeta in *.
  destruct i as [|i].
  - pose proof (sweep_front rho (k :: r) SN sN v0 v1 ltac:(constructor; auto) HS OK dx) as P. rewrite E in *. cbn in Hi. inversion Hi; subst ki. cbn [skipn]. exact P.
  - rewrite E in *. cbn in Hi. cbn [map skipn sw_kps]. apply IH; auto.
Qed.
Lemma sweep_total rho (kps : list K) SN sN v0 v1 : let w := bp_sweep n m rho kps SN sN v0 v1 in sw_ok w = true ->
  sw_v0 w = v0 + fold_right (fun (k : K) a => kp_dv0 k + a) 0 (sw_kps w) /\ sw_v1 w = v1 + fold_right (fun (k : K) a => kp_dv1 k + a) 0 (sw_kps w).
Proof.
  cbv zeta. induction kps as [|k r IH]; intros OK; [cbn; split; lra|]. destruct (sweep_cons rho k r SN sN v0 v1 OK) as (OKr & k2 & G & E). cbv zeta in *. rewrite E.
  destruct (IH OKr) as [A B]. cbn [sw_v0 sw_v1 sw_kps fold_right]. lra.
Qed.
Theorem sweep_alpha kps SN sN v0 v1 : Forall (fun k => sym_stage n m (stage_of k)) kps -> sym n SN ->
  let w := bp_sweep n m (0 : RS) kps SN sN v0 v1 in sw_ok w = true ->
  forall a dx, model_cost n m (map stage_of kps) sN SN dx (policy n m a (map stage_of kps) (gains (sw_kps w)) dx) = quadratic n (sw_s w) (sw_S w) dx + a * (sw_v0 w - v0) + a * a * (sw_v1 w - v1).
Proof.
  cbv zeta. intros F HS. induction F as [|k r Hk F IH]; intros OK a dx; [cbn; lra|].
  destruct (sweep_cons 0 k r SN sN v0 v1 OK) as (OKr & k2 & G & E). cbv zeta in *. rewrite E. set (w := bp_sweep n m _ r SN sN v0 v1) in *.
  destruct (sweep_sym 0 r SN sN v0 v1 F HS) as [SW _]. fold w in SW.
  pose proof (st_alpha 0 (sw_S w) (sw_s w) k k2 G Hk SW eq_refl a dx) as P. set (k3 := kpf_ctg n m k2) in *.
  cbn [map sw_kps sw_s sw_S sw_v0 sw_v1 policy]. rewrite model_cost_cons. rewrite IH by exact OKr. lra.
Qed.
(** unregularised sweep: no control sequence does better *)
Theorem sweep_best kps SN sN v0 v1 : Forall (fun k => sym_stage n m (stage_of k)) kps -> sym n SN ->
  let w := bp_sweep n m (0 : RS) kps SN sN v0 v1 in sw_ok w = true ->
  forall us dx, length us = length kps -> quadratic n (sw_s w) (sw_S w) dx + (sw_v0 w - v0) + (sw_v1 w - v1) <= model_cost n m (map stage_of kps) sN SN dx us.
Proof.
  cbv zeta. intros F HS. induction F as [|k r Hk F IH]; intros OK us dx L; [destruct us; [|discriminate]; cbn; lra|]. destruct us as [|du us]; [discriminate|].
  destruct (sweep_cons 0 k r SN sN v0 v1 OK) as (OKr & k2 & G & E). cbv zeta in *. rewrite E. set (w := bp_sweep n m _ r SN sN v0 v1) in *.
  destruct (sweep_sym 0 r SN sN v0 v1 F HS) as [SW _]. fold w in SW.
  pose proof (st_best 0 (sw_S w) (sw_s w) k k2 G Hk SW eq_refl dx du) as P. set (k3 := kpf_ctg n m k2) in *.
  cbn [map sw_s sw_S sw_v0 sw_v1]. rewrite model_cost_cons. specialize (IH OKr us (next n m (stage_of k) dx du) ltac:(cbn in L; lia)). lra.
Qed.

(** * descent *)
(** contribution of one stage to the expected decrease *)
Lemma st_drop rho q i : 0 <= rho -> 0 <= q -> 0 <= i -> forall a, 0 < a <= 1 -> a / 2 * q <= - a * (- q + a * (1 / 2 * (q - rho * i))).
Proof.
  intros Hr Hq Hi a Ha. assert (0 <= a * a * (rho * i)) by (apply Rmult_le_pos; [nra|apply Rmult_le_pos; auto]). assert (0 <= a * (1 - a) * q) by (apply Rmult_le_pos; [nra|auto]). nra.
Qed.
Lemma sweep_descent rho kps SN sN v0 v1 : Forall (fun k => sym_stage n m (stage_of k)) kps -> sym n SN -> 0 <= rho ->
  let w := bp_sweep n m rho kps SN sN v0 v1 in forall a, 0 < a <= 1 -> - a * (v0 + a * v1) <= - a * (sw_v0 w + a * sw_v1 w) /\
   (sw_ok w = true -> - a * (v0 + a * v1) = - a * (sw_v0 w + a * sw_v1 w) -> Forall (fun k => forall i, (i < m)%nat -> kp_d k i = 0) (sw_kps w)).
Proof.
  cbv zeta. intros F HS Hr. induction F as [|k r Hk F IH]; intros a Ha; [cbn; split; [lra|constructor]|].
  specialize (IH a Ha). destruct IH as [IH1 IH2]. destruct (sweep_sym rho r SN sN v0 v1 F HS) as [SW _]. cbv zeta in SW.
  cbn [bp_sweep]. set (w := bp_sweep n m rho r SN sN v0 v1) in *. destruct (sw_ok w) eqn:E; [|cbn; split; [exact IH1|discriminate]].
  destruct (kpf_gains n m _) as [k2|] eqn:G; [|cbn; split; [exact IH1|discriminate]].
  destruct (st_descent rho (sw_S w) (sw_s w) k k2 G Hk SW) as (D0 & D1 & P). set (k3 := kpf_ctg n m k2) in *. cbn [sw_v0 sw_v1 sw_ok sw_kps].
  pose proof (posdef_nonneg m _ (kp_d k3) P) as Q. pose proof (inner_self m (kp_d k3)) as I.
  pose proof (st_drop rho _ _ Hr Q I a Ha) as D. rewrite <- D1, <- D0 in D. rs.
  set (q := form m m (e_uu (kp_qr k3)) (kp_d k3) (kp_d k3)) in *.
  assert (X : - a * (sw_v0 w + kp_dv0 k3 + a * (sw_v1 w + kp_dv1 k3)) = - a * (sw_v0 w + a * sw_v1 w) + - a * (kp_dv0 k3 + a * kp_dv1 k3)) by nra.
  assert (0 <= a / 2 * q) by (apply Rmult_le_pos; lra). split; [lra|]. intros _ EQ.
  assert (q <= 0) by nra. constructor; [apply (posdef_zero m _ (kp_d k3) P); exact H0|]. apply IH2; [reflexivity|]. lra.
Qed.

(** * convexity *)
Lemma posdef_sum A B : posdef m A -> (forall x, 0 <= B x) -> forall x, nonzero m x -> 0 < form m m A x x + B x.
Proof. intros P H x W. specialize (P x W). specialize (H x). lra. Qed.
Theorem sweep_convex rho kps SN sN v0 v1 : Forall (fun k => sym_stage n m (stage_of k)) kps -> sym n SN -> 0 <= rho ->
  Forall (fun k => convex_stage n m (stage_of k)) kps -> possemi n SN ->
  let w := bp_sweep n m rho kps SN sN v0 v1 in sw_ok w = true /\ possemi n (sw_S w) /\ Forall (fun k => possemi n (kp_S k)) (sw_kps w).
Proof.
  cbv zeta. intros F HS Hr C PN. induction F as [|k r Hk F IH]; [cbn; auto|]. inversion C as [|? ? [Ck Cu] Cr]; subst. destruct (IH Cr) as (OK & PS & PA).
  destruct (sweep_sym rho r SN sN v0 v1 F HS) as [SW _]. cbv zeta in SW. cbn [bp_sweep]. set (w := bp_sweep n m rho r SN sN v0 v1) in *. rewrite OK.
  pose proof (av_sym n m k (sw_S w) (sw_s w) Hk SW) as QS. set (kq := kpf_action_value n m (sw_S w) (sw_s w) k) in *.
  assert (QP : forall dx du, 0 <= quadcost n m (q_stage (kp_q kq)) dx du) by (intros; unfold kq; rewrite av_quad by auto; pose proof (Ck dx du); pose proof (PS (next n m (stage_of k) dx du)); lra).
  assert (UP : posdef m (e_uu (kp_qr (kpf_regularize m rho kq)))).
  { intros x W. rewrite reg_form. assert (Z : quadcost n m (q_stage (kp_q kq)) (fun _ => 0) x = 1 / 2 * form m m (e_uu (kp_q kq)) x x) by (unfold quadcost; cbn [q_stage sg_xx sg_xu sg_uu]; rewrite !form_zero_l; lra).
    assert (Z1 : quadcost n m (stage_of k) (fun _ => 0) x = 1 / 2 * form m m (sg_uu (stage_of k)) x x) by (unfold quadcost; rewrite !form_zero_l; lra).
    unfold kq in Z. rewrite av_quad in Z by auto. pose proof (PS (next n m (stage_of k) (fun _ => 0) x)). specialize (Cu x W). pose proof (inner_self m x) as I. assert (0 <= rho * inner m x x) by (apply Rmult_le_pos; auto). fold kq in Z. lra. }
  destruct (gains_ok n m (kpf_regularize m rho kq)) as [k2 G]; [apply reg_sym; apply QS|exact UP|]. rewrite G. cbn [sw_ok sw_S sw_kps].
  assert (P3 : possemi n (kp_S (kpf_ctg n m k2))).
  { intros dx. pose proof (ctg_quad n m k2 dx) as E. rewrite (st_q rho (sw_S w) (sw_s w) k k2 G) in E. pose proof (QP dx (app n (kp_K k2) dx)). fold kq in E. lra. }
  split; [reflexivity|split; [exact P3|constructor; auto]].
Qed.
End S.
