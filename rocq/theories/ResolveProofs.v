(** Proofs: two solves of the same task from different solver histories. *)
From Coq Require Import ZArith String List Bool Lia.
From Verif Require Import Base Lin LogModel StatsModel StatsSpec StatsProofs TrajModel IlqrModel IlqrSpec StatsMoveSpec StatsMoveProofs ResolveSpec.
Import ListNotations.
Local Open Scope Z_scope.

Section Tail.
Context {F : Scalar}.
Lemma tail_mono {A} j i (l l' : list A) : same_tail j l l' -> (i <= j)%nat -> same_tail i l l'.
Proof.
  intros (a & a' & c & -> & -> & H) L. exists (a ++ firstn (j - i) c), (a' ++ firstn (j - i) c), (skipn (j - i) c).
  rewrite <- !app_assoc, firstn_skipn, skipn_length. repeat split; auto. lia.
Qed.
Lemma tail_0 {A} (l l' : list A) : same_tail 0 l l'.
Proof. exists l, l', []. now rewrite !app_nil_r. Qed.
Lemma tail_nil {A} j (l : list A) : same_tail j [] l -> j = 0%nat.
Proof. intros (a & a' & c & E & _ & H). destruct a, c; try discriminate. now rewrite <- H. Qed.
Lemma tail_nil' {A} j (l : list A) : same_tail j l [] -> j = 0%nat.
Proof. intros (a & a' & c & _ & E & H). destruct a', c; try discriminate. now rewrite <- H. Qed.
Lemma snoc_cases {A} (l : list A) : l = [] \/ exists a x, l = a ++ [x].
Proof. destruct l as [|x l]; [now left|right]. destruct (@exists_last A (x :: l)) as (a & y & E); [discriminate|]. eauto. Qed.
Lemma tail_set v j (l l' : list F) : l <> [] -> l' <> [] -> same_tail j l l' -> same_tail (Nat.max 1 j) (set_back v l) (set_back v l').
Proof.
  intros N N' (a & a' & c & -> & -> & H). destruct (snoc_cases c) as [->|(d & x & ->)]; [|rename d into c].
  - rewrite !app_nil_r in *. cbn in H. subst j. destruct (snoc_cases a) as [->|(b & y & ->)]; [congruence|]. destruct (snoc_cases a') as [->|(b' & y' & ->)]; [congruence|].
    rewrite !set_back_snoc. exists b, b', [v]. auto.
  - rewrite !app_assoc, !set_back_snoc, <- !app_assoc. exists a, a', (c ++ [v]). rewrite app_length in H. cbn in H. split; [reflexivity|]. split; [reflexivity|]. rewrite ?app_length; cbn [length List.app]; lia.
Qed.
Lemma tail_new j (l l' : list F) : (1 <= j)%nat -> same_tail j l l' -> same_tail (S j) (new_ser l) (new_ser l').
Proof.
  intros L (a & a' & c & -> & -> & H). destruct (snoc_cases c) as [->|(d & x & ->)]; [cbn in H; lia|]; rename d into c.
  unfold new_ser. rewrite !app_assoc, !last_app, <- !app_assoc. exists a, a', (c ++ [x] ++ [x]). rewrite app_length in H. cbn in H. split; [reflexivity|]. split; [reflexivity|]. rewrite ?app_length; cbn [length List.app]; lia.
Qed.
Lemma tail_log_eq t v j (l l' : list F) : same_tail j l l' -> same_tail (Nat.max 1 j) (log_ser t t v l) (log_ser t t v l').
Proof.
  intros H. unfold log_ser. rewrite String.eqb_refl. destruct l as [|x l].
  - apply tail_nil in H. subst j. apply tail_set; [discriminate|destruct l'; discriminate|apply tail_0].
  - destruct l' as [|x' l']; [apply tail_nil' in H; subst j; apply tail_set; try discriminate; apply tail_0|]. apply tail_set; auto; discriminate.
Qed.
Lemma tail_log_ne t t' v w j (l l' : list F) : t <> t' -> same_tail j l l' -> same_tail j (log_ser t' t v l) (log_ser t' t w l').
Proof.
  intros N H. unfold log_ser. apply String.eqb_neq in N. rewrite N. destruct l as [|x l].
  - apply tail_nil in H. subst j. apply tail_0.
  - destruct l' as [|x' l']; [apply tail_nil' in H; subst j; apply tail_0|exact H].
Qed.
Lemma tail_last (l l' : list F) : same_tail 1 l l' -> last_opt l = last_opt l'.
Proof.
  intros (a & a' & c & -> & -> & H). destruct c as [|x [|]]; try discriminate. unfold last_opt. now rewrite !rev_app_distr.
Qed.
Lemma tail_last_some (l l' : list F) : same_tail 1 l l' -> exists x, last_opt l = Some x /\ last_opt l' = Some x.
Proof.
  intros (a & a' & c & -> & -> & H). destruct c as [|x [|]]; try discriminate. unfold last_opt. rewrite !rev_app_distr. exists x. auto.
Qed.

(** ** the statistics *)
Lemma get_new t (st : Stats F) l : flat st -> st_get t st = Some l -> st_get t (st_new_iteration st) = Some (new_ser l).
Proof.
  intros H E. rewrite st_get_app, (new_iteration_ser st H), find_map_fst by reflexivity. rewrite st_get_app in E.
  destruct (find _ (st_ser st)); cbn in *; [|discriminate]. inversion E. reflexivity.
Qed.
Lemma flat_log t x (st : Stats F) : flat st -> flat (st_log_val t x st).
Proof. intros H. apply (flat_set_data t _ (st_set_log st _)). exact H. Qed.

(** the pairs of series compared: [jc] entries of the cost, [j] of the others *)
Definition tails (ts : list string) (j : nat) (st st' : Stats F) : Prop :=
  forall t, In t ts -> exists l l', st_get t st = Some l /\ st_get t st' = Some l' /\ same_tail j l l'.
Definition sflat (st st' : Stats F) : Prop := flat st /\ flat st' /\ st_inner st' = st_inner st /\ st_initial_cost st' = st_initial_cost st.

Lemma sflat_log t x y (st st' : Stats F) : sflat st st' -> sflat (st_log_val t x st) (st_log_val t y st').
Proof.
  intros (A & B & C & D). split; [now apply flat_log|]. split; [now apply flat_log|].
  unfold st_log_val, st_set_data. cbn. destruct (Nat.eqb (st_len st) 0), (Nat.eqb (st_len st') 0); cbn; auto.
Qed.
Lemma tails_log_ne ts j t x y (st st' : Stats F) : sflat st st' -> ~ In t ts -> tails ts j st st' -> tails ts j (st_log_val t x st) (st_log_val t y st').
Proof.
  intros (A & B & _) N H q Hq. destruct (H q Hq) as (l & l' & G & G' & T).
  exists (log_ser t q (lval_num x) l), (log_ser t q (lval_num y) l'). split; [now apply st_get_log|]. split; [now apply st_get_log|].
  apply tail_log_ne; auto. intros ->. contradiction.
Qed.
Lemma tails_log_eq j t x (st st' : Stats F) : sflat st st' -> tails [t] j st st' -> tails [t] (Nat.max 1 j) (st_log_val t x st) (st_log_val t x st').
Proof.
  intros (A & B & _) H q [<-|[]]. destruct (H t (or_introl eq_refl)) as (l & l' & G & G' & T).
  exists (log_ser t t (lval_num x) l), (log_ser t t (lval_num x) l'). split; [now apply st_get_log|]. split; [now apply st_get_log|]. now apply tail_log_eq.
Qed.
Lemma tails_new ts j (st st' : Stats F) : sflat st st' -> (1 <= j)%nat -> tails ts j st st' -> tails ts (S j) (st_new_iteration st) (st_new_iteration st').
Proof.
  intros (A & B & _) L H q Hq. destruct (H q Hq) as (l & l' & G & G' & T).
  exists (new_ser l), (new_ser l'). split; [now apply get_new|]. split; [now apply get_new|]. now apply tail_new.
Qed.
Lemma sflat_new (st st' : Stats F) : sflat st st' -> sflat (st_new_iteration st) (st_new_iteration st').
Proof. intros (A & B & C & D). split; [now apply flat_new_iteration|]. split; [now apply flat_new_iteration|]. auto. Qed.
Lemma tails_mono ts j i (st st' : Stats F) : tails ts j st st' -> (i <= j)%nat -> tails ts i st st'.
Proof. intros H L q Hq. destruct (H q Hq) as (l & l' & G & G' & T). exists l, l'. eauto using tail_mono. Qed.
Lemma tails_back t j (st st' : Stats F) : (1 <= j)%nat -> tails [t] j st st' -> exists x, st_back t st = Ok x /\ st_back t st' = Ok x.
Proof.
  intros L H. destruct (H t (or_introl eq_refl)) as (l & l' & G & G' & T). apply (tail_mono _ 1) in T; [|exact L].
  destruct (tail_last_some _ _ T) as (x & X & X'). exists x. unfold st_back. now rewrite G, G', X, X'.
Qed.
Lemma tails_back2 t j (st st' : Stats F) : (2 <= j)%nat -> tails [t] j st st' -> exists x, st_back2 t st = Ok x /\ st_back2 t st' = Ok x.
Proof.
  intros L H. destruct (H t (or_introl eq_refl)) as (l & l' & G & G' & T). apply (tail_mono _ 2) in T; [|exact L].
  destruct T as (a & a' & c & -> & -> & E). destruct c as [|x [|y [|]]]; try discriminate. exists x.
  unfold st_back2. rewrite G, G', !rev_app_distr. auto.
Qed.
Lemma tails_cons t ts j (st st' : Stats F) : tails (t :: ts) j st st' <-> tails [t] j st st' /\ tails ts j st st'.
Proof.
  split.
  - intros H. split; intros q Hq; apply H; [destruct Hq as [<-|[]]; now left|now right].
  - intros [A B] q [<-|Hq]; [apply A; now left|now apply B].
Qed.
End Tail.

Section Resolve.
Context {F : Scalar} {CS : Type} (ops : CostOps F CS) (n m : nat) (cb : list CS -> F).
Implicit Types (k : KPF F CS) (ks l : list (KPF F CS)) (s r : ILQR F CS) (st : Stats F).

Definition tw ks st s : ILQR F CS := il_set_stats (il_set_kps s ks) st.
Definition kp_same k k' : Prop := kp_dyn k' = kp_dyn k /\ kp_cost k' = kp_cost k.
Definition kp_exp k k' : Prop := kp_same k k' /\ kp_ce k' = kp_ce k /\ kp_jac k' = kp_jac k.
Definition relK (P : KPF F CS -> KPF F CS -> Prop) (N : nat) ks ks' : Prop := exists l k k', ks = l ++ [k] /\ ks' = l ++ [k'] /\ length l = N /\ P k k'.

Lemma roll_rel ks : forall ks' x Z, Forall2 kp_same ks ks' -> roll n x ks' Z = roll n x ks Z.
Proof.
  induction ks as [|k ks IH]; intros ks' x Z H; inversion H; subst; [reflexivity|].
  destruct Z as [|z Z]; [reflexivity|]. cbn [roll]. destruct Z as [|z' Z]; [reflexivity|]. unfold kpf_dynamics. destruct H2 as [-> _]. f_equal. now apply IH.
Qed.
Lemma cost_rel k k' x u : kp_same k k' -> fst (kpf_cost ops k' x u) = fst (kpf_cost ops k x u) /\ kp_same (snd (kpf_cost ops k x u)) (snd (kpf_cost ops k' x u)).
Proof.
  intros [A B]. unfold kpf_cost. rewrite B. destruct (co_eval ops (kp_cost k) x u) as [J c]. cbn. repeat split; auto.
Qed.
Lemma calc_costs_rel ks : forall ks' Z, Forall2 kp_same ks ks' ->
  fst (calc_costs ops ks' Z) = fst (calc_costs ops ks Z) /\ Forall2 kp_same (snd (calc_costs ops ks Z)) (snd (calc_costs ops ks' Z)).
Proof.
  induction ks as [|k ks IH]; intros ks' Z H; inversion H; subst; [destruct Z; cbn; auto|].
  destruct Z as [|z Z]; [cbn; auto|]. cbn [calc_costs]. destruct (cost_rel k y (z_x z) (z_u z) H2) as [A B].
  destruct (kpf_cost ops k (z_x z) (z_u z)) as [J k1], (kpf_cost ops y (z_x z) (z_u z)) as [J' k1'].
  destruct (IH l' Z H4) as [C D]. destruct (calc_costs ops ks Z) as [Js r], (calc_costs ops l' Z) as [Js' r']. cbn in *. subst. auto.
Qed.
Lemma calc_costs_relK (P : KPF F CS -> KPF F CS -> Prop) l : (forall k k' x u, P k k' -> fst (kpf_cost ops k' x u) = fst (kpf_cost ops k x u) /\ P (snd (kpf_cost ops k x u)) (snd (kpf_cost ops k' x u))) ->
  forall k k' Z, P k k' ->
  fst (calc_costs ops (l ++ [k']) Z) = fst (calc_costs ops (l ++ [k]) Z) /\ relK P (length l) (snd (calc_costs ops (l ++ [k]) Z)) (snd (calc_costs ops (l ++ [k']) Z)).
Proof.
  intros HP. induction l as [|a l IH]; intros k k' Z H.
  - destruct Z as [|z Z]; cbn [List.app calc_costs]; [split; [reflexivity|exists [], k, k'; auto]|].
    destruct (HP k k' (z_x z) (z_u z) H) as [A B]. destruct (kpf_cost ops k (z_x z) (z_u z)) as [J k1], (kpf_cost ops k' (z_x z) (z_u z)) as [J' k1'].
    destruct Z; cbn in *; subst; (split; [reflexivity|exists [], k1, k1'; auto]).
  - destruct Z as [|z Z]; cbn [List.app calc_costs]; [split; [reflexivity|exists (a :: l), k, k'; auto]|].
    destruct (kpf_cost ops a (z_x z) (z_u z)) as [J a1]. destruct (IH k k' Z H) as [C (l0 & b & b' & E & E' & L & K)].
    destruct (calc_costs ops (l ++ [k]) Z) as [Js r], (calc_costs ops (l ++ [k']) Z) as [Js' r']. cbn in *. subst.
    split; [reflexivity|]. exists (a1 :: l0), b, b'. cbn. auto.
Qed.
Lemma expand_rel k k' z : kp_same k k' -> fst (expand_kp ops n m z k') = fst (expand_kp ops n m z k) /\ kp_exp (snd (expand_kp ops n m z k)) (snd (expand_kp ops n m z k')).
Proof.
  intros [A B]. unfold expand_kp, kpf_cost_expansion. rewrite B. destruct (co_grad ops (kp_cost k) _ _ _) as [g c1].
  destruct (co_hess ops c1 _ _ _) as [[[hxx hxu] huu] c2]. unfold kpf_dyn_expansion, kpf_cost. cbn [kp_dyn kp_cost kp_ce kp_jac].
  destruct (co_eval ops c2 _ _) as [J c3]. cbn. rewrite A. repeat split; auto.
Qed.
Lemma expand_all_rel ks : forall ks' Z, Forall2 kp_same ks ks' -> (length ks <= length Z)%nat ->
  fst (expand_all ops n m ks' Z) = fst (expand_all ops n m ks Z) /\ Forall2 kp_exp (snd (expand_all ops n m ks Z)) (snd (expand_all ops n m ks' Z)).
Proof.
  induction ks as [|k ks IH]; intros ks' Z H L; inversion H; subst; [destruct Z; cbn; auto|].
  destruct Z as [|z Z]; [cbn in L; lia|]. cbn [expand_all]. destruct (expand_rel k y z H2) as [A B].
  destruct (expand_kp ops n m z k) as [J k1], (expand_kp ops n m z y) as [J' k1'].
  cbn in L. destruct (IH l' Z H4 ltac:(lia)) as [C D]. destruct (expand_all ops n m ks Z) as [Js r], (expand_all ops n m l' Z) as [Js' r']. cbn in *. subst. auto.
Qed.
Lemma expand_all_relK l : forall k k' Z, kp_same k k' -> (length l < length Z)%nat ->
  fst (expand_all ops n m (l ++ [k']) Z) = fst (expand_all ops n m (l ++ [k]) Z) /\
  relK kp_exp (length l) (snd (expand_all ops n m (l ++ [k]) Z)) (snd (expand_all ops n m (l ++ [k']) Z)).
Proof.
  induction l as [|a l IH]; intros k k' Z H L; (destruct Z as [|z Z]; [cbn in L; lia|]); cbn [List.app expand_all].
  - destruct (expand_rel k k' z H) as [A B]. destruct (expand_kp ops n m z k) as [J k1], (expand_kp ops n m z k') as [J' k1'].
    destruct Z; cbn in *; subst; (split; [reflexivity|exists [], k1, k1'; auto]).
  - destruct (expand_kp ops n m z a) as [J a1]. cbn in L. destruct (IH k k' Z H ltac:(lia)) as [C (l0 & b & b' & E & E' & L0 & K)].
    destruct (expand_all ops n m (l ++ [k]) Z) as [Js r], (expand_all ops n m (l ++ [k']) Z) as [Js' r']. cbn in *. subst.
    split; [reflexivity|]. exists (a1 :: l0), b, b'. cbn. auto.
Qed.

Lemma expand_all_length ks : forall Z, length (snd (expand_all ops n m ks Z)) = length ks.
Proof.
  induction ks as [|k ks IH]; intros Z; [reflexivity|]. destruct Z as [|z Z]; [reflexivity|]. cbn [expand_all]. specialize (IH Z).
  destruct (expand_kp ops n m z k), (expand_all ops n m ks Z). cbn in *. lia.
Qed.
Lemma calc_costs_length ks : forall Z, length (snd (calc_costs ops ks Z)) = length ks.
Proof.
  induction ks as [|k ks IH]; intros Z; [reflexivity|]. destruct Z as [|z Z]; [reflexivity|]. cbn [calc_costs]. specialize (IH Z).
  destruct (kpf_cost ops k _ _), (calc_costs ops ks Z). cbn in *. lia.
Qed.
(** the sweep: what was stored is overwritten if it succeeds *)
Lemma sweep_rel rho ks : forall ks' S0 q0 v0 v1, Forall2 kp_exp ks ks' ->
  let w := bp_sweep n m rho ks S0 q0 v0 v1 in let w' := bp_sweep n m rho ks' S0 q0 v0 v1 in
  sw_ok w' = sw_ok w /\ sw_S w' = sw_S w /\ sw_s w' = sw_s w /\ sw_v0 w' = sw_v0 w /\ sw_v1 w' = sw_v1 w /\
  Forall2 kp_exp (sw_kps w) (sw_kps w') /\ (sw_ok w = true -> sw_kps w' = sw_kps w).
Proof.
  induction ks as [|k ks IH]; intros ks' S0 q0 v0 v1 H; inversion H as [|? k' ? ks1' H2 H4]; subst; cbn zeta; cbn [bp_sweep]; [cbn; intuition constructor|].
  destruct (IH ks1' S0 q0 v0 v1 H4) as (A & B & C & D & E & G & I). cbn zeta in *.
  set (w := bp_sweep n m rho ks S0 q0 v0 v1) in *. set (w' := bp_sweep n m rho ks1' S0 q0 v0 v1) in *. rewrite A.
  destruct H2 as [[K1 K2] [K3 K4]]. destruct (sw_ok w) eqn:OK.
  - specialize (I eq_refl). rewrite B, C. unfold kpf_gains, kpf_regularize, kpf_action_value, kpf_A, kpf_B. rewrite K1, K2, K3, K4. cbn [kp_q kp_qr kp_dyn kp_cost kp_ce kp_jac e_xx e_xu e_uu e_x e_u].
    destruct (llt m _) as [L|]; cbn [sw_ok sw_kps sw_S sw_s sw_v0 sw_v1].
    + unfold kpf_ctg. cbn [kp_q kp_qr kp_dyn kp_cost kp_ce kp_jac kp_K kp_d kp_S kp_s kp_dv0 kp_dv1]. rewrite D, E, I. repeat split; auto.
      constructor; [repeat split; auto|]. rewrite I in G. exact G.
    + rewrite D, E. repeat split; auto; try discriminate. constructor; [|exact G]. repeat split; auto.
  - cbn [sw_ok sw_kps sw_S sw_s sw_v0 sw_v1]. rewrite D, E. repeat split; auto; try discriminate. constructor; [|exact G]. repeat split; auto.
Qed.

Definition kt k k' : Prop := kp_exp k k' /\ kp_S k' = kp_S k /\ kp_s k' = kp_s k.
Lemma kt_same k k' : kt k k' -> kp_same k k'.
Proof. intros [[H _] _]. exact H. Qed.
Lemma kt_terminal k k' : kp_exp k k' -> kt (kpf_terminal k) (kpf_terminal k').
Proof. intros [[A B] [C D]]. unfold kt, kp_exp, kp_same, kpf_terminal. cbn. rewrite C. auto. Qed.

Lemma firstn_snoc {A} (l : list A) x N : length l = N -> firstn N (l ++ [x]) = l.
Proof. intros <-. rewrite firstn_app, Nat.sub_diag, firstn_all. cbn. apply app_nil_r. Qed.
Lemma sweep_len rho ks : forall S0 q0 v0 v1, length (sw_kps (bp_sweep n m rho ks S0 q0 v0 v1)) = length ks.
Proof.
  induction ks as [|k ks IH]; intros; cbn [bp_sweep]; [reflexivity|].
  destruct (sw_ok _); [destruct (kpf_gains _ _ _)|]; cbn; now rewrite IH.
Qed.

Lemma exp_refl l : Forall2 kp_exp l l.
Proof. induction l; constructor; auto. repeat split; auto. Qed.
(** the first backward pass *)
Lemma bp_loop_first fuel kN kN' st' : kt kN kN' -> forall cnt s l l' r, length l = il_N s -> il_kps s = l ++ [kN] -> Forall2 kp_exp l l' ->
  bp_loop n m fuel kN cnt s = Ok r -> il_status s = kUnsolved -> il_status r <> kBackwardPassRegularizationFailed ->
  exists ks1, bp_loop n m fuel kN' cnt (tw (l' ++ [kN']) st' s) = Ok (tw ks1 st' r) /\ relK kt (il_N s) (il_kps r) ks1 /\ il_stats r = il_stats s /\
    il_N r = il_N s /\ il_opts r = il_opts s /\ il_Z r = il_Z s /\ il_Zb r = il_Zb s /\ il_x0 r = il_x0 s.
Proof.
  intros KT. induction fuel as [|fuel IH]; intros cnt s l l' r L K H E ST NF; cbn [bp_loop] in *; [discriminate|].
  assert (L' : length l' = il_N s) by (rewrite <- L; symmetry; clear - H; induction H; cbn; auto).
  pose proof KT as [[[T1 T2] [T3 T4]] [T5 T6]].
  cbn [il_rho il_N il_kps il_dV0 il_dV1 tw il_set_stats il_set_kps]. rewrite K, (firstn_snoc l kN) in E by exact L. rewrite (firstn_snoc l' kN') by exact L'.
  rewrite T5, T6.
  destruct (sweep_rel (il_rho s) l l' (kp_S kN) (kp_s kN) (il_dV0 s) (il_dV1 s) H) as (A & B & C & D & EE & G & I). cbn zeta in *.
  set (w := bp_sweep n m (il_rho s) l (kp_S kN) (kp_s kN) (il_dV0 s) (il_dV1 s)) in *.
  set (w' := bp_sweep n m (il_rho s) l' (kp_S kN) (kp_s kN) (il_dV0 s) (il_dV1 s)) in *. rewrite A, D, EE.
  assert (LW : length (sw_kps w) = il_N s) by (unfold w; rewrite sweep_len; exact L).
  destruct (sw_ok w) eqn:OK.
  - rewrite (I eq_refl). destruct (il_N s) as [|N] eqn:EN.
    + edestruct (IH cnt (il_set_dV (il_set_kps s (sw_kps w ++ [kN])) (sw_v0 w) (sw_v1 w)) (sw_kps w) (sw_kps w) r) as (ks1 & P1 & P2 & P3 & P4); cbn; auto; try congruence.
      { apply exp_refl. }
      exists ks1. split; [exact P1|]. cbn in P2, P3, P4. rewrite EN in *. repeat split; auto; apply P4.
    + inversion E; subst r. exists (sw_kps w ++ [kN']). split; [reflexivity|]. split; [|cbn; rewrite ?EN; repeat split; auto].
      exists (sw_kps w), kN, kN'. split; [reflexivity|]. split; [reflexivity|]. split; [exact LW|exact KT].
  - cbn [il_increase_reg il_set_reg il_opts il_rho il_drho il_set_dV il_set_kps il_set_stats] in *.
    set (s2 := il_increase_reg (il_set_dV (il_set_kps s (sw_kps w ++ [kN])) (sw_v0 w) (sw_v1 w))) in *.
    destruct (_ <=? _).
    + exfalso. inversion E; subst r. apply NF. reflexivity.
    + match type of E with bp_loop _ _ _ _ ?c _ = _ => destruct (IH c s2 (sw_kps w) (sw_kps w') r LW eq_refl G E ST NF) as (ks1 & P1 & P2 & P3 & P4) end.
      exists ks1. split; [exact P1|]. auto.
Qed.
(** any later one *)
Lemma bp_loop_later fuel kN kN' st' : kt kN kN' -> forall cnt s l r, length l = il_N s -> il_kps s = l ++ [kN] -> bp_loop n m fuel kN cnt s = Ok r ->
  exists ks1, bp_loop n m fuel kN' cnt (tw (l ++ [kN']) st' s) = Ok (tw ks1 st' r) /\ relK kt (il_N s) (il_kps r) ks1 /\ il_stats r = il_stats s /\
    il_N r = il_N s /\ il_opts r = il_opts s /\ il_Z r = il_Z s /\ il_Zb r = il_Zb s /\ il_x0 r = il_x0 s.
Proof.
  intros KT. induction fuel as [|fuel IH]; intros cnt s l r L K E; cbn [bp_loop] in *; [discriminate|].
  pose proof KT as [[[T1 T2] [T3 T4]] [T5 T6]].
  cbn [il_rho il_N il_kps il_dV0 il_dV1 tw il_set_stats il_set_kps]. rewrite K, (firstn_snoc l kN) in E by exact L. rewrite (firstn_snoc l kN') by exact L.
  rewrite T5, T6. set (w := bp_sweep n m (il_rho s) l (kp_S kN) (kp_s kN) (il_dV0 s) (il_dV1 s)) in *.
  assert (LW : length (sw_kps w) = il_N s) by (unfold w; rewrite sweep_len; exact L).
  destruct (sw_ok w) eqn:OK.
  - destruct (il_N s) as [|N] eqn:EN.
    + edestruct (IH cnt (il_set_dV (il_set_kps s (sw_kps w ++ [kN])) (sw_v0 w) (sw_v1 w)) (sw_kps w) r) as (ks1 & P1 & P2 & P3 & P4); cbn; auto; try congruence.
      exists ks1. split; [exact P1|]. cbn in P2, P3, P4. rewrite EN in *. repeat split; auto; apply P4.
    + inversion E; subst r. exists (sw_kps w ++ [kN']). split; [reflexivity|]. split; [|cbn; rewrite ?EN; repeat split; auto].
      exists (sw_kps w), kN, kN'. split; [reflexivity|]. split; [reflexivity|]. split; [exact LW|exact KT].
  - cbn [il_increase_reg il_set_reg il_opts il_rho il_drho il_set_dV il_set_kps il_set_stats] in *.
    set (s2 := il_increase_reg (il_set_dV (il_set_kps s (sw_kps w ++ [kN])) (sw_v0 w) (sw_v1 w))) in *.
    destruct (_ <=? _).
    + inversion E; subst r. exists (sw_kps w ++ [kN']). split; [reflexivity|]. split; [|cbn; repeat split; auto].
      exists (sw_kps w), kN, kN'. split; [reflexivity|]. split; [reflexivity|]. split; [exact LW|exact KT].
    + match type of E with bp_loop _ _ _ _ ?c _ = _ => destruct (IH c s2 (sw_kps w) r LW eq_refl E) as (ks1 & P1 & P2 & P3 & P4) end.
      exists ks1. split; [exact P1|]. auto.
Qed.

Definition frame s r : Prop := il_N r = il_N s /\ il_opts r = il_opts s /\ il_Z r = il_Z s /\ il_Zb r = il_Zb s /\ il_x0 r = il_x0 s.
Lemma nth_snoc {A} (l : list A) x N : length l = N -> nth_error (l ++ [x]) N = Some x.
Proof. intros <-. rewrite nth_error_app2, Nat.sub_diag by lia. reflexivity. Qed.
Lemma backward_first fuel s l k l' k' st' r : length l = il_N s -> il_kps s = l ++ [k] -> Forall2 kp_exp l l' -> kp_exp k k' ->
  il_backward_pass n m fuel s = Ok r -> il_status s = kUnsolved -> il_status r <> kBackwardPassRegularizationFailed ->
  exists ks1 x, il_backward_pass n m fuel (tw (l' ++ [k']) st' s) = Ok (tw ks1 (st_logF "reg" x st') r) /\ relK kt (il_N s) (il_kps r) ks1 /\
    il_stats r = st_logF "reg" x (il_stats s) /\ frame s r.
Proof.
  intros L K H KE E ST NF. unfold il_backward_pass in *. rewrite K, (nth_snoc l k) in E by exact L.
  assert (L' : length l' = il_N s) by (rewrite <- L; symmetry; clear - H; induction H; cbn; auto).
  cbn [il_kps il_N tw il_set_stats il_set_kps]. rewrite (nth_snoc l' k') by exact L'. rewrite (firstn_snoc l' k') by exact L'. rewrite (firstn_snoc l k) in E by exact L.
  match type of E with context [bp_loop n m fuel _ 0 ?x] => set (s1 := x) in * end.
  destruct (bp_loop n m fuel (kpf_terminal k) 0 s1) as [s2| | | | |] eqn:EB; cbn [bind] in E; try discriminate. inversion E; subst r. clear E.
  destruct (bp_loop_first fuel (kpf_terminal k) (kpf_terminal k') st' (kt_terminal k k' KE) 0 s1 l l' s2 L eq_refl H EB ST NF) as (ks1 & P1 & P2 & P3 & P4 & P5 & P6 & P7 & P8).
  match goal with |- context [bp_loop n m fuel _ 0 ?x] => change x with (tw (l' ++ [kpf_terminal k']) st' s1) end. rewrite P1. cbn [bind].
  exists ks1, (il_rho s2). split; [reflexivity|]. split; [exact P2|]. split; [cbn; now rewrite P3|]. repeat split; assumption.
Qed.
Lemma backward_later fuel s l k k' st' r : length l = il_N s -> il_kps s = l ++ [k] -> kp_exp k k' ->
  il_backward_pass n m fuel s = Ok r ->
  exists ks1 x, il_backward_pass n m fuel (tw (l ++ [k']) st' s) = Ok (tw ks1 (st_logF "reg" x st') r) /\ relK kt (il_N s) (il_kps r) ks1 /\
    il_stats r = st_logF "reg" x (il_stats s) /\ frame s r.
Proof.
  intros L K KE E. unfold il_backward_pass in *. rewrite K, (nth_snoc l k) in E by exact L.
  cbn [il_kps il_N tw il_set_stats il_set_kps]. rewrite (nth_snoc l k') by exact L. rewrite (firstn_snoc l k') by exact L. rewrite (firstn_snoc l k) in E by exact L.
  match type of E with context [bp_loop n m fuel _ 0 ?x] => set (s1 := x) in * end.
  destruct (bp_loop n m fuel (kpf_terminal k) 0 s1) as [s2| | | | |] eqn:EB; cbn [bind] in E; try discriminate. inversion E; subst r. clear E.
  destruct (bp_loop_later fuel (kpf_terminal k) (kpf_terminal k') st' (kt_terminal k k' KE) 0 s1 l s2 L eq_refl EB) as (ks1 & P1 & P2 & P3 & P4 & P5 & P6 & P7 & P8).
  match goal with |- context [bp_loop n m fuel _ 0 ?x] => change x with (tw (l ++ [kpf_terminal k']) st' s1) end. rewrite P1. cbn [bind].
  exists ks1, (il_rho s2). split; [reflexivity|]. split; [exact P2|]. split; [cbn; now rewrite P3|]. repeat split; assumption.
Qed.

(** ** forward pass *)
Lemma roll_closed_relK o alpha l : forall k k' x Z Zb, (length Zb <= S (length l))%nat ->
  roll_closed n m o alpha x (l ++ [k']) Z Zb = roll_closed n m o alpha x (l ++ [k]) Z Zb.
Proof.
  induction l as [|a l IH]; intros k k' x Z Zb L.
  - destruct Zb as [|zb [|zb' Zb]]; cbn in L; try lia; destruct Z; reflexivity.
  - destruct Zb as [|zb Zb]; [reflexivity|]. cbn [List.app roll_closed]. destruct Z as [|z Z]; [reflexivity|]. destruct Zb as [|zb' Zb]; [reflexivity|].
    destruct (_ && _); [reflexivity|]. destruct (_ && _); [reflexivity|]. rewrite (IH k k'); [reflexivity|]. cbn in *. lia.
Qed.
Lemma kt_cost k k' x u : kt k k' -> fst (kpf_cost ops k' x u) = fst (kpf_cost ops k x u) /\ kt (snd (kpf_cost ops k x u)) (snd (kpf_cost ops k' x u)).
Proof.
  intros [[[A B] [C D]] [E G]]. unfold kpf_cost. rewrite B. destruct (co_eval ops (kp_cost k) x u) as [J c]. cbn. repeat split; auto.
Qed.
Lemma calc_costs_kt N ks ks' Z : relK kt N ks ks' -> fst (calc_costs ops ks' Z) = fst (calc_costs ops ks Z) /\ relK kt N (snd (calc_costs ops ks Z)) (snd (calc_costs ops ks' Z)).
Proof. intros (l & k & k' & -> & -> & <- & H). apply calc_costs_relK; auto. intros. now apply kt_cost. Qed.
Lemma roll_closed_kt o alpha N ks ks' x Z Zb : relK kt N ks ks' -> (length Zb <= S N)%nat -> roll_closed n m o alpha x ks' Z Zb = roll_closed n m o alpha x ks Z Zb.
Proof. intros (l & k & k' & -> & -> & <- & H) L. now apply roll_closed_relK. Qed.
Lemma roll_closed_length o alpha ks : forall x Z Zb, length (snd (roll_closed n m o alpha x ks Z Zb)) = length Zb.
Proof.
  induction ks as [|k ks IH]; intros x Z Zb; destruct Zb as [|zb Zb]; cbn; auto.
  destruct Z as [|z Z]; [reflexivity|]. destruct Zb as [|zb' Zb]; [reflexivity|]. destruct (_ && _); [reflexivity|]. destruct (_ && _); [reflexivity|].
  match goal with |- context [roll_closed n m o alpha ?a ks Z (zb' :: Zb)] => specialize (IH a Z (zb' :: Zb)); destruct (roll_closed n m o alpha a ks Z (zb' :: Zb)) end.
  cbn in *. now rewrite IH.
Qed.
Definition ls_logs (J a z : F) st : Stats F := st_logF "z" z (st_logF "alpha" a (st_logF "cost" J st)).
Definition zb_len (N : nat) s : Prop := match il_Zb s with Some Zb => length Zb = S N | None => False end.
Lemma line_search_rel N it : forall J0 alpha Z s ks' st', relK kt N (il_kps s) ks' -> zb_len N s ->
  exists ok J r ks1 a z, line_search ops n m it J0 alpha Z s = (ok, J, r) /\
    line_search ops n m it J0 alpha Z (tw ks' st' s) = (ok, J, tw ks1 (if ok then ls_logs J a z st' else st') r) /\
    relK kt N (il_kps r) ks1 /\ zb_len N r /\ il_stats r = (if ok then ls_logs J a z (il_stats s) else il_stats s) /\
    il_N r = il_N s /\ il_opts r = il_opts s /\ il_Z r = il_Z s /\ il_x0 r = il_x0 s.
Proof.
  induction it as [|it IH]; intros J0 alpha Z s ks' st' K ZL; cbn [line_search].
  - exists false, J0, s, ks', zero, zero. repeat split; auto.
  - set (Zb := match il_Zb s with Some Zb => Zb | None => [] end). change (il_Zb (tw ks' st' s)) with (il_Zb s). fold Zb.
    assert (LZe : length Zb = S N). { unfold Zb, zb_len in *. destruct (il_Zb s); [assumption|contradiction]. } assert (LZ : (length Zb <= S N)%nat) by lia.
    unfold il_rollout_closed. cbn [il_opts il_x0 il_kps tw il_set_stats il_set_kps]. rewrite (roll_closed_kt _ _ N _ _ _ _ _ K LZ).
    pose proof (roll_closed_length (il_opts s) alpha (il_kps s) (vstore n (il_x0 s)) Z Zb) as LR.
    destruct (roll_closed n m (il_opts s) alpha (vstore n (il_x0 s)) (il_kps s) Z Zb) as [[e|] Zb'] eqn:ER; cbn [snd] in LR.
    + set (s1 := il_set_status (il_set_Zb s (Some Zb')) e).
      destruct (IH J0 (div alpha (o_ls_factor (il_opts s))) Z s1 ks' st' K) as (ok & J & r & ks1 & a & z & P1 & P2 & P3).
      { unfold zb_len. cbn. lia. }
      exists ok, J, r, ks1, a, z. split; [exact P1|]. split; [exact P2|exact P3].
    + set (s1 := il_set_status (il_set_Zb s (Some Zb')) kUnsolved). cbn [il_Zb s1 il_set_status il_set_Zb].
      change (il_set_status (il_set_Zb (tw ks' st' s) (Some Zb')) kUnsolved) with (tw ks' st' s1).
      unfold il_cost. change (il_kps s1) with (il_kps s). change (il_kps (tw ks' st' s1)) with ks'.
      destruct (calc_costs_kt N (il_kps s) ks' Zb' K) as [C1 C2].
      destruct (calc_costs ops (il_kps s) Zb') as [Js ksr], (calc_costs ops ks' Zb') as [Js' ksr'] eqn:EC. cbn [fst snd] in C1, C2. subst Js'.
      cbn [il_dV0 il_dV1 il_set_costs tw il_set_stats il_set_kps]. change (il_dV0 s1) with (il_dV0 s). change (il_dV1 s1) with (il_dV1 s).
      set (z := if ltb zero _ then _ else _). destruct (_ && _ && _).
      * exists true, (lsum Js), (il_set_stats (il_set_costs s1 Js ksr) (ls_logs (lsum Js) alpha z (il_stats s))), ksr', alpha, z.
        split; [reflexivity|]. split; [reflexivity|]. split; [exact C2|]. split; [unfold zb_len; cbn; lia|]. repeat split; reflexivity.
      * destruct (IH J0 (div alpha (o_ls_factor (il_opts s))) Z (il_set_costs s1 Js ksr) ksr' st' C2) as (ok & J & r & ks1 & a & z0 & P1 & P2 & P3).
        { unfold zb_len. cbn. lia. }
        exists ok, J, r, ks1, a, z0. split; [exact P1|]. split; [exact P2|exact P3].
Qed.
Definition ls_ok Z s : bool := fst (fst (line_search ops n m (Z.to_nat (o_ls_iters (il_opts s))) (lsum (il_costs s)) one Z s)).
Lemma forward_rel N Z s ks' st' : relK kt N (il_kps s) ks' -> zb_len N s ->
  exists r ks1 J a z, il_forward_pass ops n m Z s = r /\
    il_forward_pass ops n m Z (tw ks' st' s) = tw ks1 (if ls_ok Z s then ls_logs J a z st' else st') r /\
    relK kt N (il_kps r) ks1 /\ zb_len N r /\ il_stats r = (if ls_ok Z s then ls_logs J a z (il_stats s) else il_stats s) /\
    il_N r = il_N s /\ il_opts r = il_opts s /\ il_x0 r = il_x0 s /\
    (match il_Z s with Some Y => length Y = S N | None => False end -> match il_Z r with Some Y => length Y = S N | None => False end).
Proof.
  intros K ZL. unfold il_forward_pass, ls_ok. change (il_costs (tw ks' st' s)) with (il_costs s). change (il_opts (tw ks' st' s)) with (il_opts s).
  destruct (line_search_rel N (Z.to_nat (o_ls_iters (il_opts s))) (lsum (il_costs s)) one Z s ks' st' K ZL) as (ok & J & r & ks1 & a & z & P1 & P2 & P3 & P4 & P5 & P6 & P7 & P8 & P9).
  rewrite P1, P2. cbn [fst]. eexists. exists ks1, J, a, z. split; [reflexivity|]. destruct ok.
  - change (il_Zb (tw ks1 (ls_logs J a z st') r)) with (il_Zb r).
    destruct (ltb _ _); (split; [reflexivity|]; split; [exact P3|]; split; [exact P4|]; split; [exact P5|]; split; [exact P6|]; split; [exact P7|]; split; [exact P9|]);
      intros _; cbn; unfold zb_len in P4; destruct (il_Zb r); auto.
  - destruct (ltb _ _); (split; [reflexivity|]; split; [exact P3|]; split; [exact P4|]; split; [exact P5|]; split; [exact P6|]; split; [exact P7|]; split; [exact P9|]);
      cbn; rewrite P8; destruct (il_Z s); auto.
Qed.

(** ** convergence statistics *)
Lemma ff_relK l : forall k k' Z, ff_gains m (length l) (l ++ [k']) Z = ff_gains m (length l) (l ++ [k]) Z.
Proof. induction l as [|a l IH]; intros k k' Z; cbn; [reflexivity|]. destruct Z; [reflexivity|]. now rewrite (IH k k'). Qed.
Definition up_logs (dJ v g : F) st : Stats F :=
  let st1 := st_set_counts st (st_initial_cost st) (st_inner st + 1) (st_outer st) (st_total st + 1) in
  let st3 := st_logF "viol" v (st_logF "dJ" dJ st1) in
  st_new_iteration (st_logF "grad" g (st_logZ "iters" (st_total st3) st3)).
Lemma log_inner t x st : st_inner (st_log_val t x st) = st_inner st /\ st_initial_cost (st_log_val t x st) = st_initial_cost st /\ st_total (st_log_val t x st) = st_total st.
Proof. unfold st_log_val, st_set_data. cbn. destruct (Nat.eqb (st_len st) 0); auto. Qed.
Lemma log_inner1 t x st : st_inner (st_log_val t x st) = st_inner st.
Proof. apply log_inner. Qed.
Lemma new_counts1 st : st_inner (st_new_iteration st) = st_inner st.
Proof. reflexivity. Qed.
Lemma new_counts2 st : st_total (st_new_iteration st) = st_total st.
Proof. reflexivity. Qed.
Lemma log_total1 t x st : st_total (st_log_val t x st) = st_total st.
Proof. apply log_inner. Qed.
Definition Q4 (c d g e : nat) st st' : Prop := sflat st st' /\ tails ["cost"]%string c st st' /\ tails ["dJ"]%string d st st' /\ tails ["grad"]%string g st st' /\ tails ["reg"]%string e st st'.
Lemma Q_other c d g e t x y st st' : ~ In t ["cost"; "dJ"; "grad"; "reg"]%string -> Q4 c d g e st st' -> Q4 c d g e (st_log_val t x st) (st_log_val t y st').
Proof.
  intros N (A & B & C & D & E). split; [now apply sflat_log|]. cbn [In] in N.
  repeat split; (apply tails_log_ne; [exact A|intros [K|[]]; apply N; tauto|assumption]).
Qed.
Lemma Q_dJ c d g e x st st' : Q4 c d g e st st' -> Q4 c (Nat.max 1 d) g e (st_log_val "dJ" x st) (st_log_val "dJ" x st').
Proof.
  intros (A & B & C & D & E). split; [now apply sflat_log|]. split; [|split; [|split]]; try (apply tails_log_ne; [exact A|intros [K|[]]; discriminate|assumption]). now apply tails_log_eq.
Qed.
Lemma Q_grad c d g e x st st' : Q4 c d g e st st' -> Q4 c d (Nat.max 1 g) e (st_log_val "grad" x st) (st_log_val "grad" x st').
Proof.
  intros (A & B & C & D & E). split; [now apply sflat_log|]. split; [|split; [|split]]; try (apply tails_log_ne; [exact A|intros [K|[]]; discriminate|assumption]). now apply tails_log_eq.
Qed.
Lemma Q_reg c d g e x st st' : Q4 c d g e st st' -> Q4 c d g (Nat.max 1 e) (st_log_val "reg" x st) (st_log_val "reg" x st').
Proof.
  intros (A & B & C & D & E). split; [now apply sflat_log|]. split; [|split; [|split]]; try (apply tails_log_ne; [exact A|intros [K|[]]; discriminate|assumption]). now apply tails_log_eq.
Qed.
Lemma Q_cost c d g e x st st' : Q4 c d g e st st' -> Q4 (Nat.max 1 c) d g e (st_log_val "cost" x st) (st_log_val "cost" x st').
Proof.
  intros (A & B & C & D & E). split; [now apply sflat_log|]. split; [|split; [|split]]; try (apply tails_log_ne; [exact A|intros [K|[]]; discriminate|assumption]). now apply tails_log_eq.
Qed.
Lemma Q_new j st st' : (1 <= j)%nat -> Q4 j j j j st st' -> Q4 (S j) (S j) (S j) (S j) (st_new_iteration st) (st_new_iteration st').
Proof. intros L (A & B & C & D & E). split; [now apply sflat_new|]. repeat split; apply tails_new; auto. Qed.
Lemma Q_counts c d g e st st' i0 i1 a b o o' t t' : Q4 c d g e st st' -> i1 = i0 -> b = a -> Q4 c d g e (st_set_counts st i0 a o t) (st_set_counts st' i1 b o' t').
Proof. intros ((A1 & A2 & A3 & A4) & B & C & D & E) -> ->. split; [repeat split; assumption|]. repeat split; assumption. Qed.
(** the recordings of both solves before the convergence statistics of an iteration, and after them *)
Definition rec_in (st st' : Stats F) : Prop := 0 <= st_inner st /\
  let j := S (Z.to_nat (st_inner st)) in let i := if st_inner st =? 0 then 0%nat else j in Q4 j i i j st st'.
Definition rec_out (st st' : Stats F) : Prop := 0 < st_inner st /\ let j := S (Z.to_nat (st_inner st)) in Q4 j j j j st st'.
Lemma up_inner dJ v g st : st_inner (up_logs dJ v g st) = st_inner st + 1.
Proof. unfold up_logs, st_logF, st_logZ. rewrite new_counts1, !log_inner1. reflexivity. Qed.
Lemma up_rec dJ v g st st' : rec_in st st' -> rec_out (up_logs dJ v g st) (up_logs dJ v g st').
Proof.
  intros (B & H). cbn zeta in H. set (j := S (Z.to_nat (st_inner st))) in *.
  assert (J1 : Nat.max 1 (if st_inner st =? 0 then 0%nat else j) = j).
  { unfold j. destruct (Z.eqb_spec (st_inner st) 0) as [->|N]; [reflexivity|]. lia. }
  unfold rec_out. rewrite up_inner. split; [lia|]. cbn zeta. replace (S (Z.to_nat (st_inner st + 1))) with (S j) by (unfold j; lia).
  unfold up_logs. apply Q_new; [unfold j; lia|]. unfold st_logF, st_logZ. rewrite <- J1 at 3. apply Q_grad.
  apply Q_other; [cbn; intuition discriminate|]. apply Q_other; [cbn; intuition discriminate|]. rewrite <- J1 at 2. apply Q_dJ.
  pose proof H as ((_ & _ & A3 & A4) & _). apply Q_counts; auto. now rewrite A3.
Qed.
Lemma update_stats_rel N Z s ks' st' r r' : il_N s = N -> relK kt N (il_kps s) ks' -> rec_in (il_stats s) st' ->
  il_update_stats m cb Z s = Ok r -> il_update_stats m cb Z (tw ks' st' s) = Ok r' ->
  exists st1, r' = tw ks' st1 r /\ il_kps r = il_kps s /\ rec_out (il_stats r) st1 /\ st_inner (il_stats r) = st_inner (il_stats s) + 1 /\
    st_total (il_stats r) = st_total (il_stats s) + 1 /\ st_total st1 = st_total st' + 1 /\
    frame s r /\ il_status r = il_status s.
Proof.
  intros HN (l & k & k' & K1 & K2 & L & KT) RI E E'. unfold il_update_stats, il_ff_gain in *. cbn [il_stats il_set_grad tw il_set_stats il_set_kps il_N il_kps] in *.
  rewrite K2 in E'. rewrite K1 in E. rewrite HN, <- L in E, E'. rewrite (ff_relK l k k') in E'.
  set (g := ff_gains m (length l) (l ++ [k]) Z) in *.
  assert (MC : map kp_cost (l ++ [k']) = map kp_cost (l ++ [k])).
  { rewrite !map_app. cbn. destruct KT as [[[_ ->] _] _]. reflexivity. }
  rewrite MC in E'. set (v := cb (map kp_cost (l ++ [k]))) in *.
  set (q := div (lsum g) _) in *.
  pose proof RI as (Pos & SF & TC & _). pose proof SF as (_ & _ & SI & SC). rewrite SI, SC in E'.
  assert (DJ : exists dJ, (if st_inner (il_stats s) =? 0 then do c <- st_back "cost" (il_stats s); Ok (sub (st_initial_cost (il_stats s)) c)
     else do c1 <- st_back2 "cost" (il_stats s); do c0 <- st_back "cost" (il_stats s); Ok (sub c1 c0)) = Ok dJ /\
     (if st_inner (il_stats s) =? 0 then do c <- st_back "cost" st'; Ok (sub (st_initial_cost (il_stats s)) c)
     else do c1 <- st_back2 "cost" st'; do c0 <- st_back "cost" st'; Ok (sub c1 c0)) = Ok dJ).
  { assert (J1 : (1 <= S (Z.to_nat (st_inner (il_stats s))))%nat) by lia. destruct (tails_back "cost" _ _ _ J1 TC) as (x & X & X'). rewrite X, X'. destruct (Z.eqb_spec (st_inner (il_stats s)) 0) as [E0|E0]; cbn [bind]; [eauto|].
    assert (J2 : (2 <= S (Z.to_nat (st_inner (il_stats s))))%nat) by lia. destruct (tails_back2 "cost" _ _ _ J2 TC) as (y & Y & Y'). rewrite Y, Y'. cbn [bind]. eauto. }
  destruct DJ as (dJ & D & D'). rewrite D in E. rewrite D' in E'. cbn [bind] in E, E'. inversion E; subst r. inversion E'; subst r'. clear E E' D D'.
  pose proof (up_rec dJ v q (il_stats s) st' RI) as U1. pose proof (up_inner dJ v q (il_stats s)) as U2.
  exists (up_logs dJ v q st'). split; [unfold up_logs; rewrite SI, SC; subst ks'; reflexivity|]. split; [reflexivity|].
  cbn [il_stats il_set_stats]. split; [exact U1|]. split; [exact U2|].
  assert (TT : forall sx, st_total (up_logs dJ v q sx) = st_total sx + 1).
  { intros sx. unfold up_logs, st_logF, st_logZ. rewrite new_counts2, !log_total1. reflexivity. }
  split; [apply TT|]. split; [apply TT|]. split; [|reflexivity]. repeat split.
Qed.

(** ** the end of an iteration *)
Definition quiet st st2 : Prop := st_ser st2 = st_ser st /\ st_len st2 = st_len st /\ st_inner st2 = st_inner st /\ st_total st2 = st_total st /\ st_initial_cost st2 = st_initial_cost st.
Lemma quiet_tails ts j st st' st2 st2' : quiet st st2 -> quiet st' st2' -> tails ts j st st' -> tails ts j st2 st2'.
Proof. intros (A & _) (B & _) H t Ht. destruct (H t Ht) as (l & l' & G & G' & T). exists l, l'. unfold st_get in *. rewrite A, B. auto. Qed.
Lemma quiet_out st st' st2 st2' : quiet st st2 -> quiet st' st2' -> rec_out st st' -> rec_out st2 st2'.
Proof.
  intros Q Q' (P & (F1 & F2 & F3 & F4) & A & B & C & D). pose proof Q as (Q1 & Q2 & Q3 & Q4' & Q5). pose proof Q' as (R1 & R2 & R3 & R4 & R5).
  unfold rec_out. rewrite Q3. split; [exact P|]. cbn zeta in *. split.
  - split; [unfold flat; rewrite Q1, Q2; exact F1|]. split; [unfold flat; rewrite R1, R2; exact F2|]. split; congruence.
  - repeat split; eapply quiet_tails; eauto.
Qed.
Lemma print_quiet s s5 : (if kInner <=? lg_level (st_log (il_stats s)) then do st <- st_print_last (il_stats s); Ok (il_set_stats s st) else Ok s) = Ok s5 ->
  exists st, s5 = il_set_stats s st /\ quiet (il_stats s) st.
Proof.
  destruct (_ <=? _).
  - unfold st_print_last. destruct (lg_print _) as [[out g]| | | | |]; cbn [bind]; intros E; try discriminate. inversion E. eexists. split; [reflexivity|]. repeat split.
  - intros E. inversion E. exists (il_stats s5). split; [destruct s5; reflexivity|]. repeat split.
Qed.
Lemma is_done_rel s ks st fin r fin' r' : rec_out (il_stats s) st -> st_total (il_stats s) - st_inner (il_stats s) + o_max_inner (il_opts s) <= o_max_total (il_opts s) ->
  st_total st - st_inner st + o_max_inner (il_opts s) <= o_max_total (il_opts s) ->
  il_is_done s = Ok (fin, r) -> il_is_done (tw ks st s) = Ok (fin', r') -> fin' = fin /\ r' = tw ks st r /\ frame s r /\ il_kps r = il_kps s /\ il_stats r = il_stats s.
Proof.
  intros (P & (F1 & F2 & F3 & F4) & A & B & C & D) M M' E E'. unfold il_is_done in *. cbn zeta in *. cbn [il_stats il_opts il_status tw il_set_stats il_set_kps] in *.
  assert (J1 : (1 <= S (Z.to_nat (st_inner (il_stats s))))%nat) by lia.
  destruct (tails_back "dJ" _ _ _ J1 B) as (x & X & X'). destruct (tails_back "grad" _ _ _ J1 C) as (y & Y & Y'). rewrite X, Y in E. rewrite X', Y', F3 in E'. cbn [bind] in *.
  destruct (_ && _); [inversion E; inversion E'; subst; repeat split|].
  destruct (Z.leb_spec (o_max_inner (il_opts s)) (st_inner (il_stats s))); [inversion E; inversion E'; subst; repeat split|].
  destruct (Z.leb_spec (o_max_total (il_opts s)) (st_total (il_stats s))); [lia|]. destruct (Z.leb_spec (o_max_total (il_opts s)) (st_total st)); [lia|].
  destruct (negb _); inversion E; inversion E'; subst; repeat split.
Qed.

(** ** iterations *)
Definition room s st : Prop := st_total (il_stats s) - st_inner (il_stats s) + o_max_inner (il_opts s) <= o_max_total (il_opts s) /\
  st_total st - st_inner st + o_max_inner (il_opts s) <= o_max_total (il_opts s).
Definition z_len (N : nat) s : Prop := match il_Z s with Some Y => length Y = S N | None => False end.
(** after the first backward pass everything that matters is the same *)
Definition sim s s' : Prop := exists ks st, s' = tw ks st s /\ relK kt (il_N s) (il_kps s) ks /\ rec_out (il_stats s) st /\ room s st /\ zb_len (il_N s) s /\ z_len (il_N s) s.
(** from the forward pass on *)
Definition rest Z s : res (bool * ILQR F CS) :=
  let s3 := il_forward_pass ops n m Z s in
  do Z' <- il_get_Z s3 ;
  do s4 <- il_update_stats m cb Z' s3 ;
  do s5 <- (if kInner <=? lg_level (st_log (il_stats s4)) then do st <- st_print_last (il_stats s4) ; Ok (il_set_stats s4 st) else Ok s4) ;
  il_is_done s5.
Lemma ls_counts J a z st : st_inner (ls_logs J a z st) = st_inner st /\ st_total (ls_logs J a z st) = st_total st.
Proof. unfold ls_logs, st_logF. now rewrite !log_inner1, !log_total1. Qed.
Lemma rest_rel Z s ks st c fin r fin' r' : relK kt (il_N s) (il_kps s) ks -> zb_len (il_N s) s -> z_len (il_N s) s -> 0 <= st_inner (il_stats s) -> room s st ->
  (let j := S (Z.to_nat (st_inner (il_stats s))) in let i := if st_inner (il_stats s) =? 0 then 0%nat else j in
   (if ls_ok Z s then Nat.max 1 c else c) = j /\ Q4 c i i j (il_stats s) st) ->
  rest Z s = Ok (fin, r) -> rest Z (tw ks st s) = Ok (fin', r') -> fin' = fin /\ sim r r' /\ il_opts r = il_opts s.
Proof.
  intros K ZB ZL Pos RM (HC & HQ) E E'. cbn zeta in HC, HQ. unfold rest in *.
  destruct (forward_rel (il_N s) Z s ks st K ZB) as (s3 & ks1 & J & a & z & F1 & F2 & F3 & F4 & F5 & F6 & F7 & F8 & F9). rewrite F1 in E. rewrite F2 in E'. clear F1 F2.
  specialize (F9 ZL). cbn zeta in *. set (st1 := if ls_ok Z s then ls_logs J a z st else st) in *.
  change (il_get_Z (tw ks1 st1 s3)) with (il_get_Z s3) in E'. destruct (il_get_Z s3) as [Z'| | | | |]; cbn [bind] in E, E'; try discriminate.
  assert (CI : st_inner (il_stats s3) = st_inner (il_stats s) /\ st_total (il_stats s3) = st_total (il_stats s)). { rewrite F5. destruct (ls_ok Z s); [apply ls_counts|auto]. }
  assert (CI' : st_inner st1 = st_inner st /\ st_total st1 = st_total st). { unfold st1. destruct (ls_ok Z s); [apply ls_counts|auto]. }
  assert (RI : rec_in (il_stats s3) st1).
  { unfold rec_in. rewrite (proj1 CI). split; [exact Pos|]. cbn zeta. rewrite F5. unfold st1. rewrite <- HC at 1. destruct (ls_ok Z s); [|exact HQ].
    unfold ls_logs, st_logF. apply Q_other; [cbn; intuition discriminate|]. apply Q_other; [cbn; intuition discriminate|]. now apply Q_cost. }
  destruct (il_update_stats m cb Z' s3) as [s4| | | | |] eqn:EU; cbn [bind] in E; try discriminate.
  destruct (il_update_stats m cb Z' (tw ks1 st1 s3)) as [s4'| | | | |] eqn:EU'; cbn [bind] in E'; try discriminate.
  destruct (update_stats_rel (il_N s) Z' s3 ks1 st1 s4 s4' F6 F3 RI EU EU') as (st2 & U1 & U2 & U3 & U4 & U5 & U6 & (U7 & U8 & U9 & U10 & U11) & U12). subst s4'.
  match type of E with (do _ <- ?x ; _) = _ => destruct x as [s5| | | | |] eqn:EP; cbn [bind] in E; try discriminate end.
  match type of E' with (do _ <- ?x ; _) = _ => destruct x as [s5'| | | | |] eqn:EP'; cbn [bind] in E'; try discriminate end.
  destruct (print_quiet _ _ EP) as (st3 & -> & Q). destruct (print_quiet _ _ EP') as (st3' & -> & Q'). cbn [il_stats tw il_set_stats] in Q'.
  change (il_set_stats (tw ks1 st2 s4) st3') with (tw ks1 st3' (il_set_stats s4 st3)) in E'.
  pose proof (quiet_out _ _ _ _ Q Q' U3) as RO. destruct Q as (_ & _ & Q3 & Q4' & _). destruct Q' as (_ & _ & R3 & R4 & _).
  assert (SI : st_inner st = st_inner (il_stats s)) by apply HQ. assert (SI2 : st_inner st2 = st_inner (il_stats s4)) by apply U3.
  destruct RM as [RM1 RM2].
  destruct (is_done_rel (il_set_stats s4 st3) ks1 st3' fin r fin' r') as (D1 & D2 & (D3 & D4 & D5 & D6 & D7) & D8 & D9); auto.
  { cbn [il_stats il_opts il_set_stats]. rewrite Q3, Q4', U4, U5, U8, F7, (proj1 CI), (proj2 CI). lia. }
  { cbn [il_stats il_opts il_set_stats]. rewrite R3, R4, SI2, U4, U6, U8, F7, (proj1 CI), (proj2 CI'). lia. }
  cbn [il_stats il_opts il_set_stats il_N il_Z il_Zb il_kps] in *.
  split; [exact D1|]. split; [|congruence]. exists ks1, st3'. split; [exact D2|]. rewrite D3, D8, D9, U7, F6, U2. split; [exact F3|]. split; [exact RO|]. split.
  - unfold room. rewrite D9, D4, U8, F7, Q3, Q4', U4, U5, R3, R4, SI2, U6, U4, (proj1 CI), (proj2 CI), (proj2 CI'). lia.
  - unfold zb_len, z_len. rewrite D5, D6, U9, U10. split; [exact F4|exact F9].
Qed.
Lemma iter_split fuel s : il_iteration ops n m cb fuel s = do Z <- il_get_Z s ; do s2 <- il_backward_pass n m fuel (il_update_expansions ops n m Z s) ; rest Z s2.
Proof. reflexivity. Qed.
Lemma iter_later fuel s s' fin r fin' r' : sim s s' -> il_iteration ops n m cb fuel s = Ok (fin, r) -> il_iteration ops n m cb fuel s' = Ok (fin', r') ->
  fin' = fin /\ sim r r' /\ il_opts r = il_opts s.
Proof.
  intros (ks & st & -> & (l & k & k' & K1 & K2 & L & KT) & RO & RM & ZB & ZL) E E'. rewrite iter_split in E, E'. change (il_get_Z (tw ks st s)) with (il_get_Z s) in E'.
  unfold il_get_Z in *. unfold z_len in ZL. destruct (il_Z s) as [Z|] eqn:EZ; [|contradiction]. cbn [bind] in E, E'.
  unfold il_update_expansions in E, E'. change (il_kps (tw ks st s)) with ks in E'. rewrite K2 in E'. rewrite K1 in E.
  destruct (expand_all_relK l k k' Z (kt_same _ _ KT) ltac:(lia)) as [X1 X2].
  destruct (expand_all ops n m (l ++ [k]) Z) as [Js k1] eqn:X, (expand_all ops n m (l ++ [k']) Z) as [Js' k1'] eqn:X'. cbn [fst snd] in X1, X2. subst Js'.
  destruct X2 as (l1 & q & q' & Y1 & Y2 & L1 & KE). subst k1 k1'.
  change (il_set_costs (tw (l ++ [k']) st s) Js (l1 ++ [q'])) with (tw (l1 ++ [q']) st (il_set_costs s Js (l1 ++ [q]))) in E'.
  destruct (il_backward_pass n m fuel (il_set_costs s Js (l1 ++ [q]))) as [s2| | | | |] eqn:EB; cbn [bind] in E; try discriminate.
  destruct (backward_later fuel (il_set_costs s Js (l1 ++ [q])) l1 q q' st s2) as (ks2 & x & B1 & B2 & B3 & (B4 & B5 & B6 & B7 & B8)); auto; [cbn; congruence|].
  rewrite B1 in E'. cbn [bind] in E'. cbn [il_N il_opts il_Z il_Zb il_stats il_set_costs] in *.
  assert (CI : st_inner (il_stats s2) = st_inner (il_stats s) /\ st_total (il_stats s2) = st_total (il_stats s)). { rewrite B3. unfold st_logF. now rewrite log_inner1, log_total1. }
  destruct RO as (Pos & HQ). cbn zeta in HQ.
  assert (G := rest_rel Z s2 ks2 (st_logF "reg" x st) (S (Z.to_nat (st_inner (il_stats s)))) fin r fin' r').
  rewrite B5 in G. apply G; auto; clear G.
  - now rewrite B4.
  - unfold zb_len in *. now rewrite B4, B7.
  - unfold z_len in *. now rewrite B4, B6, EZ.
  - lia.
  - unfold room in *. rewrite B5, (proj1 CI), (proj2 CI). unfold st_logF. rewrite log_inner1, log_total1. exact RM.
  - cbn zeta. rewrite (proj1 CI). split; [destruct (ls_ok Z s2); lia|]. destruct (Z.eqb_spec (st_inner (il_stats s)) 0); [lia|]. rewrite B3. unfold st_logF.
    replace (S (Z.to_nat (st_inner (il_stats s)))) with (Nat.max 1 (S (Z.to_nat (st_inner (il_stats s))))) at 4 by lia. apply Q_reg. exact HQ.
Qed.
Lemma loop_rel fuel it : forall s s' r r', sim s s' -> il_loop ops n m cb fuel it s = Ok r -> il_loop ops n m cb fuel it s' = Ok r' -> sim r r'.
Proof.
  induction it as [|it IH]; intros s s' r r' H E E'; cbn [il_loop] in *; [congruence|].
  destruct (il_iteration ops n m cb fuel s) as [[fin s1]| | | | |] eqn:E1; cbn [bind] in E; try discriminate.
  destruct (il_iteration ops n m cb fuel s') as [[fin' s1']| | | | |] eqn:E1'; cbn [bind] in E'; try discriminate.
  destruct (iter_later fuel s s' fin s1 fin' s1' H E1 E1') as (-> & S1 & _). destruct fin; [congruence|]. eauto.
Qed.
(** the first iteration *)
Lemma iter_first fuel s ks st Z s2 fin r fin' r' : length (il_kps s) = S (il_N s) -> Forall2 kp_same (il_kps s) ks -> zb_len (il_N s) s -> il_Z s = Some Z -> length Z = S (il_N s) ->
  il_status s = kUnsolved -> st_inner (il_stats s) = 0 -> room s st -> sflat (il_stats s) st ->
  il_backward_pass n m fuel (il_update_expansions ops n m Z s) = Ok s2 -> il_status s2 <> kBackwardPassRegularizationFailed ->
  (forall x, exists c, (if ls_ok Z s2 then Nat.max 1 c else c) = 1%nat /\ Q4 c 0 0 1 (st_logF "reg" x (il_stats s)) (st_logF "reg" x st)) ->
  il_iteration ops n m cb fuel s = Ok (fin, r) -> il_iteration ops n m cb fuel (tw ks st s) = Ok (fin', r') -> fin' = fin /\ sim r r' /\ il_opts r = il_opts s.
Proof.
  intros LK HK ZB EZ LZ ST IN RM SF EB NF HC E E'. rewrite iter_split in E, E'. change (il_get_Z (tw ks st s)) with (il_get_Z s) in E'.
  unfold il_get_Z in *. rewrite EZ in E, E'. cbn [bind] in E, E'. rewrite EB in E. cbn [bind] in E.
  unfold il_update_expansions in EB, E'. change (il_kps (tw ks st s)) with ks in E'.
  destruct (expand_all_rel (il_kps s) ks Z HK ltac:(lia)) as [X1 X2].
  pose proof (expand_all_length (il_kps s) Z) as XL.
  destruct (expand_all ops n m (il_kps s) Z) as [Js k1] eqn:X, (expand_all ops n m ks Z) as [Js' k1'] eqn:X'. cbn [fst snd] in X1, X2, XL. subst Js'.
  assert (NE : k1 <> []) by (intros ->; cbn in XL; lia).
  destruct (exists_last NE) as (l1 & q & ->). apply Forall2_app_inv_l in X2. destruct X2 as (l1' & t & X2 & X3 & ->). inversion X3 as [|? q' ? ? KE N0]; subst. inversion N0; subst. clear X3 N0.
  rewrite app_length in XL. cbn [length] in XL.
  change (il_set_costs (tw ks st s) Js (l1' ++ [q'])) with (tw (l1' ++ [q']) st (il_set_costs s Js (l1 ++ [q]))) in E'.
  destruct (backward_first fuel (il_set_costs s Js (l1 ++ [q])) l1 q l1' q' st s2) as (ks2 & x & B1 & B2 & B3 & (B4 & B5 & B6 & B7 & B8)); auto; [cbn; lia|].
  rewrite B1 in E'. cbn [bind] in E'. cbn [il_N il_opts il_Z il_Zb il_stats il_set_costs] in *.
  assert (CI : st_inner (il_stats s2) = st_inner (il_stats s) /\ st_total (il_stats s2) = st_total (il_stats s)). { rewrite B3. unfold st_logF. now rewrite log_inner1, log_total1. }
  destruct (HC x) as (c & HC1 & HC2).
  assert (G := rest_rel Z s2 ks2 (st_logF "reg" x st) c fin r fin' r').
  rewrite B5 in G. apply G; auto; clear G.
  - now rewrite B4.
  - unfold zb_len in *. now rewrite B4, B7.
  - unfold z_len in *. now rewrite B4, B6, EZ.
  - rewrite (proj1 CI), IN. lia.
  - unfold room in *. rewrite B5, (proj1 CI), (proj2 CI). unfold st_logF. rewrite log_inner1, log_total1. exact RM.
  - cbn zeta. rewrite (proj1 CI), IN, B3. cbn [Z.eqb Z.to_nat]. split; [exact HC1|exact HC2].
Qed.

(** ** before the loop *)
Lemma same_kps : forall ks ks', map kp_dyn ks' = map kp_dyn ks -> map kp_cost ks' = map kp_cost ks -> Forall2 kp_same ks ks'.
Proof.
  induction ks as [|k ks IH]; intros [|k' ks'] A B; try discriminate; [constructor|]. cbn in A, B. inversion A. inversion B. constructor; [split; auto|]. now apply IH.
Qed.
Definition start_stats o J st : Stats F := st_set_counts (st_set_verbosity o (st_set_counts st (st_initial_cost st) 0 (st_outer st) (st_total st))) J 0 (st_outer st) (st_total st).
Lemma begin_rel debug s s' b b' : same_task s s' -> il_begin ops n debug s = Ok b -> il_begin ops n debug s' = Ok b' ->
  exists ks J, b' = tw ks (start_stats (o_verbose (il_opts s)) J (il_stats s')) b /\ Forall2 kp_same (il_kps b) ks /\ il_stats b = start_stats (o_verbose (il_opts s)) J (il_stats s) /\
    length (il_kps b) = S (il_N b) /\ zb_len (il_N b) b /\ z_len (il_N b) b /\ il_status b = kUnsolved /\ il_opts b = il_opts s.
Proof.
  intros [H1 H2 H3 H4 H5 H6 H7 H8] E E'. unfold il_begin in E, E'. rewrite H6, H3, H1 in E'.
  destruct (altro_assert debug (il_x0_set s)); cbn [bind] in E, E'; try discriminate.
  destruct (altro_assert debug _); cbn [bind] in E, E'; try discriminate.
  destruct (altro_assert debug _); cbn [bind] in E, E'; try discriminate.
  set (v := o_verbose (il_opts s)) in *. set (st := st_set_verbosity v (st_set_counts (il_stats s) (st_initial_cost (il_stats s)) 0 (st_outer (il_stats s)) (st_total (il_stats s)))).
  set (st' := st_set_verbosity v (st_set_counts (il_stats s') (st_initial_cost (il_stats s')) 0 (st_outer (il_stats s')) (st_total (il_stats s')))).
  assert (SE : il_solve_setup s' = do s1 <- il_solve_setup s ; Ok (tw (il_kps s') st' s1)).
  { unfold il_solve_setup. rewrite H8. fold v. fold st. fold st'. cbn zeta. cbn [il_Z il_Zb il_set_stats]. rewrite H6, H7. destruct (il_Z s) eqn:Q1, (il_Zb s) eqn:Q2; cbn [bind]; try reflexivity;
      unfold il_reset_internal, il_set_Zb, tw, il_set_kps; cbn; now rewrite H1, H2, H3, ?H8, ?H6, ?H7, ?Q1, ?Q2. }
  rewrite SE in E'. clear SE.
  assert (ES : forall s1, il_solve_setup s = Ok s1 -> il_stats s1 = st /\ il_kps s1 = il_kps s /\ il_N s1 = il_N s /\ il_x0 s1 = il_x0 s /\ il_status s1 = kUnsolved /\ il_opts s1 = il_opts s).
  { intros s1. unfold il_solve_setup. cbn zeta. fold v. fold st. cbn [il_Z il_Zb il_set_stats]. destruct (il_Z s), (il_Zb s); intros X; inversion X; cbn; repeat split. }
  destruct (il_solve_setup s) as [s1| | | | |]; cbn [bind] in E, E'; try discriminate. destruct (ES s1 eq_refl) as (S1 & S2 & S3 & S4 & S5 & S6). clear ES.
  pose proof (same_kps _ _ H4 H5) as KS. rewrite <- S2 in KS.
  assert (LK : length (il_kps s') = length (il_kps s1)) by (symmetry; clear - KS; induction KS; cbn; auto).
  assert (SZ : il_sized (tw (il_kps s') st' s1) = il_sized s1). { unfold il_sized. cbn [il_kps il_N il_Z il_Zb tw il_set_stats il_set_kps]. now rewrite LK. }
  rewrite SZ in E'. unfold il_sized in E, E'. destruct (Nat.eqb_spec (length (il_kps s1)) (S (il_N s1))) as [L1|]; cbn [andb bind] in E, E'; try discriminate.
  change (il_get_Z (tw (il_kps s') st' s1)) with (il_get_Z s1) in E'.
  unfold il_get_Z in *. destruct (il_Z s1) as [Z|] eqn:EZ; cbn [bind] in E, E'; try discriminate. destruct (il_Zb s1) as [Zb|] eqn:EZb; cbn [bind] in E, E'; try discriminate.
  destruct (Nat.eqb_spec (length Z) (S (il_N s1))) as [L2|]; cbn [andb bind] in E, E'; try discriminate.
  destruct (Nat.eqb_spec (length Zb) (S (il_N s1))) as [L3|]; cbn [andb bind] in E, E'; try discriminate.
  unfold il_rollout in *. cbn [il_x0 il_kps tw il_set_stats il_set_kps] in E'. rewrite (roll_rel (il_kps s1)) in E' by exact KS.
  set (Z1 := roll n (vstore n (il_x0 s1)) (il_kps s1) Z) in *. unfold il_cost in *. cbn [il_kps il_set_Z] in E, E'.
  assert (LR : length Z1 = length Z). { unfold Z1. clear. generalize (vstore n (il_x0 s1)). generalize (il_kps s1). induction Z as [|z Z IH]; intros ks x; [destruct ks; reflexivity|]. destruct ks as [|k ks]; [reflexivity|]. destruct Z as [|z' Z]; [reflexivity|]. cbn [roll length]. f_equal. apply IH. }
  destruct (calc_costs_rel (il_kps s1) (il_kps s') Z1 KS) as [C1 C2]. pose proof (calc_costs_length (il_kps s1) Z1) as CL.
  destruct (calc_costs ops (il_kps s1) Z1) as [Js k1] eqn:X1. change (il_kps (tw (il_kps s') st' s1)) with (il_kps s') in E'.
  destruct (calc_costs ops (il_kps s') Z1) as [Js' k1'] eqn:X1'. cbn [fst snd] in C1, C2, CL. subst Js'.
  inversion E; subst b. inversion E'; subst b'. clear E E'. exists k1', (lsum Js).
  cbn [il_kps il_stats il_N il_status il_opts il_set_stats il_set_costs il_set_Z].
  split; [reflexivity|]. split; [exact C2|]. split; [rewrite S1; reflexivity|]. split; [lia|].
  unfold zb_len, z_len. cbn [il_Zb il_Z il_set_stats il_set_costs il_set_Z]. rewrite EZb. repeat split; auto; lia.
Qed.
Lemma log_cost c x st st' : sflat st st' -> map fst (st_ser st) = series_titles -> map fst (st_ser st') = series_titles ->
  c = true \/ st_back "cost" st = st_back "cost" st' ->
  exists i, (if c then Nat.max 1 i else i) = 1%nat /\ Q4 i 0 0 1 (st_logF "reg" x st) (st_logF "reg" x st').
Proof.
  intros SF T T' HC.
  assert (G : forall t, In t series_titles -> exists a0 b0, st_get t st = Some a0 /\ st_get t st' = Some b0).
  { intros t Ht. assert (G1 : forall q : Stats F, map fst (st_ser q) = series_titles -> exists a0, st_get t q = Some a0).
    { intros q Hq. unfold st_get. rewrite <- Hq in Ht. clear - Ht. induction (st_ser q) as [|[a b] r IH]; [destruct Ht|]. cbn [find fst]. destruct (String.eqb_spec a t) as [->|N].
      - cbn. eauto.
      - destruct Ht as [Ht|Ht]; [cbn in Ht; congruence|]. exact (IH Ht). }
    destruct (G1 st T) as [l Hl], (G1 st' T') as [l' Hl']. eauto. }
  assert (T0 : forall t, In t series_titles -> tails [t] 0 st st').
  { intros t Ht q [<-|[]]. destruct (G t Ht) as (l & l' & A & B). exists l, l'. split; [exact A|]. split; [exact B|]. apply tail_0. }
  assert (I1 : In "cost"%string series_titles /\ In "dJ"%string series_titles /\ In "grad"%string series_titles /\ In "reg"%string series_titles) by (cbn; tauto).
  destruct I1 as (I1 & I2 & I3 & I4). unfold st_logF.
  assert (Q : Q4 0 0 0 0 st st') by (split; [exact SF|]; repeat split; apply T0; assumption).
  destruct c.
  - exists 0%nat. split; [reflexivity|]. exact (Q_reg 0 0 0 0 (VFlt x) st st' Q).
  - destruct HC as [HC|HC]; [discriminate|]. exists 1%nat. split; [reflexivity|].
    pose proof (Q_reg 0 0 0 0 (VFlt x) st st' Q) as (A & B & C & D & E). split; [exact A|]. split; [|repeat split; assumption].
    intros q [<-|[]]. destruct (G "cost"%string I1) as (l & l' & L & L').
    exists (log_ser "reg" "cost" (lval_num (VFlt x)) l), (log_ser "reg" "cost" (lval_num (VFlt x)) l'). destruct SF as (S1 & S2 & _).
    split; [now apply st_get_log|]. split; [now apply st_get_log|].
    unfold st_back in HC. rewrite L, L' in HC. unfold log_ser. cbn [String.eqb Ascii.eqb Bool.eqb].
    destruct (snoc_cases l) as [->|(a & y & ->)], (snoc_cases l') as [->|(a' & y' & ->)].
    + exists [], [], [zero]. auto.
    + unfold last_opt in HC. rewrite rev_app_distr in HC. cbn in HC. discriminate.
    + unfold last_opt in HC. rewrite rev_app_distr in HC. cbn in HC. discriminate.
    + unfold last_opt in HC. rewrite !rev_app_distr in HC. cbn in HC. inversion HC; subst y'.
      destruct (a ++ [y]) eqn:Z1; [destruct a; discriminate|]. destruct (a' ++ [y]) eqn:Z2; [destruct a'; discriminate|]. rewrite <- Z1, <- Z2. exists a, a', [y]. auto.
Qed.
Lemma sim_result s s' : sim s s' -> same_result s s'.
Proof.
  intros (ks & st & -> & (l & k & k' & K1 & K2 & L & KT) & (_ & (_ & _ & HI & HJ) & A & B & C & D) & _). cbn zeta in *. destruct KT as [[[T1 T2] _] [T3 T4]].
  split; cbn [il_Z il_status il_costs il_grad il_rho il_dV0 il_dV1 il_kps il_N il_stats tw il_set_stats il_set_kps]; auto;
    try (rewrite K1, K2, ?(firstn_snoc l k), ?(firstn_snoc l k') by exact L; rewrite ?map_app; cbn; congruence).
  intros t [<-|[<-|[<-|[<-|[]]]]]; [apply A|apply B|apply C|apply D]; now left.
Qed.
Theorem resolve debug fuel s s' r r' : same_task s s' -> stats_ok (il_stats s) -> stats_ok (il_stats s') -> 0 < o_max_inner (il_opts s) ->
  st_total (il_stats s) + o_max_inner (il_opts s) <= o_max_total (il_opts s) -> st_total (il_stats s') + o_max_inner (il_opts s) <= o_max_total (il_opts s) ->
  first_step ops n m debug fuel s (st_back "cost" (il_stats s) = st_back "cost" (il_stats s')) ->
  il_solve ops n m cb debug fuel s = Ok r -> il_solve ops n m cb debug fuel s' = Ok r' -> same_result r r'.
Proof.
  intros ST (W1 & W2) (W1' & W2') MI T T' (b & Z & s2 & EB & EZ & EP & NF & HA) E E'. unfold il_solve in E, E'. rewrite EB in E. cbn [bind] in E.
  destruct (il_begin ops n debug s') as [b'| | | | |] eqn:EB'; cbn [bind] in E'; try discriminate.
  destruct (begin_rel debug s s' b b' ST EB EB') as (ks & J & B1 & B2 & B3 & B4 & B5 & B6 & B7 & B8). subst b'.
  change (il_opts (tw ks (start_stats (o_verbose (il_opts s)) J (il_stats s')) b)) with (il_opts b) in E'. rewrite B8 in E, E'.
  destruct (Z.to_nat (o_max_inner (il_opts s))) as [|it] eqn:EM; [lia|]. cbn [il_loop] in E, E'.
  destruct (il_iteration ops n m cb fuel b) as [[fin s1]| | | | |] eqn:E1; cbn [bind] in E; try discriminate.
  destruct (il_iteration ops n m cb fuel (tw _ _ b)) as [[fin' s1']| | | | |] eqn:E1'; cbn [bind] in E'; try discriminate.
  set (st := start_stats (o_verbose (il_opts s)) J (il_stats s')) in *.
  assert (SF : sflat (il_stats b) st). { rewrite B3. unfold st. split; [exact W2|]. split; [exact W2'|]. split; reflexivity. }
  unfold z_len in B6. rewrite EZ in B6.
  destruct (iter_first fuel b ks st Z s2 fin s1 fin' s1') as (-> & SM & _); auto.
  - rewrite B3. reflexivity.
  - unfold room. rewrite B3, B8. unfold st, start_stats. cbn [st_total st_inner st_set_counts]. split; lia.
  - intros x. apply log_cost; [exact SF|rewrite B3; exact W1|exact W1'|]. destruct HA as [HA|HA]; [now left|]. right. rewrite B3. exact HA.
  - apply sim_result. destruct fin; [congruence|]. eapply loop_rel; eauto.
Qed.
End Resolve.
