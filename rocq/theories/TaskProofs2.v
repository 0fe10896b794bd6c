(** Histories of task assignments. *)
From Coq Require Import List ZArith Reals Lra Lia Bool Arith.
From Verif Require Import Base Lin StatsModel TrajModel IlqrModel PoolSpec TaskModel TaskSpec TaskProofs FloatBridge TaskFloat.
Import ListNotations.
Local Open Scope Z_scope.

Section H.
Context {F : Scalar} (rnd : F -> Z).
Lemma loop_mono N step fuel : forall fuel' v l, (fuel <= fuel')%nat -> task_loop rnd fuel N step v = Ok l -> task_loop rnd fuel' N step v = Ok l.
Proof.
  induction fuel as [|f IH]; intros [|f'] v l L E; try discriminate; [lia|]. cbn [task_loop] in *. destruct (leb v N); [|exact E]. destruct (task_loop rnd f N step (add v step)) as [r| | | | |] eqn:R; try discriminate. rewrite (IH f' _ r ltac:(lia) R). exact E.
Qed.
Lemma default_mono fuel fuel' debug N nt tpt l : (fuel <= fuel')%nat -> default_inds rnd fuel debug N nt tpt = Ok l -> default_inds rnd fuel' debug N nt tpt = Ok l.
Proof.
  unfold default_inds. intros L. destruct (imul nt tpt) as [p| | | | |]; cbn [bind]; try discriminate. destruct (task_loop rnd fuel (ofZ N) (div (ofZ N) (ofZ p)) zero) as [r| | | | |] eqn:R; try discriminate. rewrite (loop_mono _ _ fuel fuel' _ _ L R). auto.
Qed.
Context (N : Z) (fuel : nat) (debug : bool) (good : Z -> Z -> Prop) (Hg : forall nt tpt, good nt tpt -> 1 <= nt * tpt)
  (Hd : forall nt tpt l, good nt tpt -> default_inds rnd fuel debug N nt tpt = Ok l -> valid_inds N l).
(** options that ask for at least one task, valid custom vectors *)
Definition good_op (o : top) : Prop := match o with TGet nt tpt | TLaunch nt tpt => good nt tpt | TSet l => valid_inds N l end.
Definition tinv (t : Tasks) : Prop :=
  (t_inds t = [] /\ t_custom t = false \/ valid_inds N (t_inds t)) /\
  (t_pool t <> 0 -> exists l, valid_inds N l /\ t_tasks t = blocks l).
Lemma get_inv nt tpt t t' : good nt tpt -> (t_inds t = [] /\ t_custom t = false \/ valid_inds N (t_inds t)) -> get_tasks rnd fuel debug N nt tpt t = Ok t' ->
  valid_inds N (t_inds t') /\ t_tasks t' = t_tasks t /\ t_pool t' = t_pool t /\ t_custom t' = t_custom t.
Proof.
  intros G V. unfold get_tasks, should_redo, imul. destruct (int_ok (nt * tpt)); cbn [bind]; [|discriminate]. destruct (t_custom t || (t_num t =? nt * tpt)) eqn:K; cbn [negb].
  - intros E. injection E as <-. split; [|auto]. destruct V as [[V1 V2]|V]; [|exact V]. exfalso. rewrite V2 in K. cbn [orb] in K. apply Z.eqb_eq in K. unfold t_num in K. rewrite V1 in K. cbn in K. specialize (Hg _ _ G). lia.
  - destruct (default_inds rnd fuel debug N nt tpt) as [l| | | | |] eqn:D; try discriminate. cbn [bind]. intros E. injection E as <-. cbn. split; [eapply Hd; eauto|auto].
Qed.
Lemma step_tinv o t t' : good_op o -> tinv t -> t_step rnd fuel debug N o t = Ok t' -> tinv t'.
Proof.
  intros G [V P] E. destruct o as [nt tpt|l|nt tpt]; cbn [t_step good_op] in *.
  - destruct (get_inv _ _ _ _ G V E) as (A & B & C & _). split; [right; exact A|]. rewrite B, C. exact P.
  - unfold set_tasks in E. destruct (if debug then _ else _) as [[]| | | | |]; cbn [bind] in E; try discriminate. destruct (altro_assert debug (increasing l)) as [[]| | | | |]; cbn [bind] in E; try discriminate. injection E as <-. split; [right; exact G|exact P].
  - unfold launch in E. destruct ((t_pool t =? 0) && (nt =? 1)) eqn:S1; [injection E as <-; split; assumption|].
    destruct (if 0 <? N then _ else _) as [[]| | | | |] eqn:GO; cbn [bind] in E; try discriminate; [|injection E as <-; split; assumption].
    destruct (get_tasks rnd fuel debug N nt tpt _) as [t1| | | | |] eqn:GT; cbn [bind] in E; try discriminate. injection E as <-.
    destruct (get_inv nt tpt (mkTasks (t_custom t) [] (t_inds t) 0) t1 G V GT) as (A & B & C & D). split; cbn; [right; exact A|]. intros _. exists (t_inds t1). split; [exact A|reflexivity].
Qed.
Lemma run_tinv os : forall t t', Forall good_op os -> tinv t -> t_run rnd fuel debug N os t = Ok t' -> tinv t'.
Proof.
  induction os as [|o os IH]; intros t t' G I E; cbn [t_run] in E; [injection E as <-; exact I|]. inversion G as [|? ? G1 G2]; subst. destruct (t_step rnd fuel debug N o t) as [t1| | | | |] eqn:S; cbn [bind] in E; try discriminate. eapply IH; [exact G2| |exact E]. eapply step_tinv; eauto.
Qed.
Lemma new_tinv : tinv t_new.
Proof. split; [left; split; reflexivity|]. cbn. congruence. Qed.
End H.
Section K.
Context {F : Scalar} (rnd : F -> Z) (N : Z) (fuel : nat) (debug : bool).
Lemma get_custom nt tpt t t' : t_custom t = true -> get_tasks rnd fuel debug N nt tpt t = Ok t' -> t' = t.
Proof. intros C. unfold get_tasks, should_redo, imul. destruct (int_ok (nt * tpt)); cbn [bind]; [|discriminate]. rewrite C. cbn. congruence. Qed.
Lemma step_custom o t t' : (forall l, o <> TSet l) -> t_custom t = true -> t_step rnd fuel debug N o t = Ok t' -> t_custom t' = true /\ t_inds t' = t_inds t.
Proof.
  intros NS C E. destruct o as [nt tpt|l|nt tpt]; cbn [t_step] in E; [rewrite (get_custom _ _ _ _ C E); auto|exfalso; exact (NS l eq_refl)|].
  unfold launch in E. destruct ((t_pool t =? 0) && (nt =? 1)); [injection E as <-; auto|]. destruct (if 0 <? N then _ else _) as [[]| | | | |]; cbn [bind] in E; try discriminate; [|injection E as <-; auto].
  destruct (get_tasks rnd fuel debug N nt tpt _) as [t1| | | | |] eqn:G; cbn [bind] in E; try discriminate. apply get_custom in G; [|exact C]. subst t1. injection E as <-. auto.
Qed.
Lemma run_custom os : forall t t', (forall l, ~ In (TSet l) os) -> t_custom t = true -> t_run rnd fuel debug N os t = Ok t' -> t_custom t' = true /\ t_inds t' = t_inds t.
Proof.
  induction os as [|o os IH]; intros t t' NS C E; cbn [t_run] in E; [injection E as <-; auto|]. destruct (t_step rnd fuel debug N o t) as [t1| | | | |] eqn:S; cbn [bind] in E; try discriminate.
  destruct (step_custom o t t1) as [C1 I1]; [intros l ->; apply (NS l); left; reflexivity|exact C|exact S|]. destruct (IH t1 t') as [C2 I2]; [intros l J; apply (NS l); right; exact J|exact C1|exact E|]. split; [exact C2|congruence].
Qed.
End K.
Lemma exact_hd_ok N fuel debug nt tpt l : 1 <= N -> 1 <= nt * tpt -> default_inds (F:=RS) r_round fuel debug N nt tpt = Ok l -> valid_inds N l /\ Z.of_nat (length l) = nt * tpt + 1.
Proof.
  intros HN HP E. assert (IO : int_ok (nt * tpt) = true) by (unfold default_inds, imul in E; destruct (int_ok (nt * tpt)); [reflexivity|discriminate]).
  set (f := Nat.max fuel (2 + Z.to_nat (nt * tpt))). apply (default_mono (F:=RS) r_round fuel f) in E; [|lia]. rewrite exact_default in E by (try assumption; lia). assert (EL : l = removelast (exact_inds N (nt * tpt)) ++ [N + 1]) by congruence. rewrite EL. split; [apply exact_valid; assumption|]. rewrite exact_length. lia.
Qed.
Lemma float_hd_ok N fuel nt tpt l : 1 <= N < 2 ^ 31 -> 1 <= nt * tpt <= 2 ^ 18 -> default_inds (F:=FS) f_round fuel true N nt tpt = Ok l -> valid_inds N l.
Proof.
  intros HN HP E. set (f := Nat.max fuel (2 + Z.to_nat (nt * tpt))). apply (default_mono (F:=FS) f_round fuel f) in E; [|lia]. rewrite float_default in E by (try assumption; lia). cbn [andb] in E. destruct (last (finds N (nt * tpt)) 0 =? N) eqn:L; [|discriminate]. apply Z.eqb_eq in L. cbn [negb] in E. injection E as <-.
  pose proof (finds_valid N (nt * tpt) HN HP) as V. rewrite L in V at 1. exact V.
Qed.
