(** C44, C45, C46: the profiling timer. *)
From Coq Require Import ZArith List Bool Ascii String Lia Sorted Arith.
From Verif Require Import Base TaskModel TimerSpec TimerModel TimerProofs TimerProofs2 TimerProofs3.
Import List ListNotations.
Local Open Scope Z_scope.

(** * C44 *)
(** Running any program of scoped stopwatches from any state of the timer is defined, restores the stack of open names, and adds to each key
    the whole microseconds measured by the stopwatches recorded under it; keys without a stopwatch are not created. *)
Theorem C44_accumulates : forall p pre T act rs act', recs p pre act = (rs, act') -> sorted T ->
  exists T', tm_exec p (mkTm pre T act) = Ok (mkTm pre T' act') /\ sorted T' /\
    forall k, tget k T' = match tget k T, existsb (fun r => String.eqb (String.concat "/" (fst r)) k) rs with
                          | None, false => None
                          | None, true => Some (spent rs k)
                          | Some v, _ => Some (v + spent rs k)
                          end.
Proof.
  intros p pre T act rs act' R S. exists (tlog rs T). split; [apply exec_recs; exact R|]. split; [apply tlog_sorted; exact S|]. intros k. pose proof (tlog_val rs T k S) as V. pose proof (tlog_none rs T k S) as N. unfold tval in V.
  destruct (tget k T) as [v|] eqn:K.
  - destruct (tget k (tlog rs T)) as [w|]; [rewrite V; reflexivity|]. destruct (proj1 N eq_refl) as [X _]. discriminate.
  - destruct (existsb _ rs) eqn:E.
    + apply existsb_exists in E. destruct E as (r & I & X). apply String.eqb_eq in X. destruct (tget k (tlog rs T)) as [w|]; [rewrite V; reflexivity|]. destruct (proj1 N eq_refl) as [_ Y]. destruct (Y r I X).
    + apply N. split; [reflexivity|]. intros r I X. assert (existsb (fun r => String.eqb (String.concat "/" (fst r)) k) rs = true); [|congruence]. apply existsb_exists. exists r. split; [exact I|]. apply String.eqb_eq. exact X.
Qed.
(** with names without '/' a key stands for one path, so the time under a path is the sum over the stopwatches with exactly that path *)
Theorem C44_paths : forall p pre act rs act', recs p pre act = (rs, act') -> Forall no_slash pre -> Forall no_slash (names p) ->
  exists T', tm_exec p (mkTm pre [] act) = Ok (mkTm pre T' act') /\
    forall q, q <> [] -> Forall no_slash q ->
      ((exists d, In (q, d) rs) -> tget (String.concat "/" q) T' = Some (time_of rs q)) /\
      (~ (exists d, In (q, d) rs) -> tget (String.concat "/" q) T' = None).
Proof.
  intros p pre act rs act' R NP NN. destruct (C44_accumulates p pre [] act rs act' R ltac:(constructor)) as (T' & E & _ & G). exists T'. split; [exact E|]. intros q Q NQ. rewrite G. cbn [tget].
  assert (W : forall r, In r rs -> fst r <> [] /\ Forall no_slash (fst r)).
  { clear - R NP NN. revert pre act rs act' R NP. induction p as [|nm t0 t1 body IB rest IR|b rest IR]; intros pre act rs act' R NP r I; cbn [recs names] in *.
    - injection R as <- <-. contradiction.
    - inversion NN as [|? ? N1 N2]; subst. apply Forall_app in N2. destruct N2 as [N2 N3]. destruct act.
      + destruct (recs body (pre ++ [nm]) true) as [rb a1] eqn:B. destruct (recs rest pre a1) as [rr a2] eqn:RR. injection R as <- <-.
        assert (NPP : Forall no_slash (pre ++ [nm])) by (apply Forall_app; split; [exact NP|repeat constructor; exact N1]).
        apply in_app_iff in I. destruct I as [I|[<-|I]]; [eapply IB; eauto|cbn; split; [destruct pre; discriminate|exact NPP]|eapply IR; eauto].
      + destruct (recs body pre false) as [rb a1] eqn:B. destruct (recs rest pre a1) as [rr a2] eqn:RR. injection R as <- <-. apply in_app_iff in I. destruct I as [I|I]; [eapply IB; eauto|eapply IR; eauto].
    - eapply IR; eauto. }
  assert (KE : forall r, In r rs -> String.eqb (String.concat "/" (fst r)) (String.concat "/" q) = if list_eq_dec string_dec (fst r) q then true else false).
  { intros r I. destruct (W r I) as [W1 W2]. destruct (list_eq_dec string_dec (fst r) q) as [->|N]; [apply String.eqb_refl|]. apply String.eqb_neq. intros X. apply N. apply concat_inj; assumption. }
  assert (SP : spent rs (String.concat "/" q) = time_of rs q).
  { unfold spent, time_of. f_equal. f_equal. apply filter_ext_in. exact KE. }
  split.
  - intros (d & I). assert (existsb (fun r => String.eqb (String.concat "/" (fst r)) (String.concat "/" q)) rs = true) as ->; [|rewrite SP; reflexivity]. apply existsb_exists. exists (q, d). split; [exact I|apply String.eqb_refl].
  - intros N. destruct (existsb _ rs) eqn:X; [|reflexivity]. exfalso. apply N. apply existsb_exists in X. destruct X as ([q' d] & I & E'). rewrite (KE _ I) in E'. cbn [fst] in E'. destruct (list_eq_dec string_dec q' q) as [->|]; [eauto|discriminate].
Qed.
(** while inactive nothing changes *)
Theorem C44_inactive : forall p t, never_on p -> tm_active t = false -> tm_exec p t = Ok t.
Proof.
  intros p [st T act] N A. cbn in A. subst act. assert (R : forall pre, recs p pre false = ([], false)).
  { induction p as [|nm t0 t1 body IB rest IR|b rest IR]; intros pre; cbn in *; [reflexivity| |destruct N as [-> N]; apply IR; exact N]. destruct N as [N1 N2]. rewrite (IB N1), (IR N2). reflexivity. }
  rewrite (exec_recs p st false T [] false (R st)). reflexivity.
Qed.
(** and a new timer is inactive, with nothing recorded *)
Theorem C44_new : tm_stack tm_new = [] /\ tm_times tm_new = [] /\ forall p, never_on p -> tm_exec p tm_new = Ok tm_new.
Proof. repeat split. intros p N. apply C44_inactive; [exact N|reflexivity]. Qed.
(** a stopwatch can be copied; destroying the copy and the original is an access to an empty stack *)
Theorem C44_copied_stopwatch : forall nm t0 t1 t2, exists w t, tm_start nm t0 (mkTm [] [] true) = Ok (w, t) /\ bind (sw_stop w t1 t) (sw_stop w t2) = UB.
Proof. intros nm t0 t1 t2. eexists. eexists. split; reflexivity. Qed.
(** a name with '/' is indistinguishable from a nested scope *)
Theorem C44_slash_name : exists p q, names p <> names q /\ tm_exec p (mkTm [] [] true) = tm_exec q (mkTm [] [] true).
Proof.
  exists (Scope "a/b" 0 2000 Done (Scope "a" 0 3000 Done Done)), (Scope "a" 0 3000 (Scope "b" 0 2000 Done Done) Done). split; [discriminate|reflexivity].
Qed.
Definition solver_run : prog :=
  Scope "al" 0 900000 (Scope "ilqr" 1000 400000 (Scope "cost" 2000 50999 Done (Scope "backward_pass" 60000 160000 Done Done))
    (Scope "ilqr" 410000 800000 (Scope "cost" 420000 520000 Done Done) (Scope "dual_update" 800000 810000 Done Done))) Done.
Example C44_example : recs solver_run [] true = ([(["al"; "ilqr"; "cost"], 48); (["al"; "ilqr"; "backward_pass"], 100); (["al"; "ilqr"], 399); (["al"; "ilqr"; "cost"], 100); (["al"; "ilqr"], 390); (["al"; "dual_update"], 10); (["al"], 900)]%string, true) /\
  tm_exec solver_run (mkTm [] [] true) = Ok (mkTm [] [("al", 900); ("al/dual_update", 10); ("al/ilqr", 789); ("al/ilqr/backward_pass", 100); ("al/ilqr/cost", 148)]%string true) /\ Forall no_slash (names solver_run) /\ never_on solver_run.
Proof. split; [reflexivity|]. split; [reflexivity|]. split; [repeat (constructor; [cbn; repeat split; discriminate|]); constructor|cbn; tauto]. Qed.

(** * C45 *)
Lemma psplit_slashes s : List.length (psplit s) = S (slashes s).
Proof. induction s as [|c s IH]; [reflexivity|]. cbn [psplit slashes]. destruct (Ascii.eqb c "/"); [cbn [List.length]; rewrite IH; reflexivity|]. destruct (psplit s); [discriminate|]. cbn [List.length] in *. exact IH. Qed.
(** for every table: the summary has one entry per key, in order, and the total is the sum of the times of the names without '/' *)
Theorem C45_total : forall l, List.length (summary_entries l) = S (List.length l) /\
  option_map pe_time (nth_error (summary_entries l) 0) = Some (sum (map snd (filter (fun kv => Nat.eqb (slashes (fst kv)) 0) l))) /\
  forall i kv, nth_error l i = Some kv -> exists q, nth_error (summary_entries l) (S i) = Some (mkPE (psplit (fst kv)) (snd kv) q).
Proof.
  intros l. split; [apply entries_len|]. split.
  - rewrite entries_root. cbn. unfold total. f_equal. f_equal. f_equal. apply filter_ext. intros kv. unfold lev. rewrite psplit_slashes. reflexivity.
  - intros i kv N. destruct (entries_inv l) as (ps & _ & _ & I & _). eexists. apply I. exact N.
Qed.
(** for a table sorted by byte order whose keys are paths of plain names and which has the parents of all its paths, the parent of an entry is
    the entry of the path without its last name (the total for paths of one name), and every entry's root is the total *)
Theorem C45_parents : forall l, StronglySorted (fun a b : string * Z => String.compare (fst a) (fst b) = Lt) l ->
  (forall kv, In kv l -> exists p, p <> [] /\ Forall plain p /\ fst kv = String.concat "/" p) ->
  (forall p x, p <> [] -> Forall plain (p ++ [x]) -> In (String.concat "/" (p ++ [x])) (map fst l) -> In (String.concat "/" p) (map fst l)) ->
  forall i e, nth_error (summary_entries l) (S i) = Some e ->
    get_root (List.length (summary_entries l)) (summary_entries l) (S i) = Ok 0%nat /\
    exists j f, pe_parent e = Some j /\ (j <= i)%nat /\ nth_error (summary_entries l) j = Some f /\
      ((List.length (pe_name e) = 1%nat /\ j = 0%nat) \/ (1 < List.length (pe_name e) /\ 1 <= j)%nat /\ pe_name f = removelast (pe_name e)).
Proof.
  intros l S K C i e N. assert (T : table l) by (split; [exact S|]; split; [exact K|exact C]). assert (L : (i < List.length l)%nat) by (assert (X : (Datatypes.S i < List.length (summary_entries l))%nat) by (apply nth_error_Some; congruence); rewrite entries_len in X; lia).
  split; [apply table_root; [exact T| |rewrite entries_len]; lia|]. destruct (nth_error l i) as [kv|] eqn:NL; [|apply nth_error_None in NL; lia].
  destruct (table_parent l i kv T NL) as (p & NE & PL & KP & SP & [[L1 E]|(j & kv' & x & EP & QN & JI & J & K' & SP' & E)]); rewrite E in N; injection N as <-; cbn [pe_parent pe_name].
  - eexists. eexists. split; [reflexivity|]. split; [lia|]. split; [apply entries_root|]. left. auto.
  - destruct (entries_inv l) as (ps & _ & _ & I3 & _). exists (Datatypes.S j). eexists. split; [reflexivity|]. split; [lia|]. split; [apply I3; exact J|]. right. cbn [pe_name]. split; [|exact SP']. split; [|lia]. rewrite (removelast_len p NE). destruct (removelast p); [congruence|cbn; lia].
Qed.
(** the tables of programs with plain names meet these conditions *)
Theorem C45_program : forall p act rs act' a b, recs p [] act = (rs, act') -> timed a p b -> Forall plain (names p) ->
  exists l, tm_exec p (mkTm [] [] act) = Ok (mkTm [] l act') /\
    StronglySorted (fun a b : string * Z => String.compare (fst a) (fst b) = Lt) l /\
    (forall kv, In kv l -> exists p, p <> [] /\ Forall plain p /\ fst kv = String.concat "/" p) /\
    (forall p x, p <> [] -> Forall plain (p ++ [x]) -> In (String.concat "/" (p ++ [x])) (map fst l) -> In (String.concat "/" p) (map fst l)).
Proof.
  intros p act rs act' a b R T PN. exists (tlog rs []). split; [apply exec_recs; exact R|]. exact (T_table (names p) rs (b - a) (recs_good p [] act rs act' a b R T) PN).
Qed.
(** every name used by the solvers is plain (al_solver.hpp:289-370, ilqr.hpp:294-630) *)
Example C45_solver_names : Forall plain ["init"; "al"; "dual_update"; "penalty_update"; "stats"; "convergence_check"; "ilqr"; "cost"; "expansions"; "add_tasks"; "backward_pass"; "rollout"; "forward_pass"]%string.
Proof. repeat (constructor; [cbn; repeat split; reflexivity|]). constructor. Qed.
Example C45_example : Forall plain (names solver_run) /\ timed 0 solver_run 900000 /\
  map pe_parent (summary_entries [("al", 900); ("al/dual_update", 10); ("al/ilqr", 789); ("al/ilqr/backward_pass", 100); ("al/ilqr/cost", 148)]%string) = [None; Some 0; Some 1; Some 1; Some 3; Some 3]%nat.
Proof. split; [repeat (constructor; [cbn; repeat split; reflexivity|]); constructor|]. split; [cbn; lia|reflexivity]. Qed.
(** Finding: with a name that contains a byte below '/', such as '-', an entry gets an unrelated parent: "a/x" is listed under "a-b". *)
Theorem C45_order_refuted : exists p l es e f j, timed 0 p 9000 /\ Forall no_slash (names p) /\ tm_exec p (mkTm [] [] true) = Ok (mkTm [] l true) /\ es = summary_entries l /\
  In e es /\ pe_name e = ["a"; "x"]%string /\ pe_parent e = Some j /\ nth_error es j = Some f /\ pe_name f = ["a-b"%string].
Proof.
  exists (Scope "a" 0 5000 (Scope "x" 0 4000 Done Done) (Scope "a-b" 6000 7000 Done Done)). do 5 eexists. split; [cbn; lia|]. split; [repeat (constructor; [cbn; repeat split; discriminate|]); constructor|]. split; [reflexivity|]. split; [reflexivity|]. split; [right; right; right; left; reflexivity|]. split; [reflexivity|]. split; [reflexivity|]. split; reflexivity.
Qed.
(** Finding: a summary printed while an enclosing stopwatch is open lacks its entry: the inner one is listed under an unrelated entry, with 1000 percent of it. *)
Theorem C45_open_refuted : exists w1 t1 t2 w3 t3 w4 t4 t5,
  tm_start "a" 0 (mkTm [] [] true) = Ok (w1, t1) /\ sw_stop w1 1000 t1 = Ok t2 /\ tm_start "b" 2000 t2 = Ok (w3, t3) /\ tm_start "c" 3000 t3 = Ok (w4, t4) /\ sw_stop w4 13000 t4 = Ok t5 /\
  map pe_parent (summary_entries (tm_times t5)) = [None; Some 0; Some 1]%nat /\ map pe_name (summary_entries (tm_times t5)) = [["top"]; ["a"]; ["b"; "c"]]%string /\
  print_summary (tm_times t5) = Ok [(["a"], 1, 100, 100); (["b"; "c"], 10, 1000, 1000)]%string.
Proof. do 8 eexists. repeat (split; [reflexivity|]). reflexivity. Qed.

(** * C46 *)
(** for nested times up to 21474836 microseconds the percentages are computed without overflow, exactly, and lie between 0 and 100 (-1 when there is no time) *)
Theorem C46_exact : forall t total parent, 0 <= t <= parent -> parent <= total -> total <= 21474836 ->
  exists pt pp, calc_stats t total (Some parent) = Ok (pt, pp) /\
    (total = 0 -> pt = -1) /\ (total <> 0 -> 0 <= pt <= 100 /\ pt * total <= 100 * t < (pt + 1) * total) /\
    (parent = 0 -> pp = -1) /\ (parent <> 0 -> 0 <= pp <= 100 /\ pp * parent <= 100 * t < (pp + 1) * parent).
Proof.
  intros t total parent H1 H2 H3. exists (pct t total), (pct t parent). split; [apply (calc_ok t total (Some parent)); lia|].
  assert (G : forall T, 0 <= t <= T -> (T = 0 -> pct t T = -1) /\ (T <> 0 -> 0 <= pct t T <= 100 /\ pct t T * T <= 100 * t < (pct t T + 1) * T)).
  { intros T HT. pose proof (pct_range t T HT) as R. unfold pct in *. destruct (Z.eqb_spec T 0) as [E|E]; split; intros X; try congruence. pose proof (Z.div_pos (100 * t) T). pose proof (Z.mul_div_le (100 * t) T). pose proof (Z.mul_succ_div_gt (100 * t) T). lia. }
  destruct (G total ltac:(lia)). destruct (G parent ltac:(lia)). auto.
Qed.
(** From an empty timer any program with plain names that runs for less than 21474.837 milliseconds has a defined summary: one row for each recorded path, with
    the time of the path and its percentages of the total and of the parent path, all between -1 and 100. *)
Theorem C46_program : forall p act rs act' a b, recs p [] act = (rs, act') -> timed a p b -> Forall plain (names p) -> b - a < 21474837000 ->
  exists l out, tm_exec p (mkTm [] [] act) = Ok (mkTm [] l act') /\ print_summary l = Ok out /\
    NoDup (map (fun r => fst (fst (fst r))) out) /\ (forall q, (exists t pt pp, In (q, t, pt, pp) out) <-> exists d, In (q, d) rs) /\
    forall q t pt pp, In (q, t, pt, pp) out ->
      t = time_of rs q /\ pt = pct t (top_total rs) /\ pp = pct t (if Nat.eqb (List.length q) 1 then top_total rs else time_of rs (removelast q)) /\ -1 <= pt <= 100 /\ -1 <= pp <= 100.
Proof.
  intros p act rs act' a b R T PN SP. pose proof (recs_good p [] act rs act' a b R T) as G. exists (tlog rs []), (map (row rs (total (tlog rs []))) (tlog rs [])). split; [apply exec_recs; exact R|]. split; [apply (summary_rows (names p) rs (b - a)); assumption|].
  pose proof (T_table (names p) rs (b - a) G PN) as TB. change (table (tlog rs [])) in TB. set (l := tlog rs []) in *. destruct TB as (SO & KE & CL).
  assert (SPL : forall kv, In kv l -> exists r, In r rs /\ fst r <> [] /\ Forall plain (fst r) /\ fst kv = key (fst r) /\ psplit (fst kv) = fst r).
  { intros kv I. assert (K : In (fst kv) (map fst l)) by (apply in_map; exact I). apply (T_key rs) in K. destruct K as (r & RI & E). destruct (t_prec (names p) rs (b - a) G PN r RI) as [N PL]. exists r. split; [exact RI|]. split; [exact N|]. split; [exact PL|]. split; [exact E|]. rewrite E. apply psplit_concat; [exact N|apply plain_ns; exact PL]. }
  assert (TOT : total l = top_total rs) by (apply (T_total (names p) rs (b - a) G PN)).
  assert (SPT : forall q, q <> [] -> Forall plain q -> spent rs (key q) = time_of rs q) by (intros q Q PQ; apply (spent_path rs q (t_prec (names p) rs (b - a) G PN) Q PQ)).
  split; [|split].
  - rewrite map_map. cbn [row fst]. assert (ND : NoDup (map fst l)).
    { clear - SO. induction l as [|x l IH]; [constructor|]. inversion SO as [|? ? S1 S2]; subst. cbn [map]. constructor; [|apply IH; exact S1]. intros I. apply in_map_iff in I. destruct I as (y & E & I). rewrite Forall_forall in S2. specialize (S2 y I). rewrite E in S2. exact (slt_irrefl _ S2). }
    clear - ND SPL. induction l as [|x l IH]; [constructor|]. cbn [map] in *. inversion ND as [|? ? N1 N2]; subst. constructor; [|apply IH; [intros kv I; apply SPL; right; exact I|exact N2]]. intros I. apply in_map_iff in I. destruct I as (y & E & I). apply N1. destruct (SPL x (or_introl eq_refl)) as (r & _ & _ & _ & K & S). destruct (SPL y (or_intror I)) as (r' & _ & _ & _ & K' & S'). rewrite S, S' in E. rewrite K, <- E, <- K'. apply in_map. exact I.
  - intros q. split.
    + intros (t & pt & pp & I). apply in_map_iff in I. destruct I as (kv & E & I). destruct (SPL kv I) as ([q' d] & RI & _ & _ & _ & S). unfold row in E. injection E as E1 _ _ _. rewrite S in E1. cbn in E1. subst q'. eauto.
    + intros (d & I). assert (K : In (key q) (map fst l)) by (apply (T_key rs); exists (q, d); auto). apply in_map_iff in K. destruct K as (kv & E & K). do 3 eexists. apply in_map_iff. exists kv. split; [|exact K]. unfold row. destruct (t_prec (names p) rs (b - a) G PN (q, d) I) as [N PL]. cbn [fst] in N, PL. assert (psplit (fst kv) = q) as -> by (rewrite E; apply psplit_concat; [exact N|apply plain_ns; exact PL]). reflexivity.
  - intros q t pt pp I. apply in_map_iff in I. destruct I as (kv & E & I). destruct (SPL kv I) as ([q' d] & RI & N & PL & K & S). cbn [fst] in *. unfold row in E. cbv zeta in E. rewrite S in E. injection E as Eq' Et Ep Eq. subst q'. symmetry in Et, Ep, Eq.
    pose proof (T_val rs kv I) as V. rewrite K, SPT in V by assumption. pose proof (T_nonneg (names p) rs (b - a) G kv I) as NN. pose proof (T_le (names p) rs (b - a) G PN q N PL) as LE. change (spent rs (key q) <= total l) in LE. rewrite SPT in LE by assumption. rewrite Et, Ep, Eq, TOT.
    assert (B1 : -1 <= pct (snd kv) (top_total rs) <= 100) by (apply pct_range; rewrite <- TOT; lia).
    split; [exact V|]. split; [reflexivity|]. destruct (Nat.eqb_spec (List.length q) 1) as [L|L]; [split; [reflexivity|]; split; assumption|].
    destruct (nonempty_last q N) as (q0 & x & EQ). assert (Q0 : q0 <> []) by (intros X; apply L; rewrite EQ, X; reflexivity). assert (P0 : Forall plain q0) by (rewrite EQ in PL; apply Forall_app in PL; apply PL).
    rewrite EQ, removelast_last, SPT by assumption. split; [reflexivity|]. split; [exact B1|]. apply pct_range. split; [exact NN|]. rewrite V, EQ, <- !SPT by (try assumption; try (rewrite <- EQ; assumption); destruct q0; discriminate). apply (T_parent (names p) rs (b - a) G PN); [exact Q0|rewrite <- EQ; exact PL].
Qed.
Example C46_example : Forall plain (names solver_run) /\ timed 0 solver_run 900000 /\
  print_summary [("al", 900); ("al/dual_update", 10); ("al/ilqr", 789); ("al/ilqr/backward_pass", 100); ("al/ilqr/cost", 148)]%string =
  Ok [(["al"], 900, 100, 100); (["al"; "dual_update"], 10, 1, 1); (["al"; "ilqr"], 789, 87, 87); (["al"; "ilqr"; "backward_pass"], 100, 11, 12); (["al"; "ilqr"; "cost"], 148, 16, 18)]%string.
Proof. split; [apply C45_example|]. split; [apply C45_example|reflexivity]. Qed.
(** Finding: a profiled scope of 21.474837 seconds overflows int in CalcStats (100 * time_us); the bound above is the largest possible. *)
Theorem C46_overflow_refuted : forall nm, plain nm -> exists l, timed 0 (Scope nm 0 21474837000 Done Done) 21474837000 /\
  tm_exec (Scope nm 0 21474837000 Done Done) (mkTm [] [] true) = Ok (mkTm [] l true) /\ print_summary l = UB.
Proof.
  intros nm P. exists [(nm, 21474837)]. split; [cbn; lia|]. split; [reflexivity|]. unfold print_summary, summary_entries. cbn [fold_left fst snd]. unfold pe_add. cbn [fst snd]. rewrite (psplit_name nm) by (apply plain_no_slash; exact P). reflexivity.
Qed.
(** Finding: totals are truncated to int, so that a run of 4294.967295 seconds shows -100 percent for a scope of one microsecond *)
Theorem C46_truncation_refuted : exists p l out, timed 0 p 4294967295000 /\ Forall plain (names p) /\ tm_exec p (mkTm [] [] true) = Ok (mkTm [] l true) /\ print_summary l = Ok out /\ In (["a"%string], 1, -100, 0) out.
Proof.
  exists (Scope "a" 0 1000 Done (Scope "b" 1000 4294967295000 Done Done)). do 2 eexists. split; [cbn; lia|]. split; [repeat (constructor; [cbn; repeat split; reflexivity|]); constructor|]. split; [reflexivity|]. split; [reflexivity|]. left. reflexivity.
Qed.

Print Assumptions C44_accumulates. Print Assumptions C44_paths. Print Assumptions C44_inactive. Print Assumptions C44_new. Print Assumptions C44_copied_stopwatch. Print Assumptions C44_slash_name. Print Assumptions C44_example.
Print Assumptions C45_total. Print Assumptions C45_parents. Print Assumptions C45_program. Print Assumptions C45_solver_names. Print Assumptions C45_example. Print Assumptions C45_order_refuted. Print Assumptions C45_open_refuted.
Print Assumptions C46_exact. Print Assumptions C46_program. Print Assumptions C46_example. Print Assumptions C46_overflow_refuted. Print Assumptions C46_truncation_refuted.
