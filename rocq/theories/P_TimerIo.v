(** C76: where the profiler writes and whose streams it closes. *)
From Coq Require Import ZArith List Bool String Lia.
From Verif Require Import Base TimerModel TimerProofs TimerIoSpec TimerIoModel TimerIoProofs.
Import ListNotations.

(** * C76 *)
(** For every sequence of calls on a timer followed by its destruction: the only stream ever closed is the one set last, and it is closed exactly if
    some file was opened by name, whoever owns it. *)
Theorem C76_closes : forall cs log s, ti_life cs = Ok log -> last_out cs s ->
  forall x, In (EClose x) log <-> (exists c, In c cs /\ opens c = true) /\ x = s.
Proof. intros cs log s E L x. rewrite (life_close cs log s E L x). rewrite existsb_exists. reflexivity. Qed.
(** Every stream has one such last setting. *)
Theorem C76_last : forall cs, exists s act, last_out cs s /\ last_act cs act /\ (forall s', last_out cs s' -> s' = s) /\ (forall a', last_act cs a' -> a' = act).
Proof.
  intros cs. assert (X : exists s act, last_out cs s /\ last_act cs act).
  { induction cs as [|c cs (s & act & L & A)] using rev_ind; [exists SOut, false; split; [apply LoNone; intros c []|apply LaNone; intros b []]|].
    destruct c as [s'|nm [|]|b|k v| |l].
    - exists s', act. split; [apply (LoStream cs s' []); intros c []|apply last_act_skip; auto; intros; discriminate].
    - eexists _, act. split; [apply (LoFile cs nm []); intros c []|apply last_act_skip; auto; intros; discriminate].
    - exists s, act. split; [apply last_out_skip; auto|apply last_act_skip; auto; intros; discriminate].
    - exists s, b. split; [apply last_out_skip; auto|]. apply (LaSome cs b []). intros b' [].
    - exists s, act. split; [apply last_out_skip; auto|apply last_act_skip; auto; intros; discriminate].
    - exists s, act. split; [apply last_out_skip; auto|apply last_act_skip; auto; intros; discriminate].
    - exists s, act. split; [apply last_out_skip; auto|apply last_act_skip; auto; intros; discriminate]. }
  destruct X as (s & act & L & A). exists s, act. split; [exact L|]. split; [exact A|]. split; [intros; eapply last_out_fun; eassumption|intros; eapply last_act_fun; eassumption].
Qed.
(** It is clean, every file it opened closed and nothing else, exactly when at most one file was opened and nothing was set after that. *)
Theorem C76_clean_iff : forall cs log, (forall c, In c cs -> user_call c) -> ti_life cs = Ok log ->
  (clean log <-> n_open cs = 0 \/
     exists pre name rest, cs = pre ++ CFile name true :: rest /\ n_open pre = 0 /\ forall c, In c rest -> opens c = false /\ redirects c = false).
Proof. exact clean_iff. Qed.
(** Without an explicit PrintSummary the destructor prints the whole table, once, on the stream set last, if the timer is active then, and nothing
    otherwise. *)
Theorem C76_summary : forall cs log s act, ti_life cs = Ok log -> last_out cs s -> last_act cs act -> (forall c, In c cs -> prints c = false) ->
  (act = true -> exists l r, sorted l /\ (forall k, tget k l = rec_sum cs k) /\ print_summary l = Ok r /\ forall x y, In (EPage x y) log <-> x = s /\ y = r) /\
  (act = false -> forall x y, ~ In (EPage x y) log).
Proof.
  intros cs log s act E L A P. destruct (life_pages cs log s act E L A (none_false prints cs P)) as [H1 H2]. split; [|exact H2]. intros Ha. destruct (H1 Ha) as (r & Hr & Hp).
  destruct (recorded_spec cs) as [S G]. exists (recorded cs), r. auto.
Qed.
Theorem C76_defined : forall cs l r, (forall c, In c cs -> prints c = false) -> sorted l -> (forall k, tget k l = rec_sum cs k) -> print_summary l = Ok r ->
  exists log, ti_life cs = Ok log.
Proof.
  intros cs l r P S G R. apply (life_ok cs r (none_false prints cs P)). destruct (recorded_spec cs) as [S' G']. rewrite (sorted_get_unique (recorded cs) l S' S); [exact R|]. intros k. rewrite G, G'. reflexivity.
Qed.
(** SetOutput(filename) whose fopen fails throws and has no other effect: without those calls the same happens. *)
Theorem C76_failed_open : forall cs log, ti_life cs = Ok log ->
  ti_life (filter (fun c => match c with CFile _ false => false | _ => true end) cs) = Ok (filter (fun e => match e with EThrow _ => false | _ => true end) log) /\
  forall name, In (EThrow name) log -> In (CFile name false) cs.
Proof. intros cs log E. split; [exact (life_failed cs log E)|]. intros name. exact (life_throw cs log name E). Qed.
(** FINDING, against timer.hpp:57 ("ownership of resource remains with user"): a file opened by name and then replaced by the user's stream makes the
    destructor close the user's stream, and never the file. *)
Theorem C76_ownership_refuted : exists cs log, (forall c, In c cs -> user_call c) /\ ti_life cs = Ok log /\ In (EClose (SUser 7)) log /\ leaked log 0.
Proof.
  exists [CFile "profiler.out" true; CStream (SUser 7)], [EOpen 0 "profiler.out"; EClose (SUser 7)]. split; [intros c [<-|[<-|[]]]; exact I|]. split; [reflexivity|].
  split; [right; left; reflexivity|]. split; [eexists; left; reflexivity|]. intros [H|[H|[]]]; discriminate.
Qed.
(** FINDING, against timer.hpp:37-38 ("A summary ... will be printed when the timer is destroyed, unless it has already been printed"): times recorded
    before the timer is deactivated are never printed, nor are those recorded after a first PrintSummary, nor the timer's own after
    PrintSummary of another map. *)
Theorem C76_summary_refuted : (exists log, ti_life [CAct true; CRec "al" 5; CAct false] = Ok log /\ forall s r, ~ In (EPage s r) log) /\
  (exists log, ti_life [CAct true; CPrint; CRec "al" 5] = Ok log /\ forall s r, In (EPage s r) log -> r = []) /\
  (exists log, ti_life [CAct true; CRec "al" 5; CPrintMap []] = Ok log /\ forall s r, In (EPage s r) log -> r = []).
Proof.
  split; [|split].
  - exists []. split; [reflexivity|]. intros s r [].
  - exists [EPage SOut []]. split; [reflexivity|]. intros s r [H|[]]. injection H as _ <-. reflexivity.
  - exists [EPage SOut []]. split; [reflexivity|]. intros s r [H|[]]. injection H as _ <-. reflexivity.
Qed.
(** Any number of solves of one augmented-Lagrangian solver, each with its own profiler options, then its destruction: one file is opened for every
    solve that asks for one; at most the last is closed; if the last solve does not ask for one but an earlier did, standard output is closed. *)
Theorem C76_solves : forall ps p log, ti_life (flat_map al_solve_calls (ps ++ [p])) = Ok log ->
  (forall i, (exists name, In (EOpen i name) log) <-> i < files_asked (ps ++ [p])) /\
  (forall i, leaked log i <-> i < files_asked (ps ++ [p]) /\ ~ (ps_tofile p = true /\ i = files_asked ps)) /\
  (In (EClose SOut) log <-> ps_tofile p = false /\ exists q, In q ps /\ ps_tofile q = true) /\
  (ps_enable p = false -> forall x y, ~ In (EPage x y) log) /\
  (ps_enable p = true -> exists r, forall x y, In (EPage x y) log <-> x = (if ps_tofile p then SFile (files_asked ps) else SOut) /\ y = r).
Proof.
  intros ps p log E. pose proof (fun i => life_open _ log i E) as HO. rewrite solves_n_open in HO. pose proof (life_close _ log _ E (solves_out ps p)) as HC. rewrite opens_n, solves_n_open in HC.
  destruct (life_pages _ log _ _ E (solves_out ps p) (solves_act ps p) (solves_no_print _)) as [P1 P2].
  assert (NF : files_asked (ps ++ [p]) = files_asked ps + if ps_tofile p then 1 else 0) by (unfold files_asked; rewrite filter_app, app_length; cbn [filter]; destruct (ps_tofile p); reflexivity).
  split; [exact HO|]. split; [|split; [|split; [exact P2|]]].
  - intros i. unfold leaked. rewrite HO, HC. rewrite NF. destruct (ps_tofile p).
    + replace (Nat.eqb (files_asked ps + 1) 0) with false by (symmetry; apply Nat.eqb_neq; lia). cbn [negb]. split.
      * intros [H N]. split; [exact H|]. intros [_ ->]. apply N. auto.
      * intros [H N]. split; [exact H|]. intros [_ X]. injection X as ->. apply N. auto.
    + split; [intros [H _]; split; [exact H|]; intros [X _]; discriminate X|]. intros [H _]. split; [exact H|]. intros [_ X]. discriminate X.
  - rewrite HC, NF. destruct (ps_tofile p).
    + split; [intros [_ X]; discriminate X|intros [X _]; discriminate X].
    + rewrite Nat.add_0_r. split.
      * intros [X _]. split; [reflexivity|]. apply negb_true_iff, Nat.eqb_neq in X. unfold files_asked in X. destruct (filter ps_tofile ps) as [|q r] eqn:EF; [cbn in X; lia|].
        exists q. apply filter_In. rewrite EF. left. reflexivity.
      * intros [_ (q & Hq)]. split; [|reflexivity]. apply negb_true_iff, Nat.eqb_neq. apply filter_In in Hq. unfold files_asked. destruct (filter ps_tofile ps); [destruct Hq|cbn; lia].
  - intros H. destruct (P1 H) as (r & _ & X). exists r. exact X.
Qed.
(** FINDING: two solves of one solver, the first with profiler_output_to_file and the second without, close the program's standard output. *)
Theorem C76_stdout_refuted : exists p q log, ti_life (al_solve_calls p ++ al_solve_calls q) = Ok log /\ In (EClose SOut) log /\ leaked log 0.
Proof.
  exists (mkPS true true "logs/profiler.out"%string [("al"%string, 10%Z)]), (mkPS true false "logs/profiler.out"%string [("al"%string, 20%Z)]), [EOpen 0 "logs/profiler.out"%string; EPage SOut [(["al"%string], 30%Z, 100%Z, 100%Z)]; EClose SOut].
  split; [vm_compute; reflexivity|]. split; [cbn; auto|]. split; [eexists; left; reflexivity|]. intros [H|[H|[H|[]]]]; discriminate.
Qed.
(** FINDING: solving with iLQR alone ignores profiler_output_to_file: nothing is opened or closed and the summary goes to standard output. *)
Theorem C76_ilqr_ignores_file : forall ps log, ti_life (flat_map ilqr_solve_calls ps) = Ok log -> forall e, In e log -> exists r, e = EPage SOut r.
Proof.
  intros ps log E e He. set (cs := flat_map ilqr_solve_calls ps) in *.
  assert (L : last_out cs SOut) by (apply LoNone; intros c Hc; destruct (ilqr_calls ps c Hc) as (A & B & _); auto).
  destruct (life_log cs log E) as (s & act & e0 & r & L' & _ & _ & -> & Hc & Ho & Hp). rewrite <- (last_out_fun cs _ L s L') in *.
  assert (NO : existsb opens cs = false) by (apply none_false; intros c H; apply (ilqr_calls ps c H)).
  assert (NP : existsb prints cs = false) by (apply none_false; intros c H; apply (ilqr_calls ps c H)).
  rewrite NO, NP in *. rewrite app_nil_r in He. apply in_app_iff in He. destruct He as [He|He].
  - exfalso. destruct e as [i nm|x y|x|nm].
    + assert (i < n_open cs) by (apply Ho; eauto). unfold n_open in H. rewrite (filter_nil opens cs) in H by (intros c Hcc; apply (ilqr_calls ps c Hcc)). cbn in H. lia.
    + exact (Hp eq_refl x y He).
    + exact (Hc x He).
    + destruct (ilqr_calls ps (CFile nm false)) as (_ & _ & _ & X); [apply (life_throw cs _ nm E); apply in_app_iff; auto|]. exact (X nm eq_refl).
  - cbn [negb andb] in He. destruct act; [|destruct He]. destruct He as [<-|[]]. eauto.
Qed.

(** one file, set once, nothing afterwards: clean, and the summary is in the file *)
Example C76_example : forall c1 c2, let cs := [CStream (SUser 3); CAct true; CFile "profiler.out" true; CRec "al" c1; CRec "al/init" c2] in
  (forall c, In c cs -> user_call c) /\ last_out cs (SFile 0) /\ last_act cs true /\ (forall c, In c cs -> prints c = false) /\ rec_sum cs "al" = Some (c1 + 0)%Z.
Proof.
  intros c1 c2 cs. split; [|split; [|split; [|split]]].
  - intros c H. repeat (destruct H as [<-|H]; [exact I|]). destruct H.
  - apply (LoFile [CStream (SUser 3); CAct true] "profiler.out" [CRec "al" c1; CRec "al/init" c2]). intros c [<-|[<-|[]]]; auto.
  - apply (LaSome [CStream (SUser 3)] true [CFile "profiler.out" true; CRec "al" c1; CRec "al/init" c2]). intros b [H|[H|[H|[]]]]; discriminate.
  - intros c H. repeat (destruct H as [<-|H]; [reflexivity|]). destruct H.
  - reflexivity.
Qed.
Example C76_example_clean : ti_life [CAct true; CFile "profiler.out" true; CRec "al" 40; CRec "al/init" 10] =
  Ok [EOpen 0 "profiler.out"; EPage (SFile 0) [(["al"%string], 40%Z, 100%Z, 100%Z); (["al"; "init"]%string, 10%Z, 25%Z, 25%Z)]; EClose (SFile 0)].
Proof. vm_compute. reflexivity. Qed.
Example C76_example_leak : ti_life (flat_map al_solve_calls [mkPS true true "p" []; mkPS true true "p" []; mkPS true true "p" [("al"%string, 7%Z)]]) =
  Ok [EOpen 0 "p"; EOpen 1 "p"; EOpen 2 "p"; EPage (SFile 2) [(["al"%string], 7%Z, 100%Z, 100%Z)]; EClose (SFile 2)].
Proof. vm_compute. reflexivity. Qed.

Print Assumptions C76_closes.
Print Assumptions C76_last.
Print Assumptions C76_clean_iff.
Print Assumptions C76_summary.
Print Assumptions C76_defined.
Print Assumptions C76_failed_open.
Print Assumptions C76_ownership_refuted.
Print Assumptions C76_summary_refuted.
Print Assumptions C76_solves.
Print Assumptions C76_stdout_refuted.
Print Assumptions C76_ilqr_ignores_file.
