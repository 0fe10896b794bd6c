(** C77: statistics objects, their copies and moves. *)
From Coq Require Import ZArith String List Bool Lia QArith.
From Verif Require Import Base LogModel StatsModel StatsMoveModel StatsMoveSpec StatsProofs StatsMoveProofs.
Import ListNotations.
Local Open Scope Z_scope.
Local Open Scope string_scope.

(** * C77 *)
(** In a program that only constructs, uses and destroys statistics objects, each object holds what its own calls since its construction give on a
    fresh object, whatever is done to the others; and a further call is defined exactly if it is defined on that history alone. *)
Theorem C77_independent : forall (F : Scalar) debug ops (h : Mem F), Forall plain_op ops -> m_run debug ops m_empty = Ok h ->
  (forall a, match calls_of a ops with
             | None => h a = None
             | Some cs => exists s, own_obj h a s /\ sl_run debug cs st_new = Ok s
             end) /\
  (forall a op cs, calls_of a ops = Some cs ->
    ((exists h', m_run debug (ops ++ [MCall a op]) m_empty = Ok h') <-> (exists s', sl_run debug (cs ++ [op]) st_new = Ok s'))).
Proof. intros. now apply plain_independent. Qed.

(** Copies and moved-to objects: no sequence of calls on one ever changes the vectors the program reads from it. *)
Theorem C77_never_records : forall (F : Scalar) debug (h : Mem F) a b s ops h', own_obj h a s -> h b = None ->
  m_run debug (MCopy a b :: map (MCall b) ops) h = Ok h' \/ m_run debug (MMove a b :: map (MCall b) ops) h = Ok h' ->
  forall t, own_series h' b t = own_series h a t.
Proof. intros. eapply copy_never_records; eauto. Qed.
(** What is logged on a copy overwrites the newest entry of the original. *)
Theorem C77_copy_log : forall (F : Scalar) debug (h : Mem F) a b s t (x : lval F) l, own_obj h a s -> h b = None -> st_get t s = Some l ->
  exists h1 h2, m_step debug (MCopy a b) h = Ok h1 /\
    m_step debug (MCall b (SlOp (match x with VInt z => StLogZ t z | VFlt v => StLogF t v end))) h1 = Ok h2 /\
    (forall t', own_series h1 b t' = st_get t' s) /\
    (forall t', own_series h2 b t' = st_get t' s) /\ own_series h2 a t = Some (newest (lval_num x) l).
Proof. intros F debug h a b s t x l. apply copy_log. Qed.
(** Once the original is destroyed, every recording call on the copy, and every print at a verbosity above silent, is undefined. *)
Theorem C77_copy_dangles : forall (F : Scalar) debug (h : Mem F) a b s, own_obj h a s -> h b = None ->
  exists h2, m_run debug [MCopy a b; MDestroy a] h = Ok h2 /\ h2 b = Some (mkObj s (Some a) a false) /\
    (forall op, records op -> m_step debug (MCall b op) h2 = UB) /\
    (forall op, shows op -> lg_level (st_log s) <> kSilent -> m_step debug (MCall b op) h2 = UB).
Proof. intros. now apply copy_dangles. Qed.
(** After a move, logging a recorded title on the new object is undefined if anything had been recorded before; otherwise the value goes to the
    moved-from object, and reading the new object's own series is undefined.  After the moved-from object is destroyed every recording call is. *)
Theorem C77_move_log : forall (F : Scalar) debug (h : Mem F) a b s t (x : lval F) l, own_obj h a s -> h b = None -> st_get t s = Some l ->
  let log := MCall b (SlOp (match x with VInt z => StLogZ t z | VFlt v => StLogF t v end)) in
  exists h1, m_step debug (MMove a b) h = Ok h1 /\ (forall t', own_series h1 b t' = st_get t' s) /\
    (l <> [] -> m_step debug log h1 = UB) /\
    (l = [] -> exists h2, m_step debug log h1 = Ok h2 /\
       own_series h2 a t = Some [lval_num x] /\ (forall t', own_series h2 b t' = st_get t' s) /\ own_back h2 b t = UB) /\
    (exists h2, m_step debug (MDestroy a) h1 = Ok h2 /\ forall op, records op -> m_step debug (MCall b op) h2 = UB).
Proof. intros F debug h a b s t x l O B L log. exact (move_log debug h a b s t x l O B L). Qed.
(** The beginning of an augmented-Lagrangian solve on moved statistics: Reset (al_solver.hpp:298) leaves the old entries in place, and the logged value
    is found in the moved-from object only. *)
Theorem C77_move_reset : forall (F : Scalar) debug (h : Mem F) a b s o t (x : lval F) l, own_obj h a s -> h b = None -> st_get t s = Some l ->
  o_max_total o >= 0 -> o_header_freq o >= 0 ->
  exists h', m_run debug [MMove a b; MCall b (SlOp (StReset o)); MCall b (SlOp (match x with VInt z => StLogZ t z | VFlt v => StLogF t v end))] h = Ok h' /\
    own_series h' a t = Some [lval_num x] /\ own_series h' b t = Some l.
Proof. intros F debug h a b s o t x l. apply move_solve. Qed.

(** FINDING: a copy does not record its own values: it changes the original's. *)
Theorem C77_copy_refuted : exists ops : list (mop QS), forall debug,
  match m_run debug (ops ++ [MCall 1 (SlOp (StLogF "cost" (7%Q : T QS)))]) m_empty with
  | Ok h => own_series h 1 "cost" = Some [5%Q : T QS] /\ own_series h 0 "cost" = Some [7%Q : T QS]
  | _ => False
  end.
Proof.
  exists [MNew 0; MCall 0 (SlOp (StLogF "cost" (5%Q : T QS))); MCopy 0 1]. intros [|]; vm_compute; split; reflexivity.
Qed.
(** FINDING: a solver moved before its first solve (ilqr.hpp:58-60): the cost it logs (ilqr.hpp:538) is not in its own record, and reading it back
    (ilqr.hpp:574, cost.back()) is undefined; if the moved-from solver is gone, logging already is. For every arithmetic and cost. *)
Theorem C77_moved_solver_refuted : forall (F : Scalar) debug (J : F),
  (exists h : Mem F, m_run debug [MNew 0; MMove 0 1; MCall 1 (SlOp (StLogF "cost" J))] m_empty = Ok h /\
     own_back h 1 "cost" = UB /\ own_series h 0 "cost" = Some [J]) /\
  m_run debug [MNew 0; MMove 0 1; MDestroy 0; MCall 1 (SlOp (StLogF "cost" J))] (@m_empty F) = UB.
Proof.
  intros F debug J.
  assert (O : own_obj (mput 0 (Some (ob_new 0)) (@m_empty F)) 0 st_new).
  { split; [reflexivity|apply flat_new]. }
  assert (G : st_get "cost" (@st_new F) = Some []) by reflexivity.
  destruct (C77_move_log F debug _ 0%nat 1%nat st_new "cost" (VFlt J) [] O eq_refl G) as (h1 & M & _ & _ & K & h2 & D & U).
  destruct (K eq_refl) as (h3 & L & S & _ & B). split.
  - exists h3. split; [|split; [exact B|exact S]].
    change (bind (m_step debug (MMove 0 1) (mput 0 (Some (ob_new 0)) m_empty)) (fun h => bind (m_step debug (MCall 1 (SlOp (StLogF "cost" J))) h) Ok) = Ok h3).
    rewrite M. cbn [bind]. cbn in L |- *. rewrite L. reflexivity.
  - change (bind (m_step debug (MMove 0 1) (mput 0 (Some (ob_new 0)) m_empty)) (fun h => bind (m_step debug (MDestroy 0) h) (fun h => bind (m_step debug (MCall 1 (SlOp (StLogF "cost" J))) h) Ok)) = UB).
    rewrite M. cbn [bind]. rewrite D. cbn [bind]. rewrite U by exact I. reflexivity.
Qed.

(** a program with two objects *)
Definition C77_prog : list (mop QS) :=
  [MNew 0; MNew 1; MCall 0 (SlOp (StLogF "cost" (5%Q : T QS))); MCall 1 (SlOp (StLogF "cost" (3%Q : T QS)));
   MCall 0 (SlOp StNew); MCall 0 (SlOp (StLogF "cost" (4%Q : T QS)))].
Example C77_example : Forall plain_op C77_prog /\
  match m_run true C77_prog m_empty with
  | Ok h => own_series h 0 "cost" = Some [5%Q : T QS; 4%Q : T QS] /\ own_series h 1 "cost" = Some [3%Q : T QS]
  | _ => False
  end.
Proof. split; [repeat constructor|]. vm_compute. split; reflexivity. Qed.
Example C77_example_calls : calls_of 0 C77_prog = Some [SlOp (StLogF "cost" (5%Q : T QS)); SlOp StNew; SlOp (StLogF "cost" (4%Q : T QS))].
Proof. reflexivity. Qed.
(** objects as the hypotheses of the other theorems want them *)
Example C77_example_own : exists (h : Mem QS) s, own_obj h 0 s /\ h 1%nat = None /\ st_get "cost" s = Some [5%Q : T QS].
Proof.
  eexists (mput 0 (Some (mkObj _ (Some 0%nat) 0 false)) m_empty), (st_logF (F:=QS) "cost" (5%Q : T QS) st_new).
  split; [split|split]; [reflexivity| |reflexivity|reflexivity].
  intros p Hp. vm_compute in Hp. repeat (destruct Hp as [<-|Hp]; [reflexivity|]). destruct Hp.
Qed.
(** a copy logging on after the original was reset *)
Example C77_example_reset :
  m_run true [MNew 0; MCall 0 (SlOp (StLogF "cost" (5%Q : T QS))); MCopy 0 1; MCall 0 (SlOp (StReset opts_default)); MCall 1 (SlOp (StLogF "cost" (7%Q : T QS)))] (@m_empty QS) = UB.
Proof. vm_compute. reflexivity. Qed.

Print Assumptions C77_independent.
Print Assumptions C77_never_records.
Print Assumptions C77_copy_log.
Print Assumptions C77_copy_dangles.
Print Assumptions C77_move_log.
Print Assumptions C77_move_reset.
Print Assumptions C77_copy_refuted.
Print Assumptions C77_moved_solver_refuted.
