(** Division of the knot points 0..N into blocks [a, b). *)
From Coq Require Import List ZArith Bool Reals.
Import ListNotations.
Local Open Scope Z_scope.

Definition inb (k : Z) (b : Z * Z) : bool := (fst b <=? k) && (k <? snd b).
(** each knot point lies in exactly one block, and no block goes outside *)
Definition exact_cover (N : Z) (bs : list (Z * Z)) : Prop :=
  (forall k, 0 <= k <= N -> length (filter (inb k) bs) = 1%nat) /\
  (forall k b, In b bs -> inb k b = true -> 0 <= k <= N).
(** boundaries from 0 to N + 1, none before its predecessor *)
Definition valid_inds (N : Z) (l : list Z) : Prop :=
  (2 <= length l)%nat /\ nth 0 l (-1) = 0 /\ last l (-1) = N + 1 /\
  forall i a b, nth_error l i = Some a -> nth_error l (S i) = Some b -> a <= b.
