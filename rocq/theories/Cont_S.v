(** Vocabulary of C125: a function of the query point is continuous at x (n coordinates). *)
From Coq Require Import Reals Arith.
From Verif Require Import RSum Mat.
Open Scope R_scope.

Definition continuous_at (n : nat) (f : vec -> R) (x : vec) : Prop :=
  forall eps, 0 < eps -> exists delta, 0 < delta /\ forall y, (forall k, (k < n)%nat -> Rabs (y k - x k) < delta) -> Rabs (f y - f x) < eps.
