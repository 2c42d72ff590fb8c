(** Vocabulary of C102. *)
From Coq Require Import Reals Arith ZArith List Permutation Sorted.
From Verif Require Import RSum Mat Gek_M.
Open Scope R_scope.

(** numpy argsort: a permutation of the indices that sorts the values (order of ties unspecified) *)
Definition argsort_contract (argsort : nat -> vec -> list nat) : Prop := forall n v,
  Permutation (argsort n v) (seq 0 n) /\ StronglySorted (fun i j => v i <= v j) (argsort n v).
(** pyDOE2's bbdesign(dim, center=1): levels -1, 0, 1, the last row is the centre *)
Definition bb_contract (bb : nat -> list vec) : Prop := forall dim, (3 <= dim)%nat ->
  (forall r j, In r (bb dim) -> -1 <= r j <= 1) /\ exists l r, bb dim = l ++ r :: nil /\ forall j, r j = 0.
(** first-order Taylor value at x of the function with value v and gradient g at x0 *)
Definition taylor (dim : nat) (x0 : vec) (v : R) (g : nat -> R) (x : vec) : R := v + rsum dim (fun j => g j * (x j - x0 j)).
(** x0 moved by h in coordinate k *)
Definition moved (x0 : vec) (k : nat) (h : R) (x : vec) : Prop := forall j, x j = x0 j + (if Nat.eqb j k then h else 0).
(** all derivatives were given *)
Definition all_given (dim : nat) (pts : deriv_data) : Prop := forall j, (j < dim)%nat -> pts j <> None.
