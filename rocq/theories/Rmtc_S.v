(** Specification: cubic Hermite basis on [-1, 1] and tensor-product Hermite interpolation. *)
From Coq Require Import Reals Arith List.
From Verif Require Import RSum.
Import ListNotations.
Open Scope R_scope.

(** value at -1, value at 1, slope at -1, slope at 1 *)
Definition herm (k : nat) (s : R) : R :=
  match k with
  | 0%nat => (2 - 3 * s + s * s * s) / 4
  | 1%nat => (2 + 3 * s - s * s * s) / 4
  | 2%nat => (1 - s - s * s + s * s * s) / 4
  | _ => (-1 - s + s * s + s * s * s) / 4
  end.
(** [tensor_herm d n s v]: v maps n local degrees of freedom (one of 0..3 per dimension) to numbers *)
Fixpoint tensor_herm (n : nat) (d : nat) (s : nat -> R) (v : list nat -> R) : R :=
  match n with
  | O => v []
  | S m => rsum 4 (fun k => herm k (s d) * tensor_herm m (S d) s (fun l => v (k :: l)))
  end.
(** the matrix [b] is the two-sided inverse of the n x n matrix [a] *)
Definition is_inverse (n : nat) (a b : nat -> nat -> R) : Prop :=
  forall i j, (i < n)%nat -> (j < n)%nat ->
    rsum n (fun k => a i k * b k j) = (if Nat.eqb i j then 1 else 0) /\
    rsum n (fun k => b i k * a k j) = (if Nat.eqb i j then 1 else 0).
