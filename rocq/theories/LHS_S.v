(** Specification for optimised Latin hypercubes. *)
From Coq Require Import Reals Arith List Permutation.
From Verif Require Import RSum.
Import ListNotations.
Open Scope R_scope.

(** column [k] of an n-row plan, top to bottom *)
Definition column (n : nat) (X : nat -> nat -> R) (k : nat) : list R := map (fun i => X i k) (seq 0 n).
(** the criterion: p-th root of the sum over pairs of rows of distance^-p *)
Definition criterion_p (n d p : nat) (X : nat -> nat -> R) (c : R) : Prop :=
  0 <= c /\ c ^ p = rsum n (fun i => rsum i (fun j => / (sqrt (rsum d (fun k => (X i k - X j k) ^ 2)) ^ p))).
(** one point per slice of width 1/n in column k *)
Definition latin (n : nat) (X : nat -> nat -> R) (k : nat) : Prop :=
  (forall j, (j < n)%nat -> exists i, (i < n)%nat /\ INR j / INR n <= X i k < INR (S j) / INR n) /\
  (forall j i i', (j < n)%nat -> (i < n)%nat -> (i' < n)%nat -> INR j / INR n <= X i k < INR (S j) / INR n ->
     INR j / INR n <= X i' k < INR (S j) / INR n -> i = i').
