(** Textbook formulas of the correlation functions (SMT documentation, "Kriging"), independent of the
    model's distance tables and of its kernels. *)
From Coq Require Import Reals Arith.
From Verif Require Import RSum Kernels_M.
Open Scope R_scope.

Definition textbook1 (c : corr) (th x y : R) : R :=
  match c with
  | AbsExp => exp (- (th * Rabs (x - y)))
  | SquarExp => exp (- (th * (x - y) ^ 2))
  | Matern52 => (1 + sqrt 5 * th * Rabs (x - y) + 5 / 3 * th ^ 2 * (x - y) ^ 2) * exp (- sqrt 5 * th * Rabs (x - y))
  | Matern32 => (1 + sqrt 3 * th * Rabs (x - y)) * exp (- sqrt 3 * th * Rabs (x - y))
  | ActExp => 1
  end.
(** product over the dimensions, except act_exp: exp(-|A(x-y)|^2/2) with the rows of A stored one after
    the other in theta *)
Definition textbook (c : corr) (nx ns : nat) (theta x y : nat -> R) : R :=
  match c with
  | ActExp => exp (- (rsum ns (fun s => (rsum nx (fun j => theta (s * nx + j)%nat * (x j - y j))) ^ 2) / 2))
  | _ => rprod nx (fun j => textbook1 c (theta j) (x j) (y j))
  end.
