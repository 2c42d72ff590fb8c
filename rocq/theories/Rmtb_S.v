(** Specification of B-splines: the textbook Cox-de Boor recursion, and tensor-product splines. *)
From Coq Require Import Reals ZArith Arith Bool List.
From Verif Require Import RSum.
Import ListNotations.
Open Scope R_scope.

(** [bspline kn k n t]: basis function number [n] of degree [k] on the knots [kn] *)
Fixpoint bspline (kn : Z -> R) (k : nat) (n : Z) (t : R) : R :=
  match k with
  | O => if Rle_dec (kn n) t then (if Rlt_dec t (kn (n + 1)%Z) then 1 else 0) else 0
  | S k' => (t - kn n) / (kn (n + Z.of_nat k)%Z - kn n) * bspline kn k' n t
            + (kn (n + Z.of_nat k + 1)%Z - t) / (kn (n + Z.of_nat k + 1)%Z - kn (n + 1)%Z) * bspline kn k' (n + 1)%Z t
  end.

(** uniform knots with [ncp - order + 1] intervals covering [0, 1] *)
Definition uniform_knots (order ncp : nat) (i : Z) : R := (IZR i - INR order + 1) / (INR ncp - INR order + 1).

(** value of the tensor-product spline with control values [c] (row-major in the control grid
    [ncps]) at parameters [t] of dimensions [d], [d+1], ...: nested sums, one per dimension *)
Fixpoint tensor_spline (orders ncps : list nat) (t : nat -> R) (d : nat) (c : nat -> R) : R :=
  match orders, ncps with
  | o :: os, n :: ns =>
      rsum n (fun i => bspline (uniform_knots o n) (o - 1) (Z.of_nat i) (t d)
                       * tensor_spline os ns t (S d) (fun k => c (i * fold_right Nat.mul 1 ns + k)%nat)%nat)
  | _, _ => c 0%nat
  end.
