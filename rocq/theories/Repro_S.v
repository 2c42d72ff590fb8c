(** Specification for property C121: functions that are affine in each coordinate, and the degrees of
    freedom that represent them. *)
From Coq Require Import Reals ZArith Arith Bool List.
From Verif Require Import RSum Index_M Rmtb_M Rmtb_S.
Import ListNotations.
Open Scope R_scope.

(** the increase of [f] when coordinate [k] goes from 0 to 1; for a function affine in coordinate k this
    is its partial derivative there *)
Definition slope (f : (nat -> R) -> R) (k : nat) (x : nat -> R) : R := f (upd x k 1) - f (upd x k 0).
(** [f] depends on the first [nx] coordinates only and is affine in each of them when the others are kept
    (sums of products of distinct coordinates: constants, linear functions, x0 x1, ...) *)
Definition multi_affine (nx : nat) (f : (nat -> R) -> R) : Prop :=
  (forall x y, (forall k, (k < nx)%nat -> x k = y k) -> f x = f y) /\
  (forall k x z, (k < nx)%nat -> f (upd x k z) = f (upd x k 0) + slope f k x * z).

(** Greville abscissa of basis function [i]: the average of its order - 1 inner knots *)
Definition greville (o nc i : nat) : R := rsum (o - 1) (fun l => uniform_knots o nc (Z.of_nat (i + 1 + l))) / INR (o - 1).
(** B-splines: the control value of [f] is its value at the Greville point of the control point *)
Definition greville_values (orders ncps : list nat) (lo up : nat -> R) (f : (nat -> R) -> R) (j : nat) : R :=
  f (fun k => lo k + (up k - lo k) * greville (nth k orders 0%nat) (nth k ncps 0%nat) (nth k (expand_index ncps j) 0%nat)).

(** Hermite elements: degree of freedom (flags, vertex): the derivative of [f] in the flagged coordinates, in units
    of half the element width, at the grid vertex *)
Fixpoint mixed_slope (d : nat) (flags : list nat) (h : nat -> R) (f : (nat -> R) -> R) (x : nat -> R) : R :=
  match flags with
  | [] => f x
  | g :: r => if Nat.eqb g 0 then mixed_slope (S d) r h f x
              else h d * (mixed_slope (S d) r h f (upd x d 1) - mixed_slope (S d) r h f (upd x d 0))
  end.
Definition vertex_values (nelems : list nat) (lo up : nat -> R) (f : (nat -> R) -> R) (j : nat) : R :=
  let nv := prodl (map S nelems) in
  let flags := expand_index (map (fun _ => 2%nat) nelems) (j / nv) in
  let vs := expand_index (map S nelems) (j mod nv) in
  mixed_slope 0 flags (fun k => (up k - lo k) / INR (nth k nelems 0%nat) / 2) f
    (fun k => lo k + (up k - lo k) * (INR (nth k vs 0%nat) / INR (nth k nelems 0%nat))).
