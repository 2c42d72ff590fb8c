(** Vocabulary of the properties of the mixture of experts. *)
From Coq Require Import Reals List.
From Verif Require Import RSum Mat.
Open Scope R_scope.
(** the spectral norm: the least c >= 0 with |M x| <= c |x| for every x *)
Definition is_spectral_norm (n : nat) (M : nat -> nat -> R) (c : R) : Prop :=
  0 <= c /\ (forall x : vec, dot n (mv n M x) (mv n M x) <= c ^ 2 * dot n x x) /\
  forall d, 0 <= d -> (forall x : vec, dot n (mv n M x) (mv n M x) <= d ^ 2 * dot n x x) -> c <= d.
(** sum of squared validation errors *)
Definition sq_error (n : nat) (expected actual : nat -> R) : R := rsum n (fun i => (expected i - actual i) ^ 2).
(** at this point the weighted densities of the k clusters are non-negative and not all zero *)
Definition live (k : nat) (w rv : nat -> R) : Prop :=
  (forall j, (j < k)%nat -> 0 <= w j * rv j) /\ exists j, (j < k)%nat /\ 0 < w j * rv j.
Definition mean (n : nat) (e : nat -> R) : R := rsum n e / INR n.
(** sum of squared deviations from the mean *)
Definition spread (n : nat) (e : nat -> R) : R := dot n (fun i => e i - mean n e) (fun i => e i - mean n e).
