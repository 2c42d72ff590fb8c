(** Vocabulary of C119. *)
From Coq Require Import Reals Arith.
From Verif Require Import RSum Mat Kernels_M Krg_M Krg_S.
Open Scope R_scope.
(** the kernels s2, standardised with the N points X2, and s, standardised with the n points X, are the same function of the raw inputs *)
Definition same_correlation (nx n : nat) (s : kspec) (X : nat -> vec) (N : nat) (s2 : kspec) (X2 : nat -> vec) : Prop :=
  forall a b : vec, kf s2 nx (q_std N X2 a) (q_std N X2 b) = kf s nx (q_std n X a) (q_std n X b).
(** the first n points of a larger training set *)
Definition extends (n N : nat) (noise : vec) (X : nat -> vec) (y noise2 : vec) (X2 : nat -> vec) (y2 : vec) : Prop :=
  (n <= N)%nat /\ forall i, (i < n)%nat -> X2 i = X i /\ y2 i = y i /\ noise2 i = noise i.
(** hyperparameters that stand for the same kernel when the standard deviations of the inputs change from sc to sc2 *)
Definition rescaled (c : corr) (theta sc sc2 : vec) : vec := fun j => match c with SquarExp => theta j * (sc2 j / sc j) ^ 2 | _ => theta j * (sc2 j / sc j) end.
