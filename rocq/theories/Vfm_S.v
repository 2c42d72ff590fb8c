(** Vocabulary of the properties of variable-fidelity modelling. *)
From Coq Require Import Reals List.
From Verif Require Import RSum Vfm_M.
Open Scope R_scope.
(** the trained bridge reproduces its training values / derivatives *)
Definition interpolating (f : factory) : Prop := forall d data dd m, f d data dd = Some m -> forall x y, In (x, y) data -> predict m x = y.
Definition gradient_matching (nx : nat) (f : factory) : Prop := forall d data dd m, f d data (Some dd) = Some m ->
  forall x y dy, In ((x, y), dy) (combine data dd) -> forall i, (i < nx)%nat -> dpredict m i x = dy i.
(** predicted derivatives are partial derivatives of predicted values at x *)
Definition differentiable_at (m : model) (k : nat) (x : point) : Prop := is_partial (predict m) x k (dpredict m k x).
