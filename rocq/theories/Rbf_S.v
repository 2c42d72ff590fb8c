(** Vocabulary of C28. *)
From Coq Require Import Reals Arith.
From Verif Require Import RSum Mat Rbf_M.
Open Scope R_scope.

(** no nonzero trend function vanishes on all training points *)
Definition trend_full_rank (nx nt : nat) (deg : degree) (xt : nat -> vec) : Prop := forall (a : R) (b : vec),
  match deg with
  | NoPoly => True
  | Constant => (forall i, (i < nt)%nat -> a = 0) -> a = 0
  | Linear => (forall i, (i < nt)%nat -> a + rsum nx (fun k => b k * xt i k) = 0) -> a = 0 /\ forall k, (k < nx)%nat -> b k = 0
  end.
