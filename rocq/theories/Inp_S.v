(** Specification for C108: the same data with the input variables in another order ([reorder] is in Het_S.v). *)
From Coq Require Import Reals Arith List.
From Verif Require Import RSum Mat Kernels_M Krg_M Het_S.
Open Scope R_scope.
(** variable c of the reordered problem is variable f c *)
Definition swap_in (f : nat -> nat) (x : vec) : vec := fun c => x (f c).
(** hyperparameters (one per input variable) or PLS coefficients (one row per input variable), reordered *)
Definition swap_k (f : nat -> nat) (s : kspec) : kspec :=
  match s with KStd c theta => KStd c (swap_in f theta) | KPls c ncomp co theta => KPls c ncomp (fun j => co (f j)) theta end.
(** singular values of a matrix do not depend on the order of its columns, and those of a triangular matrix are determined by G'G *)
Definition rcond_cols (rcond : nat -> mat -> R) : Prop := forall p G G' g, reorder p g ->
  (forall i j, (i < p)%nat -> (j < i)%nat -> G i j = 0) -> (forall i j, (i < p)%nat -> (j < i)%nat -> G' i j = 0) ->
  (forall i j, (i < p)%nat -> (j < p)%nat -> rsum p (fun k => G' k i * G' k j) = rsum p (fun k => G k (g i) * G k (g j))) -> rcond p G' = rcond p G.
Definition cond_cols (condF : nat -> nat -> mat -> R) : Prop := forall n p F F' g, reorder p g ->
  (forall i j, (i < n)%nat -> (j < p)%nat -> F' i j = F i (g j)) -> condF n p F' = condF n p F.
(** the likelihood has the same value (or fails in the same way); the trend coefficients are permuted by g *)
Definition same_outcome_cols (p : nat) (g : nat -> nat) (o o' : rlf) : Prop :=
  match o, o' with
  | Fit v pr, Fit v' pr' => v' = v /\ p_sigma2 pr' = p_sigma2 pr /\ forall j, (j < p)%nat -> p_beta pr' j = p_beta pr (g j)
  | BadTheta, BadTheta => True
  | IllF, IllF => True
  | _, _ => False
  end.
