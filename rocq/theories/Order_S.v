(** Vocabulary of C104 (see also [reorder] in Het_S.v: a reordering of the first n indices). *)
From Coq Require Import Reals Arith List.
From Verif Require Import RSum Mat Krg_M Het_S.
Open Scope R_scope.
(** singular values of a triangular matrix are determined by its Gram matrix G'G *)
Definition rcond_gram (rcond : nat -> mat -> R) : Prop := forall p G G',
  (forall i j, (i < p)%nat -> (j < i)%nat -> G i j = 0) -> (forall i j, (i < p)%nat -> (j < i)%nat -> G' i j = 0) ->
  (forall i j, (i < p)%nat -> (j < p)%nat -> rsum p (fun k => G k i * G k j) = rsum p (fun k => G' k i * G' k j)) -> rcond p G = rcond p G'.
(** the condition number of a matrix does not depend on the order of its rows *)
Definition cond_rows (condF : nat -> nat -> mat -> R) : Prop := forall n p F F' f, reorder n f ->
  (forall i j, (i < n)%nat -> (j < p)%nat -> F' i j = F (f i) j) -> condF n p F' = condF n p F.
(** same outcome of a likelihood evaluation: same value, process variance and trend coefficients, or same failure *)
Definition same_outcome (p : nat) (o o' : rlf) : Prop :=
  match o, o' with
  | Fit v pr, Fit v' pr' => v' = v /\ p_sigma2 pr' = p_sigma2 pr /\ forall j, (j < p)%nat -> p_beta pr' j = p_beta pr j
  | BadTheta, BadTheta => True
  | IllF, IllF => True
  | _, _ => False
  end.
