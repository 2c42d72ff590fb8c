(** Vocabulary of C116: what a surrogate model predicts far away from its training data.
    Nothing here refers to how predictions are computed. *)
From Coq Require Import Reals Arith.
From Verif Require Import RSum Mat Kernels_M Krg_M.
Open Scope R_scope.
(** at least one of the nx inputs is at least D in absolute value *)
Definition away (nx : nat) (D : R) (x : vec) : Prop := exists c, (c < nx)%nat /\ D <= Rabs (x c).
(** f and g get arbitrarily close once any input is large enough, whatever the other inputs are *)
Definition limit_far (nx : nat) (f g : vec -> R) : Prop :=
  forall eps, 0 < eps -> exists D, forall x, away nx D x -> Rabs (f x - g x) < eps.
(** the correlation kernel reacts to every input *)
Definition sees_all (s : kspec) (nx : nat) : Prop :=
  match s with
  | KStd c theta => c <> ActExp /\ forall j, (j < nx)%nat -> 0 < theta j
  | KPls c ncomp co theta => (c = AbsExp \/ c = SquarExp) /\ (forall l, (l < ncomp)%nat -> 0 <= theta l) /\
      forall j, (j < nx)%nat -> exists l, (l < ncomp)%nat /\ 0 < theta l /\ co j l <> 0
  end.
(** b are the coefficients of the generalised least squares fit of y by the trend functions F, for correlations Rm *)
Definition gls_fit (n p : nat) (Rm F : mat) (y b : vec) : Prop :=
  exists g : vec, (forall i, (i < n)%nat -> mv n Rm g i = y i - mv p F b i) /\
                  (forall j, (j < p)%nat -> rsum n (fun i => F i j * g i) = 0).
