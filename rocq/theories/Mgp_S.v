(** Vocabulary of C97 - C100. *)
From Coq Require Import Reals Arith Bool List.
From Coquelicot Require Import Coquelicot.
From Verif Require Import RSum Mat Kernels_M Krg_M Krg_S LikGrad_S Mgp_M.
Open Scope R_scope.
(** scipy.linalg.solve: a solution, or LinAlgError exactly for singular matrices (required of symmetric matrices only) *)
Definition singular (n : nat) (M : mat) : Prop := exists z : vec, (exists i, (i < n)%nat /\ z i <> 0) /\ forall i, (i < n)%nat -> mv n M z i = 0.
Definition lsolve_contract (lsolve : nat -> mat -> vec -> option vec) : Prop :=
  (forall n M b x, lsolve n M b = Some x -> forall i, (i < n)%nat -> mv n M x i = b i) /\
  (forall n M b, (forall i j, (i < n)%nat -> (j < n)%nat -> M i j = M j i) -> (lsolve n M b = None <-> singular n M)).
(** the data are not reproduced by the trend alone *)
Definition data_not_trend (nx nt : nat) (po : poly) (X : nat -> vec) (y : vec) : Prop :=
  ~ exists b : vec, forall i, (i < nt)%nat -> ynorm nt y i = rsum (n_regr po nx) (fun j => fvec po nx (Xnorm nt X i) j * b j).
(** the hyperparameters, as an nx x nc matrix with theta[s nx + j] in row j and column s, have independent columns *)
Definition independent_directions (nx nc : nat) (theta : vec) : Prop :=
  forall b : vec, (forall j, (j < nx)%nat -> rsum nc (fun s => theta (s * nx + j)%nat * b s) = 0) -> forall s, (s < nc)%nat -> b s = 0.
Definition the (o : option R) : R := match o with Some v => v | None => 0 end.
Definition mse_of (o : option (R * R)) : R := match o with Some (_, v) => v | None => 0 end.
