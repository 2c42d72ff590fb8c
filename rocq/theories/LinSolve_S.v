(** Vocabulary of C55 and C86. *)
From Coq Require Import Reals Arith List.
From Verif Require Import RSum Mat.
Open Scope R_scope.
(** x and y agree on the first n entries; x solves A x = b *)
Definition same (n : nat) (x y : vec) : Prop := forall i, (i < n)%nat -> x i = y i.
Definition solves (n : nat) (A : mat) (b x : vec) : Prop := forall i, (i < n)%nat -> mv n A x i = b i.
(** sparse LU solves lower triangular systems with non-zero diagonal *)
Definition lu_contract (lu : nat -> mat -> vec -> vec) : Prop := forall n M r, (forall i j, (i < n)%nat -> (i < j)%nat -> M i j = 0) -> (forall i, (i < n)%nat -> M i i <> 0) -> solves n M r (lu n M r).
(** the direct solver solves symmetric positive definite systems *)
Definition direct_contract (direct : nat -> mat -> vec -> vec) : Prop := forall n M r, msym n M -> mpd n M -> solves n M r (direct n M r).
(** rows dominated by their diagonal with ratio q *)
Definition dominant (n : nat) (A : mat) (q : R) : Prop := forall i, (i < n)%nat -> A i i <> 0 /\ rsum n (fun j => if Nat.eqb j i then 0 else Rabs (A i j)) <= q * Rabs (A i i).
(** error of x against the solution s in the largest entry is at most m *)
Definition err_le (n : nat) (x s : vec) (m : R) : Prop := forall i, (i < n)%nat -> Rabs (x i - s i) <= m.
(** the quadratic form that the solution of a symmetric positive definite system minimises *)
Definition energy (n : nat) (A : mat) (b x : vec) : R := dot n x (mv n A x) / 2 - dot n b x.
(** a smoother leaves solutions of symmetric positive definite systems alone *)
Definition fixes_solutions (smooth : nat -> mat -> vec -> vec -> vec) : Prop := forall n A b x, msym n A -> mpd n A -> solves n A b x -> same n (smooth n A b x) x.
(** the columns of P are independent *)
Definition independent (n m : nat) (P : mat) : Prop := forall c, (forall i, (i < n)%nat -> mv m P c i = 0) -> forall j, (j < m)%nat -> c j = 0.
(** a sequence of transfer operators, each a pair of row count and matrix, finest first, down to size [last]: sizes chain and columns are independent *)
Fixpoint chained (ops : list (nat * mat)) (last : nat) : Prop :=
  match ops with nil => True | cons (n, P) r => independent n (match r with nil => last | cons (m, _) _ => m end) P /\ chained r last end.
(** coarsest vector carried to the finest level *)
Fixpoint to_finest (ops : list (nat * mat)) (last : nat) (y : vec) : vec :=
  match ops with nil => y | cons (n, P) r => mv (match r with nil => last | cons (m, _) _ => m end) P (to_finest r last y) end.
Definition finest (ops : list (nat * mat)) (last : nat) : nat := match ops with nil => last | cons (n, _) _ => n end.
