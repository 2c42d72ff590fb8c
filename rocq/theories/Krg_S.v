(** Contracts of the numpy/scipy routines used by kriging, and the vocabulary of C34-C38, C78, C79. *)
From Coq Require Import Reals Arith.
From Verif Require Import RSum Mat Kernels_M Krg_M.
Open Scope R_scope.

(** economic QR: A = Q G, orthonormal columns, G upper triangular *)
Definition qr_contract (qr : nat -> nat -> mat -> mat * mat) : Prop := forall n p A, (p <= n)%nat ->
  let (Q, G) := qr n p A in
  (forall i j, (i < p)%nat -> (j < p)%nat -> rsum n (fun a => Q a i * Q a j) = if Nat.eqb i j then 1 else 0) /\
  (forall a j, (a < n)%nat -> (j < p)%nat -> A a j = rsum p (fun k => Q a k * G k j)) /\
  (forall i j, (i < p)%nat -> (j < i)%nat -> G i j = 0).
(** a singular (triangular) matrix has a zero singular value *)
Definition rcond_contract (rcond : nat -> mat -> R) : Prop := forall p G, (forall i j, (i < p)%nat -> (j < i)%nat -> G i j = 0) ->
  (exists x : vec, (exists i, (i < p)%nat /\ x i <> 0) /\ forall i, (i < p)%nat -> mv p G x i = 0) -> rcond p G = 0.

(** non-negative hyperparameters, and the kernels allowed with PLS (kpls.py 26-33) *)
Definition k_ok (s : kspec) (nx : nat) : Prop :=
  match s with
  | KStd c theta => c <> ActExp /\ forall j, (j < nx)%nat -> 0 <= theta j
  | KPls c ncomp co theta => (c = AbsExp \/ c = SquarExp) /\ forall l, (l < ncomp)%nat -> 0 <= theta l
  end.
(** mean squared error (in units of the process variance) of the linear predictor w'y of the value at a
    point with correlations [r] to the data, for data correlation matrix [Rm] *)
Definition mse (n : nat) (Rm : mat) (r w : vec) : R := dot n w (mv n Rm w) - 2 * dot n w r + 1.
(** unbiased for every trend: F'w = f *)
Definition unbiased (n p : nat) (F : mat) (f w : vec) : Prop := forall j, (j < p)%nat -> rsum n (fun a => F a j * w a) = f j.
(** best linear unbiased predictor *)
Definition blup (n p : nat) (Rm F : mat) (r f w : vec) : Prop :=
  unbiased n p F f w /\ forall w', unbiased n p F f w' -> mse n Rm r w <= mse n Rm r w'.
(** generalised least squares: b is optimal if every other b' has a larger residual in the R^-1 norm *)
Definition gls_residual (n p : nat) (Rm F : mat) (y b : vec) (v : R) : Prop :=
  exists g : vec, (forall i, (i < n)%nat -> mv n Rm g i = y i - mv p F b i) /\ v = dot n g (fun i => y i - mv p F b i).

(** ** the kriging problem of a training set: standardised query, its correlations with the data, the trend
    functions at the data and at the query, and the data correlation matrix *)
Definition q_std (nt : nat) (X : nat -> vec) (x : vec) : vec := fun c => (x c - mean nt (fun a => X a c)) / scale1 nt (fun a => X a c).
Definition q_corr (nx nt : nat) (s : kspec) (X : nat -> vec) (x : vec) : vec := fun i => kf s nx (q_std nt X x) (q_std nt X (X i)).
Definition q_trend (nx nt : nat) (po : poly) (X : nat -> vec) (x : vec) : vec := fun j => fvec po nx (q_std nt X x) j.
Definition d_trend (nx nt : nat) (po : poly) (X : nat -> vec) : mat := fun i j => fvec po nx (q_std nt X (X i)) j.
Definition d_corr (nx nt : nat) (s : kspec) (nugget : R) (noise : vec) (X : nat -> vec) : mat :=
  fun i j => if Nat.eqb i j then 1 + nugget + noise i else kf s nx (q_std nt X (X i)) (q_std nt X (X j)).
(** mean squared error of the linear predictor with weights w of the value at x, and best linear unbiased prediction *)
Definition q_mse (nx nt : nat) (s : kspec) (nugget : R) (noise : vec) (X : nat -> vec) (x w : vec) : R :=
  mse nt (d_corr nx nt s nugget noise X) (q_corr nx nt s X x) w.
Definition q_blup (nx nt : nat) (po : poly) (s : kspec) (nugget : R) (noise : vec) (X : nat -> vec) (x w : vec) : Prop :=
  blup nt (n_regr po nx) (d_corr nx nt s nugget noise X) (d_trend nx nt po X) (q_corr nx nt s X x) (q_trend nx nt po X x) w.
(** a condition number depends only on the entries of the matrix *)
Definition cond_ext (condF : nat -> nat -> mat -> R) : Prop :=
  forall n p F F', (forall i j, (i < n)%nat -> F i j = F' i j) -> condF n p F = condF n p F'.
(** the reduced likelihood value, if the computation produced one *)
Definition lik (o : rlf) : option R := match o with Fit v _ => Some v | _ => None end.
