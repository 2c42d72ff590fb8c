(** Model of smt/surrogate_models/qp.py 40-150 and smt/surrogate_models/ls.py 45-110.
    Simplifications: doubles are reals; numpy.linalg.inv and the least-squares routine inside
    scikit-learn's LinearRegression are any functions meeting their contracts. *)
From Coq Require Import Reals Arith Bool List ZArith.
From Verif Require Import RSum Mat.
Import ListNotations.
Open Scope list_scope.
Open Scope R_scope.

(** qp.py 96 (and 125, 129): int(2*dim + 2 + i*dim - ((i+1)*i)/2 + (j - (i+2))); the float division
    by 2 is the quotient of twice the sum, truncated by int() *)
Definition qp_k (dim i j : nat) : nat :=
  let d := Z.of_nat dim in let i := Z.of_nat i in let j := Z.of_nat j in
  Z.to_nat (Z.quot (2 * (2 * d + 2 + i * d + (j - (i + 2))) - (i + 1) * i) 2).
(** scipy.special.binom(dim + 2, dim), qp.py 84 *)
Definition qp_napp (dim : nat) : nat := ((dim + 2) * (dim + 1) / 2)%nat.
(** qp.py 85-97: one row of M, as the sequence of assignments the code performs *)
Definition qp_row (dim : nat) (x : vec) : vec :=
  let M := fun _ : nat => 0 in
  let M := upd M 0 1 in
  let M := fold_left (fun M i => upd M i (x (i - 1)%nat)) (seq 1 dim) M in
  let M := fold_left (fun M i => upd M i (x (i - (dim + 1))%nat ^ 2)) (seq (dim + 1) dim) M in
  fold_left (fun M i => fold_left (fun M j => upd M (qp_k dim i j) (x i * x j)) (seq (i + 1) (dim - (i + 1))) M) (seq 0 (dim - 1)) M.
(** qp.py 150 *)
Definition qp_value (dim : nat) (coef x : vec) : R := dot (qp_napp dim) (qp_row dim x) coef.
(** qp.py 117-131, one evaluation point, one output *)
Definition qp_derivative (dim : nat) (coef : vec) (kx : nat) (x : vec) : R :=
  let linear_coef := coef (1 + kx)%nat in
  let quad_coef := 2 * coef (1 + dim + kx)%nat * x kx in
  let cross_coef := fold_left (fun c i =>
      if Nat.ltb kx i then c + coef (qp_k dim kx i) * x i
      else if Nat.ltb i kx then c + coef (qp_k dim i kx) * x i else c) (seq 0 dim) 0 in
  linear_coef + quad_coef + cross_coef.
(** qp.py 117-133 for n >= 1 points and ny outputs: [coef[..] * x[:, kx]] multiplies an array of ny
    entries by one of n entries; then reshape((n, ny)).  None is the ValueError. *)
Definition qp_derivatives (dim n ny : nat) (coef : nat -> vec) (kx : nat) (x : nat -> vec) : option (nat -> vec) :=
  if Nat.eqb ny 1 then Some (fun e _ => qp_derivative dim (fun a => coef a 0%nat) kx (x e))
  else if Nat.eqb n 1 then Some (fun _ o => qp_derivative dim (fun a => coef a o) kx (x 0%nat))
  else None (* sizes differ: broadcast error; sizes equal: reshape of n entries to n*ny *).
(** qp.py 51-58; None is the exception for too few points *)
Definition qp_train (inv : mat -> mat) (dim nt : nat) (xt : nat -> vec) (yt : vec) : option vec :=
  if Nat.ltb (2 * nt) ((dim + 1) * (dim + 2)) then None
  else
    let X : mat := fun e a => qp_row dim (xt e) a in
    let XtX : mat := mm nt (tr X) X in
    Some (mv (qp_napp dim) (inv XtX) (mv nt (tr X) yt)).

(** scikit-learn's LinearRegression.fit with fit_intercept (ls.py 55-56): least squares on centred
    data, intercept recovered from the means; [lstsq X y] is any least-squares routine *)
Definition mean (n : nat) (f : vec) : R := rsum n f / INR n.
Definition ls_fit (lstsq : nat -> nat -> mat -> vec -> vec) (nx nt : nat) (xt : nat -> vec) (yt : vec) : vec * R :=
  let xm := fun k => mean nt (fun e => xt e k) in
  let ym := mean nt yt in
  let coef := lstsq nt nx (fun e k => xt e k - xm k) (fun e => yt e - ym) in
  (coef, ym - dot nx xm coef).
(** ls.py 83 *)
Definition ls_value (nx : nat) (m : vec * R) (x : vec) : R := dot nx x (fst m) + snd m.
(** ls.py 105 *)
Definition ls_derivative (m : vec * R) (kx : nat) (x : vec) : R := 1 * fst m kx.
