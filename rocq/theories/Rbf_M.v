(** Model of smt/src/rbf/rbf.cpp 34-96 and smt/surrogate_models/rbf.py 60-215, one evaluation point
    and one output column at a time.  Simplifications: doubles are reals; flat buffers are rows
    (row stride num_dof); the "dense-lu" solver and numpy.linalg.inv are any functions meeting
    their contracts (hypotheses of the theorems). *)
From Coq Require Import Reals Arith Bool List.
From Verif Require Import RSum Mat.
Open Scope R_scope.

(** option poly_degree, rbf.py 43-49: values (-1, 0, 1) *)
Inductive degree := NoPoly | Constant | Linear.

Section Rbf.
Variables (nx nt : nat) (deg : degree) (d0 : vec) (xt : nat -> vec) (reg : R).
(** rbf.py 81-88 *)
Definition num_poly : nat := match deg with NoPoly => 0 | Constant => 1 | Linear => 1 + nx end.
Definition num_dof : nat := nt + num_poly.
(** rbf.cpp 38-46 *)
Definition rbf_radial (x : vec) (it : nat) : R :=
  let r2 := rsum nx (fun ix => ((x ix - xt it ix) / d0 ix) ^ 2) in exp (- r2).
(** rbf.cpp 34-61: row of compute_jac *)
Definition rbf_jac (x : vec) (j : nat) : R :=
  if Nat.ltb j nt then rbf_radial x j
  else match deg with
       | NoPoly => 0
       | Constant => 1
       | Linear => if Nat.eqb j nt then 1 else x (j - (nt + 1))%nat
       end.
(** rbf.cpp 63-96: row of compute_jac_derivs *)
Definition rbf_djac (kx : nat) (x : vec) (j : nat) : R :=
  if Nat.ltb j nt then
    let r2 := rsum nx (fun ix => ((x ix - xt j ix) / d0 ix) ^ 2) in
    let d := x kx - xt j kx in
    let dr2_dx := 2 * d / d0 kx ^ 2 in
    - exp (- r2) * dr2_dx
  else match deg with
       | NoPoly => 0
       | Constant => 0
       | Linear => if Nat.eqb j (nt + 1 + kx) then 1 else 0
       end.
(** rbf.py 112-115: the assignments to mtx, the second one overwriting the radial block *)
Definition rbf_mtx (i j : nat) : R :=
  (if Nat.ltb j nt then rbf_jac (xt j) i else if Nat.ltb i nt then rbf_jac (xt i) j else 0)
  + (if andb (Nat.eqb i j) (Nat.ltb i nt) then reg else 0).
(** rbf.py 119-120 *)
Definition rbf_rhs (yt : vec) (i : nat) : R := if Nat.ltb i nt then yt i else 0.
(** rbf.py 167, 194 *)
Definition rbf_value (sol x : vec) : R := dot num_dof (rbf_jac x) sol.
Definition rbf_derivative (sol : vec) (kx : nat) (x : vec) : R := dot num_dof (rbf_djac kx x) sol.
(** contract of the linear solver, rbf.py 124-130 *)
Definition rbf_solves (yt sol : vec) : Prop := forall i, (i < num_dof)%nat -> mv num_dof rbf_mtx sol i = rbf_rhs yt i.

(** rbf.py 134-152: attributes set by training.  With a cached operation that finds a stored result
    only the solution is restored; _new_train (106-132) also stores the matrix. *)
Record rbf_state := { st_sol : vec; st_mtx : option mat }.
Definition rbf_train (cached : option vec) (solver : mat -> vec -> vec) (yt : vec) : rbf_state :=
  match cached with
  | Some s => {| st_sol := s; st_mtx := None |}
  | None => {| st_sol := solver rbf_mtx (rbf_rhs yt); st_mtx := Some rbf_mtx |}
  end.
(** rbf.py 197-215; None is the AttributeError for the missing matrix *)
Definition rbf_output_derivative (inv : mat -> mat) (st : rbf_state) (x : vec) (it : nat) : option R :=
  match st_mtx st with
  | None => None
  | Some m => let dstates_dytl := inv m in Some (dot num_dof (fun a => dstates_dytl a it) (rbf_jac x))
  end.
End Rbf.
