(** Model of the solver objects of smt/utils/linear_solvers.py as smt/surrogate_models/rmts.py calls them: DenseCholeskySolver (137-163), DenseLUSolver (166-188),
    DirectSolver (191-224), KrylovSolver (227-313), and the dispatch to StationarySolver, MultigridSolver and NullSolver of LinSolve_M; rmts.py 294-387 with the
    argument array of the solver kept.  The callers ignore the returned value: what counts is what is left in the array they pass.
    Simplifications: doubles are reals; SuperLU, ilu, LAPACK's LU and the Krylov methods are arbitrary functions; the printer is not modelled. *)
From Coq Require Import Reals Arith Bool List String.
From Verif Require Import RSum Mat Tri_M LineSearch_M LinSolve_M RmtsTrain_M.
Import ListNotations.
Open Scope R_scope.

(** the type of the matrix given to _setup *)
Inductive storage := NdArray | SparseMatrix.
(** what _setup and then _solve(rhs, sol) leave in the array sol, or the exception: AssertionError (171, 200), AttributeError (mtx.A of an ndarray at 141,
    scipy.sparse.find etc. on one are not modelled), LinAlgError of cholesky (147) *)
Inductive sresult := Left (sol : vec) | RAssertion | RAttribute | RLinAlg.

Section Calls.
(** SuperLU on sparse systems (206, 222), incomplete LU (208-211), LAPACK lu_factor / lu_solve (176, 186); cg with the preconditioner, from the start vector (300-311);
    the triangular LU of the Gauss-Seidel step (346-348) *)
Variables (splu spilu lapack_lu gs_lu : nat -> mat -> vec -> vec).
Variable cg : option solver -> nat -> mat -> vec -> vec -> vec.
(** whether solve_triangular(..., overwrite_b=True) writes its result into the array passed: SciPy does when the array is contiguous and copies otherwise, so for
    the column d_sol[:, ind_y] (rmts.py 333) this holds with one output and fails with several *)
Variable in_place : bool.

(** 137-163; scipy.linalg.cholesky gives the upper factor, computed from the upper triangle *)
Definition dense_chol (n : nat) (st : storage) (A : mat) (rhs sol : vec) : sresult :=
  match st with
  | NdArray => RAttribute
  | SparseMatrix =>
    match cholesky n (tr A) with
    | None => RLinAlg
    | Some L =>
        let upper := tr L in
        let sol := rhs in
        let sol := if in_place then solve_triangular n (tr upper) sol true else sol in
        let sol := if in_place then solve_triangular n upper sol false else sol in Left sol
    end
  end.
(** 166-188 *)
Definition dense_lu (n : nat) (st : storage) (A : mat) (rhs sol : vec) : sresult :=
  match st with NdArray => Left (lapack_lu n A rhs) | SparseMatrix => RAssertion end.
(** 191-224 *)
Definition direct_lu (ilu : bool) (n : nat) (st : storage) (A : mat) (rhs sol : vec) : sresult :=
  match st with NdArray => RAssertion | SparseMatrix => Left ((if ilu then spilu else splu) n A rhs) end.

(** _setup(A) and _solve(rhs, sol) of the solver object s: 241-313 for the Krylov solver (the preconditioner is set up on the same matrix and not called before that
    succeeds: a sparse matrix suits all of them), 385-405 with damping 1 (320), 419-545 with mg_matrices = [] (rmts.py 330, 571) and no cycles (412) *)
Definition solver_call (s : solver) (n : nat) (st : storage) (A : mat) (rhs sol : vec) : sresult :=
  match s_class s with
  | CDenseLU => dense_lu n st A rhs sol
  | CDenseChol => dense_chol n st A rhs sol
  | CDirect => direct_lu (match s_opt s with Some o => String.eqb o "ilu" | None => false end) n st A rhs sol
  | CKrylov => Left (cg (preconditioner s) n A rhs sol)
  | CStationary => Left (iterate gs_lu (match s_opt s with Some o => if String.eqb o "jacobi" then Jacobi else GS | None => GS end) n A 1 rhs (s_limit s) sol)
  | CMultigrid => match direct_lu false n st A rhs sol with Left _ => Left (mg_call splu null 0 [] n A [] rhs) | e => e end
  | CNull => Left (null n A rhs sol)
  end.
End Calls.

(** ** rmts.py 294-387 with the solver called through its array *)
Section Newton.
Variables (n : nat) (H : mat) (blocks : list block) (yt : nat -> nat -> R).
(** solver._setup(mtx); solver._solve(rhs, d_sol) *)
Variable run : mat -> vec -> vec -> sresult.
Variable search : vec -> vec -> (vec -> R) -> (vec -> vec) -> option vec.
Inductive outcome := Done (sol d_sol : vec) (mtx : option mat) | Failed (e : sresult) | NoPoint.
(** 317-353: [fuel] iterations left; d_sol is the array of the previous iterations *)
Fixpoint newton_run (p : nat) (tol : R) (fuel : nat) (sol d_sol : vec) (mtx : option mat) : outcome :=
  match fuel with
  | O => Done sol d_sol mtx
  | S f =>
    if Rlt_dec tol (opt_norm n H blocks p yt sol) then
      let A := opt_hess n H blocks p yt sol in
      match run A (fun k => - opt_grad n H blocks p yt sol k) d_sol with
      | Left d =>
          match search sol d (opt_func n H blocks p yt) (opt_grad n H blocks p yt) with
          | None => NoPoint
          | Some sol' => newton_run p tol f sol' d (Some A)
          end
      | e => Failed e
      end
    else Done sol d_sol mtx
  end.
(** 355-387 and 443-446: both runs start with a fresh d_sol of zeros (303); reading self.mtx fails when it was never assigned *)
Inductive trained := TSol (sol : vec) (mtx : mat) | TAttribute | TSolver (e : sresult) | TNoPoint.
Definition train_run (p maxiter : nat) (tol : R) : trained :=
  match newton_run 2 tol 1 (fun _ => 0) (fun _ => 0) None with
  | Failed e => TSolver e
  | NoPoint => TNoPoint
  | Done sol _ mtx =>
      match newton_run p tol maxiter sol (fun _ => 0) mtx with
      | Failed e => TSolver e
      | NoPoint => TNoPoint
      | Done sol _ (Some mtx) => TSol sol mtx
      | Done _ _ None => TAttribute
      end
  end.
End Newton.
(** rmts.py 570-580: one column of dw_dyt, before the product with dy_dw: the solver's array, times -1 *)
Definition derivative_column (n : nat) (run : mat -> vec -> vec -> sresult) (mtx : mat) (rhs : vec) : option vec :=
  match run mtx rhs (fun _ => 0) with Left d => Some (fun k => d k * -1) | _ => None end.
