(** Model of smt/utils/linear_solvers.py: StationarySolver (316-405), MultigridSolver (408-545), get_solver (30-54), _clone (118-121).
    Simplifications: doubles are reals; sparse matrices are their entries; splu / SuperLU are arbitrary functions
    solving non-singular systems; printing is modelled in Printer_M.v. *)
From Coq Require Import Reals Arith Bool List String.
From Verif Require Import RSum Mat.
Import ListNotations.
Open Scope R_scope.

Section Solvers.
Variable lu : nat -> mat -> vec -> vec.  (* scipy.sparse.linalg.splu(M).solve(r) of the smoother *)
Variable direct : nat -> mat -> vec -> vec.  (* DirectSolver on the coarsest level *)
(** 351-373: _split_mtx("diag"), _split_mtx("lower") *)
Definition split_diag (A : mat) : mat := fun i j => if Nat.eqb i j then A i j else 0.
Definition split_lower (A : mat) : mat := fun i j => if Nat.ltb j i then A i j else 0.
Definition residual (n : nat) (A : mat) (b x : vec) : vec := fun i => b i - mv n A x i.
(** 375-378 with 335-339: x + damping / diag * (b - A x) *)
Definition jacobi (n : nat) (A : mat) (w : R) (b x : vec) : vec := fun i => x i + w / A i i * residual n A b x i.
(** 341-348: lower + 1/damping * diag *)
Definition gs_matrix (A : mat) (w : R) : mat := fun i j => split_lower A i j + split_diag A i j / w.
(** 380-383 with 341-348 *)
Definition gs (n : nat) (A : mat) (w : R) (b x : vec) : vec :=
  let d := lu n (gs_matrix A w) (residual n A b x) in fun i => x i + d i.
Inductive kind := GS | Jacobi.
Definition step (k : kind) (n : nat) (A : mat) (w : R) (b x : vec) : vec := match k with GS => gs n A w b x | Jacobi => jacobi n A w b x end.
(** 385-405: ilimit iterations *)
Fixpoint iterate (k : kind) (n : nat) (A : mat) (w : R) (b : vec) (ilimit : nat) (x : vec) : vec :=
  match ilimit with O => x | S m => iterate k n A w b m (step k n A w b x) end.

(** ** multigrid.  A level: its size n and the operator to the next level (n x n' ) *)
Record mglevel := { ml_n : nat; ml_P : mat; ml_next : nat }.
(** 433-434: P' A P *)
Definition galerkin (l : mglevel) (A : mat) : mat := mm (ml_n l) (mm (ml_n l) (tr (ml_P l)) A) (ml_P l).
(** 424-447: the levels from the row counts and matrices of the transfer operators, finest first; last is the size of the coarsest level *)
Fixpoint mg_setup (ops : list (nat * mat)) (last : nat) : list mglevel :=
  match ops with
  | [] => []
  | (n, P) :: r => {| ml_n := n; ml_P := P; ml_next := match r with [] => last | (m, _) :: _ => m end |} :: mg_setup r last
  end.
Variable smooth : nat -> mat -> vec -> vec -> vec.  (* solver._solve(rhs, sol) *)
(** one pass of _restrict / _smooth_and_restrict down, _coarse_solve, _smooth_and_interpolate up (457-499, 513-533): from the stored
    vectors of all levels (finest first) and the right-hand side of the finest to the new stored vectors *)
Fixpoint cycle (pre : bool) (levels : list mglevel) (last : nat) (A : mat) (b : vec) (sols : list vec) : list vec :=
  match levels with
  | [] => [direct last A b]
  | l :: rest =>
      let n := ml_n l in
      let x := match sols with [] => fun _ => 0 | s :: _ => s end in
      let x := if pre then smooth n A b x else x in
      let rc := mv n (tr (ml_P l)) (residual n A b x) in
      let coarse := cycle pre rest last (galerkin l A) rc (tl sols) in
      let e := match coarse with [] => fun _ => 0 | s :: _ => s end in
      smooth n A b (fun i => x i + mv (ml_next l) (ml_P l) e i) :: coarse
  end.
(** 501-545: one pass without pre-smoothing, then mg_cycles passes with it.  The vectors of the previous call are the start *)
Fixpoint cycles (k : nat) (levels : list mglevel) (last : nat) (A : mat) (b : vec) (sols : list vec) : list vec :=
  match k with O => sols | S m => cycles m levels last A b (cycle true levels last A b sols) end.
Definition mg_solve (mg_cycles : nat) (levels : list mglevel) (last : nat) (A : mat) (b : vec) (sols : list vec) : list vec :=
  cycles mg_cycles levels last A b (cycle false levels last A b sols).
(** the stored vectors of a solver object set up (427-429, 436-437: all zero) and then called on each of [calls]: nothing resets them *)
Definition mg_history (mg_cycles : nat) (ops : list (nat * mat)) (last : nat) (A : mat) (calls : list vec) : list vec :=
  fold_left (fun st b => mg_solve mg_cycles (mg_setup ops last) last A b st) calls (repeat (fun _ : nat => 0) (S (List.length ops))).
(** what the next call returns: orig_sol[:] = mg_sol[0] (543) *)
Definition mg_call (mg_cycles : nat) (ops : list (nat * mat)) (last : nat) (A : mat) (calls : list vec) (b : vec) : vec :=
  hd (fun _ => 0) (mg_solve mg_cycles (mg_setup ops last) last A b (mg_history mg_cycles ops last A calls)).
End Solvers.
(** 133-135 with 115-116: NullSolver inherits a _solve that does nothing *)
Definition null : nat -> mat -> vec -> vec -> vec := fun n A b x => x.
(** 385-405 as a smoother *)
Definition stationary (lu : nat -> mat -> vec -> vec) (k : kind) (w : R) (ilimit : nat) : nat -> mat -> vec -> vec -> vec := fun n A b x => iterate lu k n A w b ilimit x.


(** ** solver objects *)
Inductive sclass := CDenseLU | CDenseChol | CDirect | CKrylov | CStationary | CMultigrid | CNull.
(** a solver: its class and the option that selects its method (alg, pc, solver; None for the Python value None or no such option) *)
Record solver := { s_class : sclass; s_opt : option string; s_limit : nat }.
(** options after __init__ without arguments: 192-193, 228-239, 317-321, 409-417 *)
Definition default (c : sclass) : solver :=
  match c with
  | CDirect => {| s_class := c; s_opt := Some "lu"%string; s_limit := 0 |}
  | CKrylov => {| s_class := c; s_opt := None; s_limit := 100 |}
  | CStationary => {| s_class := c; s_opt := Some "gs"%string; s_limit := 10 |}
  | CMultigrid => {| s_class := c; s_opt := Some "null"%string; s_limit := 0 |}
  | _ => {| s_class := c; s_opt := None; s_limit := 0 |}
  end.
Definition with_opt (c : sclass) (o : string) : solver := {| s_class := c; s_opt := Some o; s_limit := s_limit (default c) |}.
(** 30-54 for a name; None is what Python returns when no branch applies *)
Definition get_solver (s : string) : option solver :=
  if String.eqb s "dense-lu" then Some (default CDenseLU) else if String.eqb s "dense-chol" then Some (default CDenseChol)
  else if String.eqb s "krylov-dense" then Some (with_opt CKrylov "dense")
  else if String.eqb s "lu" || String.eqb s "ilu" then Some (with_opt CDirect s)
  else if String.eqb s "krylov" then Some (default CKrylov)
  else if String.eqb s "krylov-lu" then Some (with_opt CKrylov "lu")
  else if String.eqb s "krylov-mg" then Some (with_opt CKrylov "mg")
  else if String.eqb s "gs" || String.eqb s "jacobi" then Some (with_opt CStationary s)
  else if String.eqb s "mg" then Some (default CMultigrid)
  else if String.eqb s "null" then Some (default CNull) else None.
(** 14-27 *)
Definition valid_solvers : list string := ["krylov-dense"; "dense-lu"; "dense-chol"; "lu"; "ilu"; "krylov"; "krylov-lu"; "krylov-mg"; "gs"; "jacobi"; "mg"; "null"]%string.
(** 118-121: the clone is updated with its own options *)
Definition clone (s : solver) : solver := default (s_class s).
(** 246-257: the preconditioner of a Krylov solver; None: no preconditioning *)
Definition preconditioner (s : solver) : option solver := match s_opt s with Some o => get_solver o | None => None end.
(** 424-425: the smoother of a multigrid solver *)
Definition smoother (s : solver) : option solver := match s_opt s with Some o => option_map clone (get_solver o) | None => None end.
