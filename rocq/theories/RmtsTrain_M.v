(** Model of the training part of smt/surrogate_models/rmts.py (147-450, 542-587).
    Simplifications: floats are reals; sparse matrices are functions on indices; one output column
    at a time (the loop over ind_y treats the columns independently) except where stated; the
    cached_operation wrapper and the printer have no effect on values; the linear solver is an
    arbitrary function (its contract is a hypothesis of the theorems that need it). *)
From Coq Require Import Reals ZArith Arith Bool List.
From Verif Require Import RSum Mat LineSearch_M Index_M Rmtb_M Rmtc_M.
Import ListNotations.
Open Scope list_scope.
Open Scope R_scope.

(** rmts.py 154-175: the weight stored with each approximation term.  [keys] are the keys of
    training_points[None] in insertion order; [c] is the local variable (None = not yet bound).
    The else branch computes grad_weight / nx and drops it (170). *)
Fixpoint approx_weights (grad_weight nx : R) (c : option R) (keys : list nat) : option (list (nat * R)) :=
  match keys with
  | [] => Some []
  | kx :: r =>
    let c := if Nat.eqb kx 0 then Some 1 else (let _ := grad_weight / nx in c) in
    match c with
    | None => None (* UnboundLocalError at 173 *)
    | Some w => match approx_weights grad_weight nx c r with
                | None => None | Some l => Some ((kx, w) :: l) end
    end
  end.

(** one entry of full_jac_dict: key, number of rows, Jacobian, weight *)
Record block := mkB { b_kx : nat; b_nt : nat; b_J : mat; b_c : R }.

Section Objective.
Variables (n : nat) (H : mat) (blocks : list block) (p : nat).
(** [yt kx t]: column of the training outputs, rmts.py 287-292 *)
Variable yt : nat -> nat -> R.
Definition resid (b : block) (sol : vec) (t : nat) : R := mv n (b_J b) sol t - yt (b_kx b) t.
(** rmts.py 228-238 *)
Definition opt_func (sol : vec) : R :=
  fold_left (fun func b => func + 1 / 2 * b_c b * rsum (b_nt b) (fun t => resid b sol t ^ p)) blocks
    (1 / 2 * dot n sol (mv n H sol)).
(** rmts.py 240-250 *)
Definition opt_grad (sol : vec) (k : nat) : R :=
  fold_left (fun g b => g + rsum (b_nt b) (fun t => 1 / 2 * b_c b * tr (b_J b) k t * INR p * resid b sol t ^ (p - 1))) blocks
    (mv n H sol k).
(** rmts.py 265-278 *)
Definition opt_hess (sol : vec) (i j : nat) : R :=
  fold_left (fun h b => h + rsum (b_nt b) (fun t => 1 / 2 * b_c b * tr (b_J b) i t *
      (INR p * (INR p - 1) * resid b sol t ^ (p - 2)) * b_J b t j)) blocks
    (H i j).
(** rmts.py 252-263: block [b], entry (k, t) *)
Definition opt_dgrad_dyt (sol : vec) (b : block) (k t : nat) : R :=
  - (1 / 2 * b_c b * tr (b_J b) k t * (INR p * (INR p - 1) * resid b sol t ^ (p - 2))).
(** rmts.py 280-285 *)
Definition opt_norm (sol : vec) : R := sqrt (dot n (opt_grad sol) (opt_grad sol)).
End Objective.

(** rmts.py 132-136 times regularization_weight (406-408) *)
Definition reg_hess (w : R) : mat := fun i j => (if Nat.eqb i j then 1 else 0) * w.
(** rmts.py 177-226, RMTB/RMTC alike: sq_mtx[kx] from the second-derivative Jacobian [D kx] (nq
    rows) and the widths; [volfrac] = elem_vol / total_vol *)
Definition sq_mtx (nq : nat) (D : nat -> mat) (width : nat -> R) (kx : nat) : mat :=
  fun i j => mm nq (tr (D kx)) (D kx) i j * width kx ^ 4.
Definition energy_hess (nx nq : nat) (D : nat -> mat) (width smoothness : nat -> R) (volfrac : R) : mat :=
  fun i j => rsum nx (fun kx => sq_mtx nq D width kx i j * (volfrac * smoothness kx / width kx ^ 4)).
(** rmts.py 405-414 *)
Definition full_hess (reg_w energy_w : R) (min_energy : bool) (E : mat) : mat :=
  if min_energy then fun i j => reg_hess reg_w i j + E i j * energy_w else reg_hess reg_w.
(** rmts.py 218-219: prod of the element widths over prod of the widths *)
Definition vol_fraction (nelems : list nat) (width : nat -> R) : R :=
  rprod (length nelems) (fun k => width k / INR (2 * nth k nelems 0%nat)) / rprod (length nelems) width.

(** rmts.py 138-145 at the quadrature points (199-210): second derivative in dimension kx of row q,
    as a function of the coefficient vector; sparse row [nnz] entries scattered to columns *)
Definition scatter (nnz : nat) (data : nat -> R) (col : nat -> Z) (j : nat) : R :=
  rsum nnz (fun inz => if Z.eqb (col inz) (Z.of_nat j) then data inz else 0).
Definition rmtb_energy_row (orders ncps nelems : list nat) (lo up : nat -> R) (kx q j : nat) : R :=
  let x := quad_point lo up (map (fun m => 2 * m)%nat nelems) q in
  scatter (prodl orders) (raw_data orders ncps lo up (S kx) (S kx) x) (raw_col orders ncps lo up (S kx) (S kx) x) j.
Definition rmtc_energy_row (nelems : list nat) (lo up : nat -> R) (kx q j : nat) : R :=
  let x := quad_point lo up (map (fun m => 2 * m)%nat nelems) q in
  scatter (nterm nelems) (rmtc_data nelems lo up (S kx) (S kx) x) (rmtc_col nelems lo up (S kx) (S kx) x) j.

(** rmtc.py 92-140 as a matrix (full_dof2coeff): column j is what the unit vector j is mapped to *)
Definition dof2coeff_mat (nelems : list nat) (inv : mat) : mat := fun c j => dof2coeff nelems inv (fun i => if Nat.eqb i j then 1 else 0) c.
(** rmts.py 138-145 and 167: Jacobian of the training points xt (rows) of kind kx (0: values, k + 1: derivatives in x_k), in terms of the
    degrees of freedom (RMTB: the coefficients themselves) *)
Definition rmtb_jac (orders ncps : list nat) (lo up : nat -> R) (kx : nat) (xt : nat -> vec) : mat :=
  fun t j => scatter (prodl orders) (raw_data orders ncps lo up kx 0 (xt t)) (raw_col orders ncps lo up kx 0 (xt t)) j.
Definition rmtc_jac (nelems : list nat) (lo up : nat -> R) (inv : mat) (kx : nat) (xt : nat -> vec) : mat :=
  mm (nelem nelems * nterm nelems) (fun t j => scatter (nterm nelems) (rmtc_data nelems lo up kx 0 (xt t)) (rmtc_col nelems lo up kx 0 (xt t)) j) (dof2coeff_mat nelems inv).
(** number of quadrature points (rmts.py 198) *)
Definition nquad (nelems : list nat) : nat := prodl (map (fun m => 2 * m)%nat nelems).

Section Newton.
Variables (n : nat) (H : mat) (blocks : list block) (yt : nat -> nat -> R).
(** linear solver: solve mtx rhs, rmts.py 326-330 *)
Variable solve : mat -> vec -> vec.
(** line search object called with 1.0 (336-339), possibly without result (None) *)
Variable search : vec -> vec -> (vec -> R) -> (vec -> vec) -> option vec.
(** rmts.py 294-353, one output: [fuel] = iterations left, state (sol, self.mtx);
    None = the line search did not deliver a point *)
Fixpoint newton (p : nat) (tol : R) (fuel : nat) (st : vec * option mat) : option (vec * option mat) :=
  match fuel with
  | O => Some st
  | S f =>
    let sol := fst st in
    if Rlt_dec tol (opt_norm n H blocks p yt sol) then
      let mtx := opt_hess n H blocks p yt sol in
      let d := solve mtx (fun k => - opt_grad n H blocks p yt sol k) in
      match search sol d (opt_func n H blocks p yt) (opt_grad n H blocks p yt) with
      | None => None
      | Some sol' => newton p tol f (sol', Some mtx)
      end
    else Some st
  end.
(** rmts.py 355-387: a p = 2, one-iteration start-up, then the user's approx_order *)
Definition rmts_solve (p maxiter : nat) (tol : R) : option (vec * option mat) :=
  match newton 2 tol 1 (fun _ => 0, None) with
  | None => None
  | Some st => newton p tol maxiter st
  end.
End Newton.

(** rmts.py 389-450: the training call; reading self.mtx (446) raises AttributeError when no Newton
    iteration has ever assigned it *)
Inductive train_result := Trained (sol : vec) (mtx : mat) | AttributeError | NoLineSearchResult.
Definition rmts_train (n : nat) (H : mat) (blocks : list block) (yt : nat -> nat -> R)
  (solve : mat -> vec -> vec) (search : vec -> vec -> (vec -> R) -> (vec -> vec) -> option vec)
  (p maxiter : nat) (tol : R) : train_result :=
  match rmts_solve n H blocks yt solve search p maxiter tol with
  | None => NoLineSearchResult
  | Some (sol, Some mtx) => Trained sol mtx
  | Some (_, None) => AttributeError
  end.
(** the default line search (line_search.py 119-128) as used at 336-339 *)
Definition backtracking_search (n fuel : nat) (x dx : vec) (func : vec -> R) (grad : vec -> vec) : option vec :=
  backtracking n x dx func grad (1 / 10000) fuel 1 (1 / 2).

(** rmts.py 542-587, one output, one block: dy/dyt row for prediction row [dy_dw] *)
Definition output_derivative (n : nat) (solve : mat -> vec -> vec) (mtx : mat) (blocks : list block) (p : nat)
  (yt : nat -> nat -> R) (sol : vec) (b : block) (dy_dw : vec) (t : nat) : R :=
  rsum n (fun j => dy_dw j * (solve mtx (fun k => opt_dgrad_dyt n p yt sol b k t) j * -1)).
