(** Model of the loops over the outputs in smt/surrogate_models/rmts.py: 294-353 (_run_newton_solver), 355-387 (_solve), 389-450 (training),
    542-587 (_predict_output_derivatives).  One output at a time is RmtsTrain_M; here the outputs are treated in the order of the code, with
    the one attribute self.mtx they share.  Simplifications as in RmtsTrain_M (the linear solver and the line search are functions). *)
From Coq Require Import Reals Arith Bool List.
From Verif Require Import RSum Mat RmtsTrain_M.
Import ListNotations.
Open Scope list_scope.
Open Scope R_scope.

Section Multi.
Variables (n : nat) (H : mat) (blocks : list block).
Variable solve : mat -> vec -> vec.
Variable search : vec -> vec -> (vec -> R) -> (vec -> vec) -> option vec.

(** rmts.py 306-353: the loop over ind_y; [outs]: for every output its training outputs (_get_yt_dict, 287-292) and its column of sol;
    [mtx]: self.mtx.  None = a line search did not deliver a point *)
Fixpoint newton_all (p : nat) (tol : R) (maxiter : nat) (outs : list ((nat -> nat -> R) * vec)) (mtx : option mat) : option (list vec * option mat) :=
  match outs with
  | [] => Some ([], mtx)
  | (yt, sol) :: r =>
    match newton n H blocks yt solve search p tol maxiter (sol, mtx) with
    | None => None
    | Some (sol', mtx') =>
      match newton_all p tol maxiter r mtx' with None => None | Some (sols, m) => Some (sol' :: sols, m) end
    end
  end.
(** rmts.py 355-387: the start-up problem for all outputs, then the user's for all outputs *)
Definition solve_all (p maxiter : nat) (tol : R) (yts : list (nat -> nat -> R)) (mtx : option mat) : option (list vec * option mat) :=
  match newton_all 2 tol 1 (map (fun yt => (yt, (fun _ => 0) : vec)) yts) mtx with
  | None => None
  | Some (sols, m) => newton_all p tol maxiter (combine yts sols) m
  end.
(** rmts.py 389-450; [mtx]: the attribute self.mtx as an earlier training left it (None on a new model) *)
Inductive train_all_result := TrainedAll (sols : list vec) (mtx : mat) | AttributeErrorAll | NoLineSearchResultAll.
Definition train_all (p maxiter : nat) (tol : R) (yts : list (nat -> nat -> R)) (mtx : option mat) : train_all_result :=
  match solve_all p maxiter tol yts mtx with
  | None => NoLineSearchResultAll
  | Some (sols, Some m) => TrainedAll sols m
  | Some (_, None) => AttributeErrorAll
  end.
(** rmts.py 542-587: dy/dyt of output iy (column iy of the result), block b, from the shared matrix *)
Definition output_derivative_all (dsolve : mat -> vec -> vec) (mtx : mat) (p : nat) (yts : list (nat -> nat -> R)) (sols : list vec) (iy : nat) (b : block) (dy_dw : vec) (t : nat) : R :=
  output_derivative n dsolve mtx blocks p (nth iy yts (fun _ _ => 0)) (nth iy sols (fun _ => 0)) b dy_dw t.
End Multi.
