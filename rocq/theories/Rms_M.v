(** Model of smt/utils/misc.py compute_rms_error (10-60).  Simplifications: doubles are reals, division by zero gives inf or nan
    as in numpy; an array of outputs is its number of columns and its entries; exceptions of the predictors are not modelled. *)
From Coq Require Import Reals Arith Bool List.
From Verif Require Import RSum.
Import ListNotations.
Open Scope R_scope.
Definition point := nat -> R.
Record arr := { cols : nat; ent : nat -> nat -> R }.
(** the surrogate: predict_values, predict_derivatives(x, kx), training_points[None] (kx -> points, outputs) *)
Record surrogate := { predict_values : list point -> arr; predict_derivatives : list point -> nat -> arr; training : nat -> option (list point * arr) }.
Inductive num := Num (r : R) | Inf | NaN.
Definition fdiv (a b : R) : num := if Req_EM_T b 0 then (if Req_EM_T a 0 then NaN else Inf) else Num (a / b).
Inductive res := Value (v : num) | PyNone | ValueError | UnboundLocalError.
(** np.linalg.norm of an n x m array: Frobenius *)
Definition norm (n m : nat) (a : nat -> nat -> R) : R := sqrt (rsum n (fun i => rsum m (fun j => a i j ^ 2))).
(** ye2 - ye with broadcasting of a single column; None: shapes do not broadcast *)
Definition sub (a b : arr) : option arr :=
  if Nat.eqb (cols a) (cols b) then Some {| cols := cols a; ent := fun i j => ent a i j - ent b i j |}
  else if Nat.eqb (cols b) 1 then Some {| cols := cols a; ent := fun i j => ent a i j - ent b i 0%nat |}
  else if Nat.eqb (cols a) 1 then Some {| cols := cols b; ent := fun i j => ent a i 0%nat - ent b i j |} else None.
Definition relerr (n : nat) (p y : arr) : res :=
  match sub p y with Some d => Value (fdiv (norm n (cols d) (ent d)) (norm n (cols y) (ent y))) | None => ValueError end.
(** [ye] given as its flat list of entries: reshape((n, 1)) raises unless there are n of them *)
Definition compute_rms_error (sm : surrogate) (xe : option (list point)) (ye : option (list R)) (kx : option nat) : res :=
  match xe, ye with
  | Some xe, Some ye =>
      let n := length xe in
      if Nat.eqb (length ye) n then
        let y := {| cols := 1; ent := fun i _ => nth i ye 0 |} in
        relerr n (match kx with None => predict_values sm xe | Some k => predict_derivatives sm xe k end) y
      else ValueError
  | None, None =>
      match kx with
      | Some _ => UnboundLocalError   (* kx2 += 1 with kx2 unbound *)
      | None => match training sm 0%nat with
                | None => ValueError
                | Some (xt, yt) => relerr (length xt) (predict_values sm xt) yt
                end
      end
  | _, _ => PyNone
  end.
