(** scipy.linalg.solve_triangular and scipy.linalg.cholesky(lower=True) as called in
    smt/surrogate_models/krg_based.py 258-294, 803-812 and smt/applications/mfk.py: LAPACK trtrs and
    potrf in exact real arithmetic.  Each reads only its triangle of the matrix. *)
From Coq Require Import Reals Arith.
From Verif Require Import RSum Mat.
Open Scope R_scope.

(** forward substitution: unknowns 0 .. i-1 *)
Fixpoint fsub (L : mat) (b : vec) (i : nat) : vec :=
  match i with
  | O => fun _ => 0
  | S i' => let x := fsub L b i' in upd x i' ((b i' - rsum i' (fun j => L i' j * x j)) / L i' i')
  end.
(** back substitution: the last k unknowns, n-k .. n-1 *)
Fixpoint bsub (n : nat) (U : mat) (b : vec) (k : nat) : vec :=
  match k with
  | O => fun _ => 0
  | S k' => let x := bsub n U b k' in let i := (n - S k')%nat in
            upd x i ((b i - rsum k' (fun j => U i (S i + j)%nat * x (S i + j)%nat)) / U i i)
  end.
(** solve_triangular(A, b, lower=False) *)
Definition solve_triangular (n : nat) (A : mat) (b : vec) (lower : bool) : vec :=
  if lower then fsub A b n else bsub n A b n.
(** cholesky(A, lower=True), row by row; None is LinAlgError *)
Fixpoint cholesky (n : nat) (A : mat) : option mat :=
  match n with
  | O => Some (fun _ _ => 0)
  | S m =>
      match cholesky m A with
      | None => None
      | Some L =>
          let w := fsub L (fun j => A m j) m in
          let d := A m m - dot m w w in
          if Rlt_dec 0 d
          then Some (fun i j => if Nat.eqb i m then (if Nat.eqb j m then sqrt d else if Nat.ltb j m then w j else 0) else L i j)
          else None
      end
  end.
