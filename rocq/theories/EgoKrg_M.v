(** Model of the parts of smt/applications/ego.py that use the Kriging surrogate: the criterion handed to the
    internal optimiser (330-337) and the virtual outputs of a parallel batch (384-411). *)
From Coq Require Import Reals List.
From Verif Require Import EgoEI_M.
Import ListNotations.
Open Scope R_scope.

(** np.min of a non-empty array y0, ys (198, 403) *)
Definition np_min (y0 : R) (ys : list R) : R := fold_left Rmin ys y0.
(** option criterion, ego.py 57-63 *)
Inductive criterion := CEI | CSBO | CUCB.
(** 330-337: the function minimised; [pred], [var]: predict_values and predict_variances at the point, without tunneling *)
Definition obj_k (cdf : R -> R) (c : criterion) (f_min pred var : R) : R :=
  match c with
  | CEI => - EI cdf f_min pred var
  | CSBO => pred
  | CUCB => UCB pred var
  end.
(** option qEI, ego.py 78-84 *)
Inductive qei := KB | KBLB | KBUB | KBRand | CLmin.
(** 384-411: [z] is the draw of np.random.randn() (KBRand only) *)
Definition virtual_point (q : qei) (z pred var y0 : R) (ys : list R) : R :=
  match q with
  | CLmin => np_min y0 ys
  | KB => pred
  | KBUB => pred + 3 * sqrt var
  | KBLB => pred + (- 3) * sqrt var
  | KBRand => pred + z * sqrt var
  end.
