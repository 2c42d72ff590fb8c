(** Model of smt/src/idw/idw.cpp 37-117 and smt/surrogate_models/idw.py 80-130, one evaluation point
    and one output at a time.  Simplifications: doubles are reals; C pow(r2, -p/2) is [Rpower],
    only used where r2 > 0. *)
From Coq Require Import Reals Arith Bool List.
From Verif Require Import RSum.
Import ListNotations.
Open Scope list_scope.
Open Scope R_scope.

Section Idw.
Variables (nx nt : nat) (p : R) (xt : nat -> nat -> R).
(** idw.cpp 45-49 *)
Definition idw_r2 (x : nat -> R) (it : nat) : R := rsum nx (fun ix => (x ix - xt it ix) ^ 2).
(** idw.cpp 42-54: (min_val, min_loc) *)
Definition idw_min (x : nat -> R) : R * nat :=
  fold_left (fun acc it => if Rlt_dec (idw_r2 x it) (fst acc) then (idw_r2 x it, it) else acc) (seq 0 nt) (1, 0%nat).
(** idw.cpp 54 *)
Definition idw_w (x : nat -> R) (it : nat) : R := Rpower (idw_r2 x it) (- p / 2).
(** idw.cpp 57-71 *)
Definition idw_jac (x : nat -> R) (it : nat) : R :=
  if Req_EM_T (fst (idw_min x)) 0 then (if Nat.eqb it (snd (idw_min x)) then 1 else 0)
  else idw_w x it / rsum nt (idw_w x).
(** idw.cpp 89-97 *)
Definition idw_dw (x : nat -> R) (kx it : nat) : R :=
  let dr2_dx := 2 * (x kx - xt it kx) in
  - p / 2 * Rpower (idw_r2 x it) (- p / 2 - 1) * dr2_dx.
(** idw.cpp 100-117 *)
Definition idw_djac (x : nat -> R) (kx it : nat) : R :=
  if Req_EM_T (fst (idw_min x)) 0 then 0
  else (idw_dw x kx it * rsum nt (idw_w x) - idw_w x it * rsum nt (idw_dw x kx)) / (rsum nt (idw_w x)) ^ 2.
(** idw.py 80-94 *)
Definition idw_value (yt : nat -> R) (x : nat -> R) : R := rsum nt (fun it => idw_jac x it * yt it).
(** idw.py 96-122 *)
Definition idw_derivative (yt : nat -> R) (kx : nat) (x : nat -> R) : R := rsum nt (fun it => idw_djac x kx it * yt it).
(** idw.py 124-134 *)
Definition idw_output_derivative (x : nat -> R) (it : nat) : R := idw_jac x it.
End Idw.
