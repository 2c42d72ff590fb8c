(** Model of the correlation kernels and componentwise distances of smt/utils/kriging_utils.py
    132-634 and 771-945, one row (one pair of points) at a time; the loop over blocks of 10000 rows
    is modelled separately ([chunk_loop]).  Simplifications: doubles are reals; act_exp's optional
    argument d_x (used by MGP) is not modelled. *)
From Coq Require Import Reals Arith Bool List.
From Verif Require Import RSum Mat.
Import ListNotations.
Open Scope list_scope.
Open Scope R_scope.

(** option "corr", krg_based.py 51-57 *)
Inductive corr := AbsExp | SquarExp | ActExp | Matern52 | Matern32.

(** kriging_utils.py 804-826: distances used by each kernel *)
Definition comp_dist (c : corr) (D : vec) : vec := fun j =>
  match c with SquarExp => D j ^ 2 | ActExp => D j | _ => Rabs (D j) end.
(** 840-846: der *)
Definition der (D : vec) : vec := fun j => if Rlt_dec (D j) 0 then -1 else 1.
(** 827-849, None is the ValueError for act_exp *)
Definition comp_dist_dx (c : corr) (theta D : vec) : option vec :=
  match c with
  | SquarExp => Some (fun j => 2 * (theta j * D j))
  | ActExp => None
  | _ => Some (fun j => theta j * der D j)
  end.
(** 852-945: the PLS versions, [co j l] is coeff_pls[j][l] *)
Definition comp_dist_pls (c : corr) (nx : nat) (co : mat) (D : vec) : vec := fun l =>
  match c with SquarExp => rsum nx (fun j => D j ^ 2 * co j l ^ 2) | _ => rsum nx (fun j => Rabs (D j) * Rabs (co j l)) end.
Definition comp_dist_pls_dx (c : corr) (ncomp : nat) (co : mat) (theta D : vec) : vec := fun j =>
  match c with
  | SquarExp => 2 * rsum ncomp (fun l => theta l * co j l ^ 2) * D j
  | _ => rsum ncomp (fun l => theta l * Rabs (co j l)) * der D j
  end.

(** 132-202 and 205-275 (same code) *)
Definition k_exp (nc : nat) (theta d : vec) (grad hess : option nat) : R :=
  let r := exp (- rsum nc (fun j => theta j * d j)) in
  let r := match grad with Some g => - d g * r | None => r end in
  match hess with Some h => - d h * r | None => r end.

(** 278-385 *)
Definition m52_fact1 (theta d : vec) (g : nat) : R := sqrt 5 * d g + 10 / 3 * theta g * d g ^ 2.
Definition m52_fact2 (theta d : vec) (g : nat) : R := 1 + sqrt 5 * theta g * d g + 5 / 3 * theta g ^ 2 * d g ^ 2.
Definition m52_fact3 (d : vec) (g : nat) : R := sqrt 5 * d g.
Definition k_m52 (nc : nat) (theta d : vec) (grad hess : option nat) : R :=
  let ll := fun j => theta j * d j in
  let r := rprod nc (fun j => 1 + sqrt 5 * ll j + 5 / 3 * ll j ^ 2) * exp (- sqrt 5 * rsum nc ll) in
  let M52 := r in
  let r := match grad with Some g => (m52_fact1 theta d g / m52_fact2 theta d g - m52_fact3 d g) * r | None => r end in
  match hess with
  | Some h =>
      let r := (m52_fact1 theta d h / m52_fact2 theta d h - m52_fact3 d h) * r in
      match grad with
      | Some g => if Nat.eqb h g then
          let fact_4 := 10 / 3 * d h ^ 2 * m52_fact2 theta d h in
          ((fact_4 - m52_fact1 theta d h ^ 2) / m52_fact2 theta d h ^ 2) * M52 + r
          else r
      | None => r
      end
  | None => r
  end.

(** 433-520 *)
Definition m32_fact (theta d : vec) (g : nat) : R := 1 / (1 + sqrt 3 * theta g * d g) - 1.
Definition k_m32 (nc : nat) (theta d : vec) (grad hess : option nat) : R :=
  let ll := fun j => theta j * d j in
  let r := rprod nc (fun j => 1 + sqrt 3 * ll j) * exp (- sqrt 3 * rsum nc ll) in
  let M32 := r in
  let r := match grad with Some g => m32_fact theta d g * r * sqrt 3 * d g | None => r end in
  match hess with
  | Some h =>
      let r := r * m32_fact theta d h * sqrt 3 * d h in
      match grad with
      | Some g => if Nat.eqb g h then
          let fact_3 := (3 * d h ^ 2) / (1 + sqrt 3 * theta h * d h) ^ 2 in
          r - fact_3 * M32
          else r
      | None => r
      end
  | None => r
  end.

(** 569-634; [ns] = len(theta) // n_components *)
Definition act_dA (nc : nat) (theta d : vec) (s : nat) : R := rsum nc (fun j => d j * theta (s * nc + j)%nat).
Definition k_act (nc ns : nat) (theta d : vec) (grad hess : option nat) : R :=
  let r := exp (- (1 / 2) * rsum ns (fun s => act_dA nc theta d s ^ 2)) in
  match grad with
  | Some g =>
      let d_grad_ind := (g mod nc)%nat in
      let d_A_grad_ind := (g / nc)%nat in
      match hess with
      | None => - d d_grad_ind * act_dA nc theta d d_A_grad_ind * r
      | Some h =>
          let d_hess_ind := (h mod nc)%nat in
          let d_A_hess_ind := (h / nc)%nat in
          let fact := - act_dA nc theta d d_A_grad_ind * act_dA nc theta d d_A_hess_ind in
          let fact := if Nat.eqb d_A_hess_ind d_A_grad_ind then 1 + fact else fact in
          - d d_grad_ind * d d_hess_ind * fact * r
      end
  | None => r
  end.

(** krg_based.py 25-34: the table of kernels; [ns] is only used by act_exp *)
Definition kernel (c : corr) (nc ns : nat) (theta d : vec) (grad hess : option nat) : R :=
  match c with
  | AbsExp | SquarExp => k_exp nc theta d grad hess
  | Matern52 => k_m52 nc theta d grad hess
  | Matern32 => k_m32 nc theta d grad hess
  | ActExp => k_act nc ns theta d grad hess
  end.

(** derivative_params branches: 196-200 / 268-273 with dd, 386-430 and 521-564 with dx;
    None is the ValueError of 631-632 *)
Definition kernel_dx (c : corr) (nc : nat) (theta dx : vec) (r : R) (k : nat) : option R :=
  match c with
  | AbsExp | SquarExp => match comp_dist_dx c theta dx with Some dd => Some (- (r * dd k)) | None => None end
  | Matern52 =>
      let A := exp (- sqrt 5 * rsum nc (fun j => Rabs (dx j) * theta j)) in
      let coef := rprod nc (fun l => if Nat.eqb l k then 1 else 1 + sqrt 5 * Rabs (dx l) * theta l + 5 / 3 * dx l ^ 2 * theta l ^ 2) in
      let dB := (sqrt 5 * theta k * der dx k + 2 * (5 / 3) * der dx k * Rabs (dx k) * theta k ^ 2) * coef in
      Some (- sqrt 5 * theta k * der dx k * r + A * dB)
  | Matern32 =>
      let A := exp (- sqrt 3 * rsum nc (fun j => Rabs (dx j) * theta j)) in
      let coef := rprod nc (fun l => if Nat.eqb l k then 1 else 1 + sqrt 3 * Rabs (dx l) * theta l) in
      let dB := sqrt 3 * theta k * der dx k * coef in
      Some (- sqrt 3 * theta k * der dx k * r + A * dB)
  | ActExp => None
  end.

(** correlation of two points, krg_based.py 443-449 (differences, then distance, then kernel) *)
Definition corr_of (c : corr) (nc ns : nat) (theta x y : vec) : R :=
  kernel c nc ns theta (comp_dist c (fun j => x j - y j)) None None.
(** with PLS coefficients (KPLS, KPLSK: kpls.py 41-50) *)
Definition corr_of_pls (c : corr) (nx ncomp : nat) (co : mat) (theta x y : vec) : R :=
  kernel c ncomp 0 theta (comp_dist_pls c nx co (fun j => x j - y j)) None None.

(** while i * nb_limit <= n: r[i*nb : (i+1)*nb] = f(r[i*nb : (i+1)*nb]); i += 1 (165-175 and the
    other block loops); [n] is the number of rows.  Runs with fuel; [None] when the fuel runs out. *)
Fixpoint chunk_loop (fuel nb n : nat) (f : nat -> R -> R) (i : nat) (r : vec) : option vec :=
  match fuel with
  | O => None
  | S fuel' =>
      if Nat.leb (i * nb) n
      then chunk_loop fuel' nb n f (i + 1)
             (fun p => if andb (Nat.leb (i * nb) p) (andb (Nat.ltb p ((i + 1) * nb)) (Nat.ltb p n)) then f p (r p) else r p)
      else Some r
  end.
