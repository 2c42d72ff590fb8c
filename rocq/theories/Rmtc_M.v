(** Model of smt/src/rmts/rmtc.cpp and smt/surrogate_models/rmtc.py 85-140 (tensor-product cubic
    Hermite elements).  Simplifications: doubles are reals, C ints unbounded; one evaluation point
    at a time; numpy.linalg.inv is an arbitrary matrix [inv] (its contract is a hypothesis of the
    theorems).  The prediction part of rmts.py is [Rmtb_M.predict]. *)
From Coq Require Import Reals ZArith Arith Bool List.
From Verif Require Import RSum Index_M Rmtb_M.
Import ListNotations.
Open Scope list_scope.
Open Scope R_scope.

(** C ceil() *)
Definition Rceil (r : R) : Z := (- Int_part (- r))%Z.

(** rmtc.cpp 42-61: (element index, local coordinate) *)
Definition find_interval (a b : R) (num : nat) (x : R) : Z * R :=
  let index := Rceil ((x - a) / (b - a) * INR num) in
  let index := Z.max 1 index in
  let index := Z.min (Z.of_nat num) index in
  let a2 := a + (b - a) * (IZR index - 1) / INR num in
  let b2 := a + (b - a) * IZR index / INR num in
  let bma_d2 := (b2 - a2) / 2 in
  let apb_d2 := (a2 + b2) / 2 in
  let xbar := (x - apb_d2) / bma_d2 in
  let xbar := Rmax (-1) xbar in
  let xbar := Rmin 1 xbar in
  ((index - 1)%Z, xbar).

(** rmtc.cpp 64-65, 102-103: the four local degrees of freedom of a dimension *)
Definition deriv_of (k : nat) : bool := Nat.leb 2 k.
Definition xval_of (k : nat) : R := if Nat.even k then -1 else 1.
Definition derv_map (k : nat) : nat := if Nat.leb 2 k then 1 else 0.
Definition side_map (k : nat) : nat := if Nat.even k then 0 else 1.

Section Rmtc.
Variable nelems : list nat.
Let nx := length nelems.
(** rmtc.py 70-71 *)
Definition nterms : list nat := map (fun _ => 4%nat) nelems.
Definition nterm : nat := prodl nterms.
Definition nelem : nat := prodl nelems.

(** rmtc.cpp 80-93: one factor; 0 as soon as a derivative of a constant is met *)
Definition c2n_factor (k power : nat) : R :=
  if deriv_of k then (if Nat.leb 1 power then INR power * xval_of k ^ (power - 1) else 0)
  else xval_of k ^ power.
(** rmtc.cpp 63-99: entry (iterm1, iterm2), product over the dimensions *)
Definition coeff2nodal (iterm1 iterm2 : nat) : R :=
  let l1 := expand_index nterms iterm1 in let l2 := expand_index nterms iterm2 in
  fold_left (fun prod ix => prod * c2n_factor (nth ix l1 0%nat) (nth ix l2 0%nat)) (seq 0 nx) 1.

(** rmtc.cpp 101-157: column of row (ielem, iterm); sizes 106-121 *)
Definition nuniqs : list nat := map S nelems.
Definition nuniq : nat := prodl nuniqs.
Definition ndofs_list : list nat := map (fun _ => 2%nat) nelems.
Definition uniq_col_l (el tl : list nat) : nat :=
  let iderv_list := map derv_map tl in
  let iuniq_list := map (fun et => (fst et + side_map (snd et))%nat) (combine el tl) in
  (contract_index ndofs_list iderv_list * nuniq + contract_index nuniqs iuniq_list)%nat.
Definition uniq_col (ielem iterm : nat) : nat := uniq_col_l (expand_index nelems ielem) (expand_index nterms iterm).

(** rmtc.cpp 101-157 and rmtc.py 110-120: sparse matrix times vector, row [k].
    Every triple (1., ielem*nterm+iterm, col) contributes. *)
Definition uniq2elem_mul (v : nat -> R) (k : nat) : R :=
  rsum nelem (fun e => rsum nterm (fun t => if Nat.eqb (e * nterm + t)%nat k then 1 * v (uniq_col e t) else 0)).
(** rmtc.cpp 159-173 and rmtc.py 124-134 *)
Definition full_from_block_mul (mtx : nat -> nat -> R) (v : nat -> R) (k : nat) : R :=
  rsum nelem (fun e => rsum nterm (fun t1 => rsum nterm (fun t2 =>
    if Nat.eqb (e * nterm + t1)%nat k then mtx t1 t2 * v (e * nterm + t2)%nat else 0))).
(** rmtc.py 92-140: coefficients of a vector of degrees of freedom; [inv] = inv(coeff2nodal) *)
Definition dof2coeff (inv : nat -> nat -> R) (dof : nat -> R) (k : nat) : R :=
  full_from_block_mul inv (uniq2elem_mul dof) k.

Variables (lo up : nat -> R).
(** rmtc.cpp 182-185 *)
Definition dxb_dx (ix : nat) : R := 1 / ((up ix - lo ix) / INR (nth ix nelems 0%nat) / 2).
Definition loc (x : nat -> R) (ix : nat) : Z * R := find_interval (lo ix) (up ix) (nth ix nelems 0%nat) (x ix).
(** rmtc.cpp 196-201 *)
Definition elem_list (x : nat -> R) : list nat := map (fun ix => Z.to_nat (fst (loc x ix))) (seq 0 nx).
(** rmtc.cpp 211-229: factor of dimension ix; ix1, ix2 are 1-based, 0 = none (rmtc.py 90) *)
Definition mono_factor (ix1 ix2 : nat) (x : nat -> R) (ix power : nat) : R :=
  let xbar := snd (loc x ix) in
  if negb (Nat.eqb (S ix) ix1) && negb (Nat.eqb (S ix) ix2) then xbar ^ power
  else if Nat.eqb (S ix) ix1 && Nat.eqb (S ix) ix2 then
    (if Nat.leb 2 power then INR power * (INR power - 1) * xbar ^ (power - 2) * dxb_dx ix * dxb_dx ix else 0)
  else (if Nat.leb 1 power then INR power * xbar ^ (power - 1) * dxb_dx ix else 0).
(** rmtc.cpp 175-238 for one point *)
Definition rmtc_data (ix1 ix2 : nat) (x : nat -> R) (iterm : nat) : R :=
  let tl := expand_index nterms iterm in
  fold_left (fun prod ix => prod * mono_factor ix1 ix2 x ix (nth ix tl 0%nat)) (seq 0 nx) 1.
Definition rmtc_col (ix1 ix2 : nat) (x : nat -> R) (iterm : nat) : Z :=
  Z.of_nat (contract_index nelems (elem_list x) * nterm + iterm).

(** rmts.py 451-489 for RMTC; [dof] is the solution vector, sol_coeff = full_dof2coeff * sol (rmts.py 442) *)
Definition rmtc_value (ext : bool) (inv : nat -> nat -> R) (dof : nat -> R) (x : nat -> R) : R :=
  predict nx nterm lo up rmtc_data rmtc_col ext (fun z => dof2coeff inv dof (Z.to_nat z)) 0 x.
Definition rmtc_derivative (ext : bool) (inv : nat -> nat -> R) (dof : nat -> R) (kx : nat) (x : nat -> R) : R :=
  predict nx nterm lo up rmtc_data rmtc_col ext (fun z => dof2coeff inv dof (Z.to_nat z)) (S kx) x.
End Rmtc.
