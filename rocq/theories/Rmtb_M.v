(** Model of smt/src/rmts/rmtb.cpp, smt/surrogate_models/rmtb.py 101-127 and the prediction part
    of smt/surrogate_models/rmts.py (451-540).
    Simplifications: doubles are reals, C ints are unbounded integers, arrays are functions from
    indexes (reads outside an allocated array are visible as dependence on those entries);
    one evaluation point at a time (the code treats rows independently). *)
From Coq Require Import Reals ZArith Arith Bool List.
From Verif Require Import RSum Index_M.
Import ListNotations.
Open Scope list_scope.
Open Scope R_scope.

(** rmtb.cpp 11-15 *)
Definition knots_uniform (order ncp : nat) (i : Z) : R :=
  IZR (i - Z.of_nat order + 1) / IZR (Z.of_nat ncp - Z.of_nat order + 1).

Notation vec := (nat -> R).
Section Basis.
Variables (order ncp : nat) (kn : Z -> R) (t : R).

Definition in_interval (i : Z) : bool :=
  if Rle_dec (kn i) t then (if Rlt_dec t (kn (i + 1)%Z) then true else false) else false.

(** rmtb.cpp 17-31 *)
Definition compute_i_start : Z :=
  let scan := fold_left (fun s (i : nat) =>
                 if in_interval (Z.of_nat i) then (Z.of_nat i - Z.of_nat order + 1)%Z else s)
               (seq (order - 1) (ncp - (order - 1))) (-1)%Z in
  if Req_EM_T t (kn (Z.of_nat order + Z.of_nat ncp - 1)%Z) then (Z.of_nat ncp - Z.of_nat order)%Z else scan.

Definition vzero : vec := fun _ => 0.

Variable istart : Z.
Definition node (j : nat) : Z := (istart + Z.of_nat j)%Z.

(** the two quotients, guarded as in the source *)
Definition lfac (i : nat) (n : Z) (x : R) : R :=
  let i := Z.of_nat i in
  if Req_EM_T (kn (n + i)%Z) (kn n) then 0 else (t - kn n) / (kn (n + i)%Z - kn n) * x.
Definition rfac (i : nat) (n : Z) (x : R) : R :=
  let i := Z.of_nat i in
  if Req_EM_T (kn (n + i + 1)%Z) (kn (n + 1)%Z) then 0
  else (kn (n + i + 1)%Z - t) / (kn (n + i + 1)%Z - kn (n + 1)%Z) * x.

(** rmtb.cpp 41-70: iteration [i] of the outer loop, in place *)
Definition basis_0_step (b : vec) (i : nat) : vec :=
  let j1 := (order - i - 1)%nat in let j2 := (order - 1)%nat in
  let b := upd b j1 (rfac i (node j1) (b (j1 + 1)%nat)) in
  let b := fold_left (fun b j => upd (upd b j (lfac i (node j) (b j))) j
                                     (upd b j (lfac i (node j) (b j)) j + rfac i (node j) (b (j + 1)%nat)))
             (seq (j1 + 1) (j2 - (j1 + 1))) b in
  upd b j2 (lfac i (node j2) (b j2)).
(** rmtb.cpp 33-71 *)
Definition basis_0_vec : vec := fold_left basis_0_step (seq 1 (order - 1)) (upd vzero (order - 1) 1).

(** rmtb.cpp 88-115: iteration [i]; [f1], [f2] are the derivative parts *)
Definition lder (i : nat) (n : Z) (b0 b1 : R) : R :=
  let i := Z.of_nat i in
  if Req_EM_T (kn (n + i)%Z) (kn n) then 0 else (b0 + (t - kn n) * b1) / (kn (n + i)%Z - kn n).
Definition rder (i : nat) (n : Z) (b0 b1 : R) : R :=
  let i := Z.of_nat i in
  if Req_EM_T (kn (n + i + 1)%Z) (kn (n + 1)%Z) then 0
  else ((kn (n + i + 1)%Z - t) * b1 - b0) / (kn (n + i + 1)%Z - kn (n + 1)%Z).
Definition basis_1_step (bb : vec * vec) (i : nat) : vec * vec :=
  let j1 := (order - i - 1)%nat in let j2 := (order - 1)%nat in
  fold_left (fun bb j => let '(b0, b1) := bb in
      let l := lfac i (node j) (b0 j) in let f1 := lder i (node j) (b0 j) (b1 j) in
      let r := if Nat.eqb j j2 then 0 else rfac i (node j) (b0 (j + 1)%nat) in
      let f2 := if Nat.eqb j j2 then 0 else rder i (node j) (b0 (j + 1)%nat) (b1 (j + 1)%nat) in
      (upd b0 j (l + r), upd b1 j (f1 + f2))) (seq j1 (j2 + 1 - j1)) bb.
(** rmtb.cpp 73-119 *)
Definition basis_1_vec : vec := snd (fold_left basis_1_step (seq 1 (order - 1)) (upd vzero (order - 1) 1, vzero)).

(** rmtb.cpp 136-170 *)
Definition lder2 (i : nat) (n : Z) (b1 b2 : R) : R :=
  let i := Z.of_nat i in
  if Req_EM_T (kn (n + i)%Z) (kn n) then 0 else (2 * b1 + (t - kn n) * b2) / (kn (n + i)%Z - kn n).
Definition rder2 (i : nat) (n : Z) (b1 b2 : R) : R :=
  let i := Z.of_nat i in
  if Req_EM_T (kn (n + i + 1)%Z) (kn (n + 1)%Z) then 0
  else ((kn (n + i + 1)%Z - t) * b2 - 2 * b1) / (kn (n + i + 1)%Z - kn (n + 1)%Z).
Definition basis_2_step (bb : vec * vec * vec) (i : nat) : vec * vec * vec :=
  let j1 := (order - i - 1)%nat in let j2 := (order - 1)%nat in
  fold_left (fun bb j => let '(b0, b1, b2) := bb in
      let l := lfac i (node j) (b0 j) in let f1 := lder i (node j) (b0 j) (b1 j) in
      let s1 := lder2 i (node j) (b1 j) (b2 j) in
      let r := if Nat.eqb j j2 then 0 else rfac i (node j) (b0 (j + 1)%nat) in
      let f2 := if Nat.eqb j j2 then 0 else rder i (node j) (b0 (j + 1)%nat) (b1 (j + 1)%nat) in
      let s2 := if Nat.eqb j j2 then 0 else rder2 i (node j) (b1 (j + 1)%nat) (b2 (j + 1)%nat) in
      (upd b0 j (l + r), upd b1 j (f1 + f2), if Nat.ltb 1 i then upd b2 j (s1 + s2) else b2))
    (seq j1 (j2 + 1 - j1)) bb.
Definition basis_2_vec : vec :=
  snd (fold_left basis_2_step (seq 1 (order - 1)) (upd vzero (order - 1) 1, vzero, vzero)).
End Basis.

(** the three functions with their return value istart (rmtb.cpp 33, 73, 121) *)
Definition compute_basis_0 (order ncp : nat) (t : R) (kn : Z -> R) : Z * vec :=
  let s := compute_i_start order ncp kn t in (s, basis_0_vec order kn t s).
Definition compute_basis_1 (order ncp : nat) (t : R) (kn : Z -> R) : Z * vec :=
  let s := compute_i_start order ncp kn t in (s, basis_1_vec order kn t s).
Definition compute_basis_2 (order ncp : nat) (t : R) (kn : Z -> R) : Z * vec :=
  let s := compute_i_start order ncp kn t in (s, basis_2_vec order kn t s).

(** rmtb.cpp 234-243: [inz_dim], the loop over jx <= ix *)
Definition inz_dim (orders : list nat) (ix inz : nat) : nat :=
  snd (fold_left (fun (acc : nat * nat) jx =>
         let '(rem, _) := acc in
         let prod := prodl (skipn (S jx) orders) in
         let d := (rem / prod)%nat in ((rem - d * prod)%nat, d)) (seq 0 (S ix)) (inz, 0%nat)).

(** rmtb.cpp 224-229: which basis function; [ix1], [ix2] are 1-based, 0 = none (rmtb.py 119) *)
Definition choose_basis (ix1 ix2 ix : nat) :=
  if Nat.eqb (S ix) ix1 then (if Nat.eqb (S ix) ix2 then compute_basis_2 else compute_basis_1)
  else if Nat.eqb (S ix) ix2 then compute_basis_1 else compute_basis_0.
Definition dim_basis (orders ncps : list nat) (ix1 ix2 : nat) (params : nat -> R) (ix : nat) : Z * vec :=
  let order := nth ix orders 0%nat in let ncp := nth ix ncps 0%nat in
  choose_basis ix1 ix2 ix order ncp (params ix) (knots_uniform order ncp).

(** rmtb.cpp 195-260 for one point: data[inz] and cols[inz] *)
Definition jac_data (orders ncps : list nat) (ix1 ix2 : nat) (params : nat -> R) (inz : nat) : R :=
  fold_left (fun d ix => d * snd (dim_basis orders ncps ix1 ix2 params ix) (inz_dim orders ix inz))
    (seq 0 (length orders)) 1.
Definition jac_col (orders ncps : list nat) (ix1 ix2 : nat) (params : nat -> R) (inz : nat) : Z :=
  fold_left (fun c ix => (c + (Z.of_nat (inz_dim orders ix inz) + fst (dim_basis orders ncps ix1 ix2 params ix))
                               * Z.of_nat (prodl (skipn (S ix) ncps)))%Z)
    (seq 0 (length orders)) 0%Z.

Definition eps : R := / 10 ^ 15.
(** rmtb.py 104-108 *)
Definition to_param (lo up x : R) : R := Rmin (Rmax ((x - lo) / (up - lo)) (0 + eps)) (1 - eps).

Section Rmtb.
Variables (orders ncps : list nat) (lo up : nat -> R).
(** rmtb.py 101-127 *)
Definition raw_data (ix1 ix2 : nat) (x : nat -> R) (inz : nat) : R :=
  let d := jac_data orders ncps ix1 ix2 (fun k => to_param (lo k) (up k) (x k)) inz in
  let d := match ix1 with O => d | S k => d / (up k - lo k) end in
  match ix2 with O => d | S k => d / (up k - lo k) end.
Definition raw_col (ix1 ix2 : nat) (x : nat -> R) (inz : nat) : Z :=
  jac_col orders ncps ix1 ix2 (fun k => to_param (lo k) (up k) (x k)) inz.
End Rmtb.

(** rmts.py 491-540, one row, generic in the raw Jacobian ([nnz] entries, [nx] dimensions).
    The columns used are those of the last call of _compute_jac_raw (529), or of the first one
    (497) without extrapolation. *)
Section Predict.
Variables (nx nnz : nat) (lo up : nat -> R).
Variable data : nat -> nat -> (nat -> R) -> nat -> R.
Variable col : nat -> nat -> (nat -> R) -> nat -> Z.
Variable extrapolate : bool.

(** rmts.py 524: isexternal *)
Definition isexternal (x : nat -> R) (k : nat) : R :=
  if Req_EM_T (ext_dist (lo k) (up k) (x k)) 0 then 0 else 1.
(** rmts.py 526-537 *)
Definition pred_data (kx : nat) (x : nat -> R) (inz : nat) : R :=
  if extrapolate then
    fold_left (fun d ix =>
        let tmp := data kx (S ix) x inz * ext_dist (lo ix) (up ix) (x ix) in
        let tmp := match kx with O => tmp | S k => tmp * (1 - isexternal x k) end in
        d + tmp) (seq 0 nx) (data kx 0%nat x inz)
  else data kx 0%nat x inz.
Definition pred_col (kx : nat) (x : nat -> R) (inz : nat) : Z :=
  if extrapolate then match nx with O => col kx 0%nat x inz | S _ => col kx nx x inz end
  else col kx 0%nat x inz.
(** rmts.py 451-489: sparse matrix times coefficient vector (duplicate entries are summed) *)
Definition predict (coef : Z -> R) (kx : nat) (x : nat -> R) : R :=
  rsum nnz (fun inz => pred_data kx x inz * coef (pred_col kx x inz)).
End Predict.

(** rmts.py 451-468 / 470-489 for RMTB; [kx] is the caller's 0-based index *)
Definition rmtb_value (orders ncps : list nat) (lo up : nat -> R) (extrapolate : bool) (coef : Z -> R) (x : nat -> R) : R :=
  predict (length orders) (prodl orders) lo up (raw_data orders ncps lo up) (raw_col orders ncps lo up) extrapolate coef 0 x.
Definition rmtb_derivative (orders ncps : list nat) (lo up : nat -> R) (extrapolate : bool) (coef : Z -> R) (kx : nat) (x : nat -> R) : R :=
  predict (length orders) (prodl orders) lo up (raw_data orders ncps lo up) (raw_col orders ncps lo up) extrapolate coef (S kx) x.
