(** Model of GEKPLS: smt/surrogate_models/gekpls.py 40-57, smt/utils/kriging_utils.py 637-768 (ge_compute_pls)
    and the size check of krg_based.py 172-178, 1185-1195, for one output.
    Simplifications: doubles are reals; sklearn's PLSRegression(n_comp).fit(...).x_rotations_ is an arbitrary
    function of the data given to it, pyDOE2's bbdesign an arbitrary table and numpy's argsort any function
    (Gek_S.v states contracts); use_het_noise is off. *)
From Coq Require Import Reals Arith ZArith Bool List.
From Verif Require Import RSum Mat Tri_M Kernels_M Krg_M.
Import ListNotations.
Open Scope list_scope.
Open Scope R_scope.

(** training_points[None][1 + kx]: the points and values given to set_training_derivatives, if it was called *)
Definition deriv_data := nat -> option ((nat -> vec) * vec).
(** outcome of preparing the data: arrays of the given number of rows, or the exception *)
Inductive prepared := Ready (rows : nat) (Xa : nat -> vec) (ya : vec) (coeff : mat) | KeyError | IndexError | RowsMismatch.

Section Ge.
Variables (bb : nat -> list vec) (pls : nat -> nat -> list (vec * R) -> mat) (argsort : nat -> vec -> list nat).
Variables (dim nt n_comp : nat) (delta_x : R) (lower upper : vec) (X : nat -> vec) (y : vec) (pts : deriv_data).
Definition range (j : nat) : R := upper j - lower j.
(** pts[None][1 + j][1][i, 0] *)
Definition grad (j i : nat) : R := match pts j with Some (_, v) => v i | None => 0 end.
(** np.roll(.., 1, axis=0), 687 *)
Definition roll1 {A} (l : list A) : list A := match rev l with [] => [] | a :: r => a :: rev r end.
(** 686-695, dim >= 3 *)
Definition local3 (i : nat) : list (vec * R) :=
  map (fun row : vec =>
         let sign : vec := fun j => row j * delta_x * range j in
         ((fun j => X i j + sign j), y i + rsum dim (fun j => sign j * grad j i))) (roll1 (bb dim)).
(** 697-752, dim = 2: centre, right, up, left, down, right up, left up, left down, right down *)
Definition shift2 (x : vec) (a b : R) : vec := fun j => x j + (if Nat.eqb j 0 then a else if Nat.eqb j 1 then b else 0).
Definition local2 (i : nat) : list (vec * R) :=
  let h0 := delta_x * (upper 0%nat - lower 0%nat) in
  let h1 := delta_x * (upper 1%nat - lower 1%nat) in
  let g0 := grad 0 i in
  let g1 := grad 1 i in
  let y0 := y i in
  [ (X i, y0);
    (shift2 (X i) h0 0, y0 + g0 * h0);
    (shift2 (X i) 0 h1, y0 + g1 * h1);
    (shift2 (X i) (- h0) 0, y0 - g0 * h0);
    (shift2 (X i) 0 (- h1), y0 - g1 * h1);
    (shift2 (X i) h0 h1, y0 + g0 * h0 + g1 * h1);
    (shift2 (X i) (- h0) h1, y0 - g0 * h0 + g1 * h1);
    (shift2 (X i) (- h0) (- h1), y0 - g0 * h0 - g1 * h1);
    (shift2 (X i) h0 (- h1), y0 + g0 * h0 - g1 * h1) ].
Definition local (i : nat) : list (vec * R) := if Nat.leb 3 dim then local3 i else local2 i.
(** 754-755 *)
Definition coeff_at (i : nat) : mat := pls dim n_comp (local i).
(** 758: argsort(..)[-extra_points:], a slice of a list of length dim, also for negative extra_points *)
Definition max_coeff (extra : Z) (i : nat) : list nat :=
  let order := argsort dim (fun j => Rabs (coeff_at i j 0%nat)) in
  if Z.ltb 0 extra then skipn (dim - Z.to_nat extra) order else skipn (Z.to_nat (- extra)) order.
(** 759-767, the rows appended for training point i *)
Definition extra_rows (extra : Z) (i : nat) : list (vec * R) :=
  if Z.eqb extra 0 then []
  else map (fun ii => let h := delta_x * (upper ii - lower ii) in
                      ((fun j => if Nat.eqb j ii then X i j + h else X i j), y i + grad ii i * h)) (max_coeff extra i).
Definition extra_table (extra : Z) : list (vec * R) := flat_map (extra_rows extra) (seq 0 nt).
(** 768 *)
Definition coeff_pls : mat := fun j l => rsum nt (fun i => Rabs (coeff_at i j l)) / INR nt.
(** the exceptions of 693, 704-710: all derivatives are read before anything else for dim >= 3; with one
    input the two-dimensional stencil indexes column 1 after having read the first derivative *)
Definition missing : bool := existsb (fun j => match pts j with None => true | Some _ => false end) (seq 0 dim).
(** gekpls.py 40-57 (0 is in training_points) followed by krg_based.py 172-178.  [st_nt] is self.nt; the
    new value is returned with the outcome *)
Definition prepare (extra st_nt : Z) : Z * prepared :=
  if missing then (st_nt, KeyError)
  else if Nat.leb dim 1 then (st_nt, IndexError)
  else
    let st_nt' := if Z.eqb extra 0 then st_nt else (st_nt * (extra + 1))%Z in
    let add := if Z.eqb extra 0 then [] else extra_table extra in
    let rows := (nt + length add)%nat in
    (st_nt', if Z.eqb (Z.of_nat rows) st_nt'
             then Ready rows (fun a => if Nat.ltb a nt then X a else fst (nth (a - nt) add (X 0%nat, 0)))
                        (fun a => if Nat.ltb a nt then y a else snd (nth (a - nt) add (X 0%nat, 0))) coeff_pls
             else RowsMismatch).
(** the outcomes of calling train() [k] times after one set_training_values (which sets self.nt to nt) *)
Fixpoint prepares (extra st_nt : Z) (k : nat) : list prepared :=
  match k with O => [] | S k' => let '(st', o) := prepare extra st_nt in o :: prepares extra st' k' end.
(** training with the given correlation (squar_exp or abs_exp), theta and options on the first call *)
Definition gek_train (qr : nat -> nat -> mat -> mat * mat) (rcond : nat -> mat -> R) (condF : nat -> nat -> mat -> R)
  (po : poly) (c : corr) (theta : vec) (nugget : R) (noise : vec) (extra : Z) : option model :=
  match snd (prepare extra (Z.of_nat nt)) with
  | Ready rows Xa ya co => krg_train qr rcond condF dim rows po (KPls c n_comp co theta) nugget noise Xa ya
  | _ => None
  end.
End Ge.
