(** Model of smt/src/rmts/utils.cpp (index maps of the tensor-product grids) and of the
    quadrature grid and the distance to the domain in smt/src/rmts/rmts.cpp.
    Simplification: C ints are unbounded naturals (no overflow). *)
From Coq Require Import Reals ZArith Arith Bool List.
Import ListNotations.
Open Scope list_scope.
Open Scope nat_scope.

Definition prodl (ns : list nat) : nat := fold_right Nat.mul 1 ns.

(** utils.cpp 3-14: [rem] is the running remainder; [prod] the product of the later sizes *)
Fixpoint expand_index (ns : list nat) (rem : nat) : list nat :=
  match ns with
  | [] => []
  | _ :: r => let prod := prodl r in
              let q := rem / prod in
              q :: expand_index r (rem - q * prod)
  end.

(** utils.cpp 16-26: the loop runs from the last dimension down with (index, prod) *)
Definition contract_index (ns is : list nat) : nat :=
  fst (fold_right (fun (ni : nat * nat) (acc : nat * nat) =>
         let '(n, i) := ni in let '(index, prod) := acc in (index + i * prod, prod * n)) (0, 1) (combine ns is)).

Open Scope R_scope.
(** rmts.cpp 77-92 (compute_ext_dist), one coordinate: vector from the nearest domain point *)
Definition nearest (lo up x : R) : R := Rmin up (Rmax lo x).
Definition ext_dist (lo up x : R) : R := x - nearest lo up x.

(** rmts.cpp 94-107 (compute_quadrature_points): coordinate [ix] of point [i] *)
Definition quad_coord (lo up : R) (nelem ielem : nat) : R :=
  lo + (1 + 2 * INR ielem) / 2 / INR nelem * (up - lo).
Definition quad_point (lo up : nat -> R) (nelems : list nat) (i ix : nat) : R :=
  quad_coord (lo ix) (up ix) (nth ix nelems 0%nat) (nth ix (expand_index nelems i) 0%nat).
