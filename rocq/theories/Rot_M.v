(** Change of coordinates of the inputs: every input, of the training points and of the points asked for, is replaced by Q x + t.
    No code of its own: the models are those of IDW (smt/src/idw/idw.cpp 37-117, idw.py 80-134), RBF (smt/surrogate_models/rbf.py
    106-195, smt/src/rbf/rbf.cpp 34-96), LS (smt/surrogate_models/ls.py 41-108) and QP (smt/surrogate_models/qp.py 41-153). *)
From Coq Require Import Reals Arith.
From Verif Require Import RSum Mat.
Open Scope R_scope.

(** the point x in the new coordinates: component k is t_k + sum_l Q_kl x_l *)
Definition place (n : nat) (Q : mat) (t : vec) (x : vec) : vec := fun k => rsum n (fun l => Q k l * x l) + t k.
(** rotations and reflections: the columns of Q are orthonormal *)
Definition orthonormal (n : nat) (Q : mat) : Prop := forall i j, (i < n)%nat -> (j < n)%nat -> rsum n (fun k => Q k i * Q k j) = if Nat.eqb i j then 1 else 0.
(** the change of coordinates can be undone *)
Definition invertible_by (n : nat) (P Q : mat) : Prop := forall i j, (i < n)%nat -> (j < n)%nat -> rsum n (fun k => P i k * Q k j) = if Nat.eqb i j then 1 else 0.
