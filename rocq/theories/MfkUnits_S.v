(** Vocabulary of C114: the same multi-fidelity data, written down in another order and in other units. *)
From Coq Require Import Reals Arith List.
From Verif Require Import RSum Mat Krg_M Het_S Mfk_M.
Open Scope R_scope.
(** one level: input column c is multiplied by A c and shifted by B c, the outputs by a and b, and the points are listed in another order
    (noise given per point goes along); same kernel and hyperparameters *)
Definition same_level (nx : nat) (A B : vec) (a b : R) (d d' : data) : Prop :=
  d_nt d' = d_nt d /\ d_k d' = d_k d /\ exists f, reorder (d_nt d) f /\ forall i, (i < d_nt d)%nat ->
    (forall c, (c < nx)%nat -> d_X d' i c = A c * d_X d (f i) c + B c) /\ d_y d' i = a * d_y d (f i) + b /\ d_noise d' i = d_noise d (f i).
Definition same_data (nx : nat) (A B : vec) (a b : R) : list data -> list data -> Prop := List.Forall2 (same_level nx A B a b).
(** a column takes two different values somewhere in the data of all levels *)
Definition varies (all : list data) (col : data -> vec) : Prop :=
  exists d e i j, List.In d all /\ List.In e all /\ (i < d_nt d)%nat /\ (j < d_nt e)%nat /\ col d i <> col e j.
(** the outputs of level k are multiplied by [a k] and shifted by [b k], each level in its own way; everything else is unchanged *)
Definition in_units (a b : R) (d : data) : data := {| d_nt := d_nt d; d_X := d_X d; d_y := (fun i => a * d_y d i + b); d_k := d_k d; d_noise := d_noise d |}.
Fixpoint level_units (a b : nat -> R) (k : nat) (l : list data) : list data :=
  match l with nil => nil | cons d r => cons (in_units (a k) (b k) d) (level_units a b (S k) r) end.
(** degree of the trend polynomials *)
Definition degree (p : poly) : nat := match p with PConstant => 0 | PLinear => 1 | PQuadratic => 2 end.
