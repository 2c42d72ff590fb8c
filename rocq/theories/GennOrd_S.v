(** Vocabulary of C118 (see also [reorder] in Het_S.v: a reordering of the first n indices). *)
From Coq Require Import Reals ZArith Arith List.
From Verif Require Import Genn_M GennOpt_M GennTrain_M.
From Verif Require Het_S.
(** the same table with its rows in another order, and all training tables rearranged alike *)
Definition rows (f : nat -> nat) (t : table) : table := {| t_rows := t_rows t; t_cols := t_cols t; t_val := fun i j => t_val t (f i) j |}.
Definition rearranged (f : nat -> nat) (tp : points) : points := fun k => option_map (fun '(x, d) => (rows f x, rows f d)) (tp k).
(** the batch size lets every batch hold all the examples *)
Definition full_batch (m : nat) (size : Z) : Prop := size = 0%Z \/ (Z.of_nat m <= size)%Z.
Definition with_seed (o : goptions) (seed : option Z) : goptions :=
  {| o_alpha := o_alpha o; o_beta1 := o_beta1 o; o_beta2 := o_beta2 o; o_lambd := o_lambd o; o_gamma := o_gamma o; o_deep := o_deep o; o_wide := o_wide o; o_batch := o_batch o; o_iterations := o_iterations o; o_epochs := o_epochs o; o_seed := seed |}.
(** the network and the history of costs, or the failure; not the state of the random generator *)
Definition outcome {A B : Type} (r : res (A * B)) : res A := match r with Ret (a, _) => Ret a | Raise => Raise | Loop => Loop end.
