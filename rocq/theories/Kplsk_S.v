(** Vocabulary of C103. *)
From Coq Require Import Reals List.
From Verif Require Import RSum Mat HyperOpt_M Kplsk_M.
Open Scope R_scope.
(** weights the PLS model gives to the inputs: sum over the components of theta_l times the squared coefficient *)
Definition weights (nx nc : nat) (co : mat) (theta : nat -> R) (w : list R) : Prop :=
  length w = nx /\ forall j, (j < nx)%nat -> nth j w 0 = rsum nc (fun l => theta l * co j l ^ 2).
(** all entries within the bounds *)
Definition within (lo hi : R) (w : list R) : Prop := forall t, In t w -> lo <= t <= hi.
(** an optimiser that evaluates its starting point *)
Definition tries_start (opt : optimiser) : Prop :=
  forall s, match opt s 0%nat with Cobyla a => In s (r_evals a) | Tnc a b => In s (r_evals a) end.
