(** Contract of a normal distribution function: antiderivative of the density, vanishing at -infinity. *)
From Coq Require Import Reals.
From Coquelicot Require Import Coquelicot.
From Verif Require Import EgoEI_M.
Open Scope R_scope.
Definition is_cdf (cdf : R -> R) : Prop := (forall z, is_derive cdf z (pdf z)) /\ is_lim cdf m_infty 0.
