(** Specification for C107: several outputs. *)
From Coq Require Import Reals List.
From Verif Require Import RSum Mat Kernels_M Krg_M KrgMulti_M.
Open Scope R_scope.
(** the value the reduced likelihood function returns; None when it does not fit *)
Definition mlik (o : mrlf) : option R := match o with MFit v _ => Some v | _ => None end.
