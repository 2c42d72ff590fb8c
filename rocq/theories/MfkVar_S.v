(** Vocabulary of C105: replicated inputs of a fidelity level. *)
From Coq Require Import Reals Arith Bool List.
From Verif Require Import RSum Mat Kernels_M Krg_M Krg_S Mfk_M Mfk_S Het_S MfkVar_M.
Open Scope R_scope.

(** the training data of a level with the given outputs, kernel and noise variances (in units of the standardised output) *)
Definition level_data (o : obs) (y : vec) (s : kspec) (noise : vec) : data :=
  {| d_nt := o_nt o; d_X := o_X o; d_y := y; d_k := s; d_noise := noise |}.
(** noise0 of observation i *)
Definition given_noise (o : obs) (i : nat) : R := nth (if Nat.eqb (length (o_noise0 o)) 1 then 0 else i)%nat (o_noise0 o) 0.
(** noise variance of observation i: the sample variance of the standardised outputs of its level observed at its
    input, or s0 where they do not spread *)
Definition sample_noise (nx : nat) (all : list data) (o : obs) (s0 : R) (i : nat) : R :=
  let v := fun j => (o_y o j - y_off all) / y_scale all in
  if Req_EM_T (rep_ss nx (o_nt o) (o_X o) v i) 0 then s0 else rep_ss nx (o_nt o) (o_X o) v i / (rep_count nx (o_nt o) (o_X o) i - 1).
(** two different observations of a level at the same input, without nugget or noise *)
Definition repeated (nx : nat) (nugget : R) (o : obs) : Prop :=
  exists i j, (i < o_nt o)%nat /\ (j < o_nt o)%nat /\ i <> j /\ same nx (o_X o i) (o_X o j) /\ nugget + given_noise o i = 0 /\ nugget + given_noise o j = 0.
