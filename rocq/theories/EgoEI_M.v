(** Model of the acquisition functions of smt/applications/ego.py 196-238. *)
From Coq Require Import Reals List.
Import ListNotations.
Open Scope R_scope.
(** scipy.stats.norm.pdf *)
Definition pdf (z : R) : R := exp (- z ^ 2 / 2) / sqrt (2 * PI).
Section EI.
(** scipy.stats.norm.cdf; the surrogate at a point: (predict_values, predict_variances) *)
Variable cdf : R -> R.
(** 196-207 for one point with prediction [pred] and variance [var] (not negative, C37) *)
Definition EI (f_min pred var : R) : R :=
  let sig := sqrt var in
  let args0 := (f_min - pred) / sig in
  let args1 := (f_min - pred) * cdf args0 in
  let args2 := sig * pdf args0 in
  if Req_EM_T sig 0 then 0 else args1 + args2.
(** 208-222: tunneling penalty of one point; [others] are, for each evaluated point x, (EI(x), |p - x|) *)
Definition penalise (EIp : R) (ei : R) (others : list (R * R)) : R :=
  fold_left (fun ei '(EIx, dist) =>
    let pena := (EIp - EIx) / dist ^ 4 in
    let ei := if Rlt_dec 0 pena then ei - pena else ei in
    Rmax ei 0) others ei.
Definition EI_tunneling (f_min pred var : R) (others : list (R * R)) : R :=
  let EIp := EI f_min pred var in penalise EIp EIp others.
(** 231-238 *)
Definition UCB (pred var : R) : R := pred - 3 * sqrt var.
End EI.
