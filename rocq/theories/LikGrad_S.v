(** Vocabulary of C95 and C96. *)
From Coq Require Import Reals Arith.
From Verif Require Import RSum Mat Kernels_M Krg_M LikGrad_M.
Open Scope R_scope.
(** hyperparameters the kernel accepts: not negative, except for act_exp, which accepts all *)
Definition theta_ok (g : kclass) (nx : nat) (theta : vec) : Prop := g_corr g <> ActExp -> forall j, (j < g_cols g nx)%nat -> 0 <= theta j.
(** the data are not reproduced exactly by the trend alone *)
Definition not_trend (nt p : nat) (F : mat) (y : vec) : Prop := ~ exists b : vec, forall i, (i < nt)%nat -> y i = mv p F b i.
