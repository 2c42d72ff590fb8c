(** Vocabulary of C122. *)
From Coq Require Import Reals Arith.
From Verif Require Import RSum Mat Kernels_M Krg_M Krg_S.
Open Scope R_scope.
(** covariance, in units of the process variance, of the errors of the linear predictors with weights w of the value at x and w' of the value at x' *)
Definition q_cov (nx nt : nat) (s : kspec) (nugget : R) (noise : vec) (X : nat -> vec) (x w x' w' : vec) : R :=
  dot nt w (mv nt (d_corr nx nt s nugget noise X) w') - dot nt w (q_corr nx nt s X x') - dot nt w' (q_corr nx nt s X x) + kf s nx (q_std nt X x) (q_std nt X x').
