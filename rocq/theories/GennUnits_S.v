(** Specification for the GENN part of C112: training data, scale factors and networks in other units. *)
From Coq Require Import Reals ZArith Arith List.
From Verif Require Import RSum Genn_M Genn_S GennOpt_M GennTrain_M.
Open Scope R_scope.

(** training data in other units: input i as A i x + B i, output k as a k y + b k, derivatives accordingly *)
Definition conv_points (A B a b : vec) (tp : points) : points := fun key =>
  match tp key with
  | None => None
  | Some (x, y) => Some ({| t_rows := t_rows x; t_cols := t_cols x; t_val := fun e i => A i * t_val x e i + B i |},
      {| t_rows := t_rows y; t_cols := t_cols y; t_val := fun e k => match key with O => a k * t_val y e k + b k | S j => a k * t_val y e k / A j end |})
  end.
Definition conv_scaling (A B a b : vec) (s : scaling) : scaling :=
  {| mu_x := fun i => A i * mu_x s i + B i; sigma_x := fun i => A i * sigma_x s i; mu_y := fun k => a k * mu_y s k + b k; sigma_y := fun k => a k * sigma_y s k |}.
Definition conv_network (A B a b : vec) (n : network) : network := {| net_dims := net_dims n; net_params := net_params n; net_scaling := conv_scaling A B a b (net_scaling n) |}.

