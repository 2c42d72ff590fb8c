(** Vocabulary of C61, C62, C63, C65: networks as mathematical functions. *)
From Coq Require Import Reals Arith Bool List.
From Coquelicot Require Import Coquelicot.
From Verif Require Import RSum Genn_M.
Import ListNotations.
Open Scope list_scope.
Open Scope R_scope.
(** textbook activation functions *)
Definition phi (g : activation) (z : R) : R := match g with Sigmoid => / (1 + exp (- z)) | Tanh => tanh z | Linear => z end.
(** the function computed by a network *)
Fixpoint net (ls : list layer) (x : vec) : vec :=
  match ls with [] => x | l :: r => net r (fun i => phi (act l) (rsum (n_in l) (fun q => weight l i q * x q) + bias l i)) end.
(** the layers fit together *)
Fixpoint fits (nx : nat) (ls : list layer) (ny : nat) : Prop := match ls with [] => nx = ny | l :: r => n_in l = nx /\ fits (n_out l) r ny end.
(** column e of a data array *)
Definition col (X : arr) (e : nat) : vec := fun i => X i e.
(** the training objective: mean over the m examples of half the squared errors of values and of gamma times those of the partial derivatives, plus the weight penalty *)
Definition penalty (ls : list layer) : R := fold_right (fun l s => rsum (n_out l) (fun i => rsum (n_in l) (fun q => weight l i q ^ 2)) + s) 0 ls.
Definition objective (ls : list layer) (ny nx m : nat) (X Y : arr) (DY : arr3) (lambd gamma : R) : R :=
  (rsum m (fun e => rsum ny (fun k => (net ls (col X e) k - Y k e) ^ 2)) / 2 + lambd * penalty ls / 2 +
   gamma * rsum m (fun e => rsum ny (fun k => rsum nx (fun j => (Derive (fun t => net ls (upd (col X e) j t) k) (X j e) - DY j k e) ^ 2))) / 2) / INR m.
(** the network with weight (p, q) or bias p of layer number i (from 0) replaced by t *)
Definition upd_weight (l : layer) (p q : nat) (t : R) : layer :=
  {| n_out := n_out l; n_in := n_in l; weight := fun a b => if Nat.eqb a p && Nat.eqb b q then t else weight l a b; bias := bias l; act := act l |}.
Definition upd_bias (l : layer) (p : nat) (t : R) : layer :=
  {| n_out := n_out l; n_in := n_in l; weight := weight l; bias := upd (bias l) p t; act := act l |}.
(** the scaled prediction of a model at a point *)
Definition scaled (ls : list layer) (s : scaling) (x : vec) (k : nat) : R := net ls (fun i => (x i - mu_x s i) / sigma_x s i) k * sigma_y s k + mu_y s k.
