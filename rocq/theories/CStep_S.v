(** Vocabulary of C110: the domain of a problem and the textbook formulas. *)
From Coq Require Import Reals ZArith Arith List.
From Verif Require Import RSum Problems_M Problems_S.
Import ListNotations.
Open Scope R_scope.
Definition in_domain (p : problem) (x : vec) : Prop := forall i, (i < ndim p)%nat -> lower p i <= x i <= upper p i.
(** flow through a borehole: radii rw r, transmissivities Tu Tl, heads Hu Hl, length L, conductivity Kw *)
Definition borehole (num one rw r Tu Hu Tl Hl L Kw : R) : R :=
  num * Tu * (Hu - Hl) / (ln (r / rw) * (one + 2 * L * Tu / (ln (r / rw) * rw ^ 2 * Kw) + Tu / Tl)).
(** weight of a light aircraft wing; the sweep is in degrees *)
Definition wing_formula (Sw Wfw A sweep q l tc Nz Wdg Wp : R) : R :=
  let c := cos (sweep * PI / 180) in
  36 / 1000 * Rpower Sw (758 / 1000) * Rpower Wfw (35 / 10000) * (A / c ^ 2) * Rpower q (6 / 1000) * Rpower l (4 / 100) *
  Rpower (100 * tc / c) (- (3 / 10)) * Rpower (Nz * Wdg) (49 / 100) + Sw * Wp.
(** shear stress of a welded beam *)
Definition weld_formula (t h l : R) : R :=
  let r := sqrt ((l ^ 2 + (h + t) ^ 2) / 4) in
  let tau1 := 6000 / (sqrt 2 * h * l) in
  let tau2 := 6000 * (14 + l / 2) * r / (2 * (707 / 1000 * h * l * (l / 12 + (h + t) ^ 2 / 4))) in
  sqrt (tau1 ^ 2 + tau2 ^ 2 + l * tau1 * tau2 / r).
(** the same as the documentation prints it (doc/_src_docs/problems/weldedbeam.rst) *)
Definition weld_documented (t h l : R) : R :=
  let r := sqrt ((l ^ 2 + (h + t) ^ 2) / 4) in
  let tau1 := 6000 / (sqrt 2 * h * l) in
  let tau2 := 6000 * (14 + l / 2) * r / (2 * (707 / 1000 * h * l * (l ^ 2 / 12 + (h + t) ^ 2 / 4))) in
  sqrt ((tau1 ^ 2 + tau2 ^ 2 + l * tau1 * tau2) / r).
(** stiffness of a shaft and inertia of a disc, as the code has them; the documentation has D/2 in place of (D/2)^2 *)
Definition stiffness (d L G : R) : R := PI * G * d / (32 * L).
Definition inertia (d t rho : R) : R := 1 / 2 * (rho * PI * t * d / (4 * (980665 / 100000))) * (d / 2) ^ 2.
Definition inertia_documented (d t rho : R) : R := 1 / 2 * (rho * PI * t * d / (4 * (980665 / 100000))) * (d / 2).
(** w is the lower root of the characteristic equation of two discs on three shafts *)
Definition lowest_root (K1 K2 K3 J1 J2 w : R) : Prop :=
  let f := fun t => (K1 + K2 - J1 * t) * (K2 + K3 - J2 * t) - K2 ^ 2 in f w = 0 /\ 0 < w /\ forall t, f t = 0 -> w <= t.
(** x |-> d is near the derivative: the exact derivative of f at a point at distance less than m in direction k *)
Definition derivative_within (f : vec -> R) (x : vec) (k : nat) (m d : R) : Prop :=
  exists t, Rabs (t - x k) < m /\ is_partial f (upd x k t) k d.
(** the derivative the problem family p reports for step ch approaches the derivative, and is a number for every small step *)
Definition step_consistent (p : R -> problem) (x : vec) (k : nat) : Prop :=
  exists d, is_partial (value (p 1)) x k d /\
    forall eps, 0 < eps -> exists h, 0 < h /\ forall ch, 0 < Rabs ch < h -> exists v, evaluate (p ch) x (Some (Z.of_nat k)) = Some v /\ Rabs (v - d) < eps.
