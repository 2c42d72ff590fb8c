(** Vocabulary of C58 and C59. *)
From Coq Require Import Reals ZArith Arith List.
From Verif Require Import RSum Problems_M.
Import ListNotations.
Open Scope R_scope.
(** the function a problem evaluates *)
Definition value (p : problem) (x : vec) : R := match evaluate p x None with Some v => v | None => 0 end.
(** at x the problem reports, for variable k, the partial derivative of that function *)
Definition derivative_correct (p : problem) (x : vec) (k : nat) : Prop := exists d, evaluate p x (Some (Z.of_nat k)) = Some d /\ is_partial (value p) x k d.
(** textbook formulas *)
Definition branin_f (x y : R) : R := (y - 51 / 10 / (4 * PI ^ 2) * x ^ 2 + 5 / PI * x - 6) ^ 2 + 10 * (1 - 1 / (8 * PI)) * cos x + 10.
(** arm of m segments with lengths x0, x2, .. and relative angles x1, x3, ..: coordinates of the tip *)
Definition arm_heading (x : vec) (i : nat) : R := rsum (S i) (fun j => x (2 * j + 1)%nat).
Definition arm_x (m : nat) (x : vec) : R := rsum m (fun i => x (2 * i)%nat * cos (arm_heading x i)).
Definition arm_y (m : nat) (x : vec) : R := rsum m (fun i => x (2 * i)%nat * sin (arm_heading x i)).
(** stepped cantilever of m elements with widths x0, x3, .., heights x1, x4, .., lengths x2, x5, .. (from the wall): distance of the root of element i from the tip *)
Definition beam_arm (m : nat) (x : vec) (i : nat) : R := rsum (m - i) (fun j => x (3 * (i + j) + 2)%nat).
(** tip deflection: P / (3 E) times the sum of (a_i^3 - a_{i+1}^3) / I_i with I = b h^3 / 12 *)
Definition beam_f (P E : R) (m : nat) (x : vec) : R :=
  P / (3 * E) * rsum m (fun i => (beam_arm m x i ^ 3 - beam_arm m x (S i) ^ 3) / (x (3 * i)%nat * x (3 * i + 1)%nat ^ 3 / 12)).
(** the point of the full problem that a reduced problem evaluates: coordinate dims_i is x_i, the others are at relative position w *)
Definition section_of (p : problem) (dims : list nat) (w : R) (x xp : vec) : Prop :=
  (forall i, (i < length dims)%nat -> xp (nth i dims 0%nat) = x i) /\ forall j, ~ In j dims -> xp j = (1 - w) * lower p j + w * upper p j.
(** the dimension arguments that are accepted, and the list of dimensions they stand for *)
Definition acceptable (n : nat) (d : dimsarg) : Prop :=
  match d with DInt z => (z <= Z.of_nat n)%Z | DList l => l <> [] /\ forall z, In z l -> (- Z.of_nat n <= z < Z.of_nat n)%Z end.
Definition dims_list (d : dimsarg) : list Z := match d with DInt z => map Z.of_nat (seq 0 (Z.to_nat z)) | DList l => l end.
(** s, s + st, .., s + st (n-1) *)
Definition arith (s st n : nat) : list nat := map (fun i => (s + st * i)%nat) (seq 0 n).
(** what an Ndim problem is: the section of the full problem along the variables s, s + st, s + 2 st, .. *)
Definition is_slice (p q : problem) (s st n : nat) (w : R) : Prop :=
  ndim q = n /\ (forall i, (i < n)%nat -> lower q i = lower p (s + st * i)%nat /\ upper q i = upper p (s + st * i)%nat) /\
  forall x, exists xp, section_of p (arith s st n) w x xp /\ value q x = value p xp /\ forall k, (k < n)%nat -> derivative_correct p xp (s + st * k)%nat -> derivative_correct q x k.
