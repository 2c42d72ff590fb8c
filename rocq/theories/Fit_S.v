(** Vocabulary of C115. *)
From Coq Require Import Reals Arith List String.
From Verif Require Import RSum.
Import ListNotations.
Open Scope list_scope.
Open Scope R_scope.
Definition average (m : nat) (v : nat -> R) : R := rsum m v / INR m.
Definition variance (m : nat) (v : nat -> R) : R := average m (fun i => (v i - average m v) ^ 2).
(** mean squared error *)
Definition mean_sq (m : nat) (p t : nat -> R) : R := average m (fun i => (p i - t i) ^ 2).
(** position of the first column of that name *)
Definition first_at (names : list string) (label : string) (c : nat) : Prop :=
  nth_error names c = Some label /\ forall c', (c' < c)%nat -> nth_error names c' <> Some label.
(** the column called [label] is [v], one number per line of the file *)
Definition is_column (names : list string) (lines : list (list R)) (label : string) (v : list R) : Prop :=
  exists c, first_at names label c /\ List.length v = List.length lines /\ forall e l, nth_error lines e = Some l -> exists x, nth_error l c = Some x /\ nth_error v e = Some x.
(** the name of the partial derivative of output i with respect to input j, if given *)
Definition label_at (ps : list (list string)) (i j : nat) : option string := match nth_error ps i with Some r => nth_error r j | None => None end.
(** usable file: a table with at least two lines and two columns, all lines of the same length *)
Definition table (lines : list (list R)) : Prop := (2 <= List.length lines)%nat /\ exists w, (2 <= w)%nat /\ forall l, In l lines -> List.length l = w.
Definition known (names : list string) (lines : list (list R)) (label : string) : Prop := exists v, is_column names lines label v.
Definition given (partials : option (list (list string))) : list (list string) := match partials with None => [] | Some ps => ps end.
Definition entry (T : list (list (list R))) (i j : nat) : option (list R) := match nth_error T i with Some row => nth_error row j | None => None end.
(** what the reported figures r (R-square), s (deviation of the errors) and e (mean error) of predictions p of true values t mean *)
Definition figures (m : nat) (p t : nat -> R) (r s e : R) : Prop :=
  let err := fun i => p i - t i in
  Rabs (e - average m err) <= 1 / 200 /\ Rabs (s - sqrt (variance m err)) <= 1 / 200 /\
  Rabs (r - (1 - mean_sq m p t / (variance m t + / 10 ^ 8))) <= 1 / 200 /\ r <= 1 /\ (r = 1 <-> mean_sq m p t <= 5 / 1000 * (variance m t + / 10 ^ 8)).
