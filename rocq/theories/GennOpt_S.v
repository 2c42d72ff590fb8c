(** Specification of the optimiser of GENN. *)
From Coq Require Import Reals List.
From Verif Require Import GennOpt_M.
Import ListNotations.
Open Scope list_scope.
Open Scope R_scope.
Section Spec.
Context {K : Type}.
Notation design := (K -> R).
(** exponential moving average, with factor b, of one entry of a sequence of vectors, starting from 0 *)
Definition average (b : R) (k : K) (ds : list design) : R := fold_left (fun m d => b * m + (1 - b) * d k) ds 0.
Definition square (d : design) : design := fun k => d k * d k.
(** the point reached from x with rate r, when the directions seen so far, oldest first, are ds, in iteration t (from 1 on) *)
Definition gd_point (x g : design) (r : R) : design := fun k => x k - r * g k.
Definition adam_point (t : nat) (ds : list design) (x : design) (r : R) : design := fun k =>
  x k - r * (average (9 / 10) k ds / (1 - (9 / 10) ^ t)) / (sqrt (average (99 / 100) k (map square ds) / (1 - (99 / 100) ^ t)) + / 2 ^ 52).
(** the point proposed with rate r when g has just been added to the directions *)
Definition point (kd : kind) (t : nat) (ds : list design) (g x : design) (r : R) : design := match kd with GD => gd_point x g r | Adam => adam_point t (ds ++ [g]) x r end.
(** rate of try number k (from 0 on), for a first factor tau *)
Definition rate (lr tau : R) (k : nat) : R := lr * tau ^ (2 ^ k).
(** point of try number k of a line search from x: each try adds the direction once more *)
Definition try_point (kd : kind) (t : nat) (ds : list design) (g x : design) (lr tau : R) (k : nat) : design := point kd t (ds ++ repeat g k) g x (rate lr tau k).
Definition good_step (f : design -> R) (x x' : design) (r : R) : Prop := f x' < f x \/ r < / 10 ^ 6.
(** try number k is the first one that decreases f or has a tiny rate *)
Definition first_good (f : design -> R) (kd : kind) (t : nat) (ds : list design) (g x : design) (lr tau : R) (k : nat) : Prop :=
  good_step f x (try_point kd t ds g x lr tau k) (rate lr tau k) /\ forall j, (j < k)%nat -> ~ good_step f x (try_point kd t ds g x lr tau j) (rate lr tau j).
(** the points visited by n iterations from x0, last first, and the directions used *)
Inductive run (f : design -> R) (g : design -> design) (kd : kind) (lr : R) (x0 : design) : nat -> list design -> list design -> Prop :=
| run_start : run f g kd lr x0 0 [x0] []
| run_step n x xs ds k : run f g kd lr x0 n (x :: xs) ds -> first_good f kd (n + 1) ds (g x) x lr (1 / 2) k ->
    run f g kd lr x0 (S n) (try_point kd (n + 1) ds (g x) x lr (1 / 2) k :: x :: xs) (ds ++ repeat (g x) (k + 1)).
(** the last 101 of n changes of cost, none of them in the first two iterations, are all small absolutely, or all small relatively *)
Definition small_absolute (h : nat -> R) (j : nat) : Prop := Rabs (h (S j) - h j) < / 10 ^ 7 * h O.
Definition small_relative (h : nat -> R) (j : nat) : Prop := Rabs (h (S j) - h j) / Rmax (Rabs (h (S j))) (/ 10 ^ 6) < / 10 ^ 7.
Definition stalled (h : nat -> R) (n : nat) : Prop :=
  (103 <= n)%nat /\ ((forall j, (n <= j + 101 -> j < n -> small_absolute h j)%nat) \/ (forall j, (n <= j + 101 -> j < n -> small_relative h j)%nat)).
End Spec.
