(** Vocabulary of the training of GENN. *)
From Coq Require Import Reals ZArith Arith Bool List.
From Coquelicot Require Import Coquelicot.
From Verif Require Import RSum Genn_M Genn_S GennOpt_M GennOpt_S GennTrain_M.
Import ListNotations.
Open Scope list_scope.
Open Scope R_scope.
(** the batch consists of the examples numbered l, in values, outputs and derivatives alike *)
Definition examples (X Y : arr) (J : option arr3) (l : list nat) (b : batch) : Prop :=
  b_size b = length l /\ (forall e, (e < length l)%nat -> (forall i, b_X b i e = X i (nth e l 0%nat)) /\ (forall k, b_Y b k e = Y k (nth e l 0%nat))) /\
  match J, b_J b with
  | None, None => True
  | Some J, Some J' => forall e, (e < length l)%nat -> forall j k, J' j k e = J j k (nth e l 0%nat)
  | _, _ => False
  end.
(** batch sizes for m examples: as many as possible of size b, and what is left *)
Definition sizes (m b : nat) : list nat := repeat b (m / b) ++ (if Nat.eqb (m mod b) 0 then [] else [(m mod b)%nat]).
(** some batch has a single example *)
Definition single (m : nat) (size : Z) : Prop := let b := Nat.min (Z.to_nat size) m in b = 1%nat \/ (m mod b = 1)%nat.
Definition key_eq_dec (a b : key) : {a = b} + {a <> b}.
Proof. decide equality; apply Nat.eq_dec. Defined.
Definition updk (p : params) (k : key) (t : R) : params := fun k' => if key_eq_dec k' k then t else p k'.
(** entries of the parameter arrays of a network with the given layer sizes *)
Definition in_network (dims : list nat) (k : key) : Prop :=
  match k with
  | W l i q => (1 <= l)%nat /\ exists ni no, nth_error dims (l - 1) = Some ni /\ nth_error dims l = Some no /\ (i < no)%nat /\ (q < ni)%nat
  | B l i => (1 <= l)%nat /\ exists no, nth_error dims l = Some no /\ (i < no)%nat
  end.
(** objective of a batch as a function of the parameters *)
Definition goal (dims : list nat) (nx ny : nat) (b : batch) (J : arr3) (lambd gamma : R) (p : params) : R := objective (layers dims p) ny nx (b_size b) (b_X b) (b_Y b) J lambd gamma.
(** one optimisation per batch, each starting where the previous one ended *)
Inductive chain (step : batch -> params -> params -> list R -> Prop) : list batch -> params -> params -> list (list R) -> Prop :=
| chain_nil p : chain step [] p p []
| chain_cons b bs p p' p'' h hs : step b p p' h -> chain step bs p' p'' hs -> chain step (b :: bs) p p'' (h :: hs).
