(** Vocabulary of the properties of the hyperparameter search. *)
From Coq Require Import Reals List.
From Verif Require Import HyperOpt_M.
Import ListNotations.
Open Scope R_scope.
Section Spec.
Context {Th Par : Type}.
Variable L : Th -> ev Par.
(** points at which one attempt evaluates the likelihood, and whether its optimiser raised a ValueError *)
Definition points (a : attempt Th) : list Th :=
  match a with
  | Cobyla a => r_evals a
  | Tnc a b => r_evals a ++ match r_out a with Some _ => r_evals b | None => [] end
  end.
Definition raised (a : attempt Th) : Prop :=
  match a with
  | Cobyla a => r_out a = None
  | Tnc a b => r_out a = None \/ r_out b = None
  end.
(** minus the likelihood, as the optimiser sees it *)
Definition objective (t : Th) (f : fval) : Prop :=
  match L t with Fin v _ => f = FFin (- v) | PosInf => f = FNegInf | NegInf => f = FPosInf | Exc => False end.
(** an optimiser that returns the best point it has evaluated, with its objective value *)
Definition good_run (r : run Th) : Prop :=
  forall x f, r_out r = Some (x, f) -> In x (r_evals r) /\ objective x f /\
    forall t g, In t (r_evals r) -> objective t g -> f_gt f g = false.
Definition good_attempt (a : attempt Th) : Prop :=
  match a with Cobyla a => good_run a | Tnc a b => good_run a /\ good_run b end.
End Spec.
