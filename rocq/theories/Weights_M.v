(** Model of the option "weights" of FullFactorial as a Python object: full_factorial.py 47-51.
    Lists and numpy arrays of integers or floats (a list with at least one float counts as a list of floats). *)
From Coq Require Import ZArith QArith Bool Arith List.
From Verif Require Import MixInt_M Sampling_M.
Import ListNotations.
Open Scope list_scope.
Open Scope nat_scope.
Inductive wopt := WNone | WInts (is_array : bool) (l : list Z) | WFloats (is_array : bool) (l : list Q).
Inductive outcome := TypeError | Returns (r : option (res (list (list Q)))).
(** one call of the sampling object: the outcome and the option afterwards.  Line 50: np.atleast_1d returns the object itself
    when it is an array, otherwise a new array; line 51: the division in place raises (no cast from float to int) for an
    array of integers and otherwise overwrites that array *)
Definition call (fuel : nat) (w : wopt) (clip : bool) (lims : list (Q * Q)) (nt : nat) : outcome * wopt :=
  match w with
  | WNone => (Returns (full_factorial fuel None clip lims nt), w)
  | WInts _ _ => (TypeError, w)
  | WFloats a l => (Returns (full_factorial fuel (Some l) clip lims nt),
                    if a then WFloats true (map (fun v => (v / Qsum l)%Q) l) else w)
  end.
(** any sequence of calls (clip, limits and number of points may be changed in between) *)
Fixpoint calls (fuel : nat) (w : wopt) (cs : list (bool * list (Q * Q) * nat)) : list outcome * wopt :=
  match cs with
  | [] => ([], w)
  | (clip, lims, nt) :: r => let '(o, w1) := call fuel w clip lims nt in let '(os, w2) := calls fuel w1 r in (o :: os, w2)
  end.
