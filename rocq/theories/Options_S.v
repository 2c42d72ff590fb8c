(** Specification vocabulary for options dictionaries: everything is defined on the visible
    history of calls and outcomes (newest first), not on the dictionary's fields. *)
From Coq Require Import String ZArith Bool Arith List.
From Verif Require Import Options_M.
Import ListNotations.

Definition trace := list (op * out).

(** entries of a Python dict literal that precede key [m] *)
Fixpoint before (m : string) (kvs : list (string * value)) : list (string * value) :=
  match kvs with
  | [] => []
  | (n, v) :: r => if String.eqb n m then [] else (n, v) :: before m r
  end.
Fixpoint entry (n : string) (kvs : list (string * value)) : option value :=
  match kvs with
  | [] => None
  | (m, v) :: r => if String.eqb n m then Some v else entry n r
  end.

Definition hit (i j : nat) (n m : string) : bool := Nat.eqb i j && String.eqb n m.

(** the value last written (accepted set, accepted entry of an update, or declared default)
    to option [n] of dictionary [i]; a clone inherits its parent's value at cloning time.
    The boolean tells whether that write was a declared default. *)
Fixpoint last_write (past : trace) (i : nat) (n : string) : option (value * bool) :=
  match past with
  | [] => None
  | (o, r) :: past' =>
      match o, r with
      | Declare j m dflt _, OOk => if hit i j n m then Some (dflt, true) else last_write past' i n
      | SetItem j m v, OOk => if hit i j n m then Some (v, false) else last_write past' i n
      | Update j kvs, OOk =>
          if Nat.eqb i j then match entry n kvs with Some v => Some (v, false) | None => last_write past' i n end
          else last_write past' i n
      | Update j kvs, OAssert m =>
          if Nat.eqb i j then match entry n (before m kvs) with Some v => Some (v, false) | None => last_write past' i n end
          else last_write past' i n
      | Clone j, ONew k => if Nat.eqb i k then last_write past' j n else last_write past' i n
      | _, _ => last_write past' i n
      end
  end.

(** the declaration in force: the last declare call for that option, successful or not *)
Fixpoint decl_in_force (past : trace) (i : nat) (n : string) : option decl :=
  match past with
  | [] => None
  | (o, r) :: past' =>
      match o, r with
      | Declare _ _ _ _, ONoObj => decl_in_force past' i n
      | Declare j m _ d, _ => if hit i j n m then Some d else decl_in_force past' i n
      | Clone j, ONew k => if Nat.eqb i k then decl_in_force past' j n else decl_in_force past' i n
      | _, _ => decl_in_force past' i n
      end
  end.

(** Python equality of option values: True is 1 and False is 0, otherwise the values are identical *)
Inductive same : value -> value -> Prop :=
| same_refl v : same v v
| same_true : same (VBool true) (VInt 1) | same_true' : same (VInt 1) (VBool true)
| same_false : same (VBool false) (VInt 0) | same_false' : same (VInt 0) (VBool false).
(** instances of Python types: a bool is also an int *)
Inductive instance : value -> ty -> Prop :=
| inst_bool b : instance (VBool b) TBool | inst_bool_int b : instance (VBool b) TInt
| inst_int z : instance (VInt z) TInt | inst_float z : instance (VFloat z) TFloat | inst_str s : instance (VStr s) TStr
| inst_ref c l : instance (VRef c l) (TClass c).
(** the documented acceptance rule (options_dictionary.py 56-60) *)
Definition listed (v : value) (vs : list value) : Prop := exists w, In w vs /\ same v w.
Definition has_type (v : value) (ts : list ty) : Prop := exists t, In t ts /\ instance v t.
Definition admissible (d : decl) (v : value) : Prop :=
  match d_values d, d_types d with
  | Some vs, Some ts => listed v vs \/ has_type v ts
  | Some vs, None => listed v vs
  | None, Some ts => has_type v ts
  | None, None => True
  end.

(** the argument of update is a Python dict: keys are distinct *)
Definition wf_op (o : op) : Prop :=
  match o with Update _ kvs => NoDup (map fst kvs) | _ => True end.

(** which dictionary a call is made on *)
Definition target (o : op) : option nat :=
  match o with
  | Declare i _ _ _ | SetItem i _ _ | Update i _ | GetItem i _ | Contains i _ | IsDeclared i _ | Clone i => Some i
  | New | Mutate _ _ => None
  end.

Definition declares_ok (tr : trace) : Prop :=
  forall i n dflt d r, In (Declare i n dflt d, r) tr -> r = OOk \/ r = ONoObj.
