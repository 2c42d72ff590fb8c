(** Model of smt/utils/options_dictionary.py (class OptionsDictionary, lines 8-149).

    A *pool* of dictionaries is modelled (so that [clone] and aliasing can be stated);
    each call of the Python API is one operation of [step].  Exceptions are outputs.
    Python objects stored as option values are either immutable scalars or references
    ([VRef]) to mutable cells living in a heap (lists, arrays, dictionaries). *)
From Coq Require Import String ZArith Bool Arith List.
Import ListNotations.
Open Scope string_scope.
Open Scope list_scope.

(** Option values.  [VFloat] carries an abstract identifier of the float. *)
Inductive value :=
| VNone | VBool (b : bool) | VInt (z : Z) | VFloat (z : Z) | VStr (s : string)
| VRef (cls : string) (loc : nat).   (* mutable object of class [cls] at heap cell [loc] *)

(** Python classes used in [types=...] declarations. *)
Inductive ty := TBool | TInt | TFloat | TStr | TClass (cls : string).

(** Python [==] on the modelled values: bool/int compare numerically (True == 1);
    references compare by content in Python, here by identity (simplification: a list
    equal to but distinct from a listed value is treated as not listed). *)
Definition as_int (v : value) : option Z :=
  match v with VBool b => Some (if b then 1%Z else 0%Z) | VInt z => Some z | _ => None end.
Definition py_eq (a b : value) : bool :=
  match as_int a, as_int b with
  | Some x, Some y => Z.eqb x y
  | _, _ =>
    match a, b with
    | VNone, VNone => true
    | VFloat x, VFloat y => Z.eqb x y
    | VStr s, VStr t => String.eqb s t
    | VRef c l, VRef d m => String.eqb c d && Nat.eqb l m
    | _, _ => false
    end
  end.

(** [isinstance(value, t)]: bool is a subclass of int. *)
Definition isinstance1 (v : value) (t : ty) : bool :=
  match v, t with
  | VBool _, TBool => true | VBool _, TInt => true
  | VInt _, TInt => true | VFloat _, TFloat => true | VStr _, TStr => true
  | VRef c _, TClass d => String.eqb c d
  | _, _ => false
  end.
Definition isinstance (v : value) (ts : list ty) : bool := existsb (isinstance1 v) ts.
Definition member (v : value) (vs : list value) : bool := existsb (py_eq v) vs.

(** Declaration record: options_dictionary.py 140-145 (desc dropped: never read). *)
Record decl := { d_values : option (list value); d_types : option (list ty) }.

(** Association-list maps; [insert] overwrites (Python dict item assignment). *)
Definition lookup {A} (k : string) (m : list (string * A)) : option A :=
  match find (fun p => String.eqb k (fst p)) m with Some p => Some (snd p) | None => None end.
Definition insert {A} (k : string) (v : A) (m : list (string * A)) : list (string * A) :=
  (k, v) :: filter (fun p => negb (String.eqb k (fst p))) m.

(** The object: options_dictionary.py 20-22. *)
Record odict := { o_dict : list (string * value); o_decl : list (string * decl) }.
Definition od_empty : odict := {| o_dict := []; o_decl := [] |}.

(** [_assert_valid], options_dictionary.py 79-105 (the lookup of the declaration is done
    by the callers; both callers ensure it exists). *)
Definition assert_valid (d : decl) (v : value) : bool :=
  match d_values d, d_types d with
  | Some vs, Some ts => member v vs || isinstance v ts
  | Some vs, None => member v vs
  | None, Some ts => isinstance v ts
  | None, None => true
  end.

(** Outcomes of one call. [OAssert n]: AssertionError naming option [n]; [OKeyErr n]: KeyError. *)
Inductive out :=
| OOk | OVal (v : value) | OBool (b : bool) | ONew (id : nat)
| OAssert (n : string) | OKeyErr (n : string) | ONoObj.

(** [__setitem__], options_dictionary.py 52-72. *)
Definition od_set (o : odict) (n : string) (v : value) : odict * out :=
  match lookup n (o_decl o) with
  | None => (o, OAssert n)
  | Some d => if assert_valid d v
              then ({| o_dict := insert n v (o_dict o); o_decl := o_decl o |}, OOk)
              else (o, OAssert n)
  end.

(** [update], options_dictionary.py 107-117: item assignments in iteration order, the
    first failing one raises and stops the loop. *)
Fixpoint od_update (o : odict) (kvs : list (string * value)) : odict * out :=
  match kvs with
  | [] => (o, OOk)
  | (n, v) :: rest =>
      match od_set o n v with
      | (o', OOk) => od_update o' rest
      | (o', e) => (o', e)
      end
  end.

(** [declare], options_dictionary.py 119-149: the declaration is recorded first, then a
    non-None default is validated, then the default is stored. *)
Definition od_declare (o : odict) (n : string) (dflt : value) (d : decl) : odict * out :=
  let o1 := {| o_dict := o_dict o; o_decl := insert n d (o_decl o) |} in
  match dflt with
  | VNone => ({| o_dict := insert n VNone (o_dict o1); o_decl := o_decl o1 |}, OOk)
  | _ => if assert_valid d dflt
         then ({| o_dict := insert n dflt (o_dict o1); o_decl := o_decl o1 |}, OOk)
         else (o1, OAssert n)
  end.

(** Calls on a pool of dictionaries. [Mutate l x]: user code changes the content of the
    mutable object at cell [l] (e.g. [opts["prior"]["var"] = 2]). *)
Inductive op :=
| New
| Declare (i : nat) (n : string) (dflt : value) (d : decl)
| SetItem (i : nat) (n : string) (v : value)
| Update (i : nat) (kvs : list (string * value))
| GetItem (i : nat) (n : string)
| Contains (i : nat) (n : string)
| IsDeclared (i : nat) (n : string)
| Clone (i : nat)
| Mutate (l : nat) (x : Z).

Record state := { pool : list odict; heap : nat -> Z }.
Definition init : state := {| pool := []; heap := fun _ => 0%Z |}.

Definition set_nth {A} (i : nat) (x : A) (l : list A) : list A :=
  firstn i l ++ match skipn i l with [] => [] | _ :: r => x :: r end.

Definition on_obj (s : state) (i : nat) (f : odict -> odict * out) : state * out :=
  match nth_error (pool s) i with
  | None => (s, ONoObj)
  | Some o => let '(o', r) := f o in ({| pool := set_nth i o' (pool s); heap := heap s |}, r)
  end.

(** [__init__] 20-22, [clone] 24-36, [__getitem__] 38-50, [__contains__] 74-75,
    [is_declared] 77-78. *)
Definition step (s : state) (o : op) : state * out :=
  match o with
  | New => ({| pool := pool s ++ [od_empty]; heap := heap s |}, ONew (length (pool s)))
  | Declare i n dflt d => on_obj s i (fun x => od_declare x n dflt d)
  | SetItem i n v => on_obj s i (fun x => od_set x n v)
  | Update i kvs => on_obj s i (fun x => od_update x kvs)
  | GetItem i n => on_obj s i (fun x => (x, match lookup n (o_dict x) with Some v => OVal v | None => OKeyErr n end))
  | Contains i n => on_obj s i (fun x => (x, OBool (match lookup n (o_dict x) with Some _ => true | None => false end)))
  | IsDeclared i n => on_obj s i (fun x => (x, OBool (match lookup n (o_decl x) with Some _ => true | None => false end)))
  | Clone i => match nth_error (pool s) i with
               | None => (s, ONoObj)
               | Some x => ({| pool := pool s ++ [{| o_dict := o_dict x; o_decl := o_decl x |}]; heap := heap s |},
                            ONew (length (pool s)))
               end
  | Mutate l x => ({| pool := pool s; heap := fun m => if Nat.eqb m l then x else heap s m |}, OOk)
  end.

(** A run records the trace of (call, outcome), oldest first. *)
Fixpoint run (s : state) (ops : list op) : state * list (op * out) :=
  match ops with
  | [] => (s, [])
  | o :: rest => let '(s', r) := step s o in
                 let '(s'', tr) := run s' rest in (s'', (o, r) :: tr)
  end.

(** Declaration of KrgBased["corr"], smt/surrogate_models/krg_based.py 51-58. *)
Definition krg_corr_decl : decl :=
  {| d_values := Some [VStr "abs_exp"; VStr "squar_exp"; VStr "act_exp"; VStr "matern52"; VStr "matern32"];
     d_types := Some [TStr] |}.
