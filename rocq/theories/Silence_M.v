(** Model of smt/utils/silence.py: Silence (11-18) and Silence2 (87-127), run by arbitrary programs that print, redirect
    sys.stdout, nest the contexts, raise and catch exceptions.
    Streams: Real is sys.__stdout__, User n is any other stream of the program, Null n the n-th opened os.devnull. *)
From Coq Require Import Arith Bool String List.
Import ListNotations.
Open Scope list_scope.
Open Scope nat_scope.
Inductive stream := Real | User (n : nat) | Null (n : nat).
Definition seqb (a b : stream) : bool := match a, b with Real, Real => true | User n, User m => Nat.eqb n m | Null n, Null m => Nat.eqb n m | _, _ => false end.
Record io := { stdout : stream; closed : list stream; nulls : nat; written : list (stream * string) }.
Inductive cmd := Write (s : string) | Redirect (n : nat) | Silent (body : cmd) | Silent2 (body : cmd) | Seq (a b : cmd) | Skip | Raise | Try (a h : cmd).
Definition is_closed (f : stream) (w : io) : bool := existsb (seqb f) (closed w).
(** silence.py 12-13 *)
Definition enter (w : io) : io := {| stdout := Null (nulls w); closed := closed w; nulls := S (nulls w); written := written w |}.
(** silence.py 15-18: closes whatever sys.stdout is now *)
Definition exit (w : io) : io := {| stdout := Real; closed := stdout w :: closed w; nulls := nulls w; written := written w |}.
(** silence.py 93-127 under Python 3: the calls map(os.dup, ...) and map(os.dup2, ...) are lazy and never run, so file
    descriptors are untouched; on exit sys.stdout becomes sys.__stdout__ *)
Definition exit2 (w : io) : io := {| stdout := Real; closed := closed w; nulls := nulls w; written := written w |}.
(** true: ended without exception; printing to a closed stream raises *)
Fixpoint exec (c : cmd) (w : io) : bool * io :=
  match c with
  | Write s => if is_closed (stdout w) w then (false, w) else (true, {| stdout := stdout w; closed := closed w; nulls := nulls w; written := written w ++ [(stdout w, s)] |})
  | Redirect n => (true, {| stdout := User n; closed := closed w; nulls := nulls w; written := written w |})
  | Silent b => let '(ok, w1) := exec b (enter w) in (ok, exit w1)
  | Silent2 b => let '(ok, w1) := exec b w in (ok, exit2 w1)
  | Seq a b => match exec a w with (true, w1) => exec b w1 | r => r end
  | Skip => (true, w)
  | Raise => (false, w)
  | Try a h => match exec a w with (false, w1) => exec h w1 | r => r end
  end.
(** programs that neither redirect nor silence *)
Fixpoint plain (c : cmd) : Prop := match c with Write _ | Skip | Raise => True | Seq a b | Try a b => plain a /\ plain b | _ => False end.
(** what a program without exceptions prints *)
Fixpoint prints (c : cmd) : list string := match c with Write s => [s] | Seq a b => prints a ++ prints b | Silent a | Silent2 a => prints a | Try a _ => prints a | _ => [] end.
Fixpoint no_raise (c : cmd) : Prop := match c with Raise => False | Seq a b | Try a b => no_raise a /\ no_raise b | Silent a | Silent2 a => no_raise a | _ => True end.
