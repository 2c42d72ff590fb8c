(** Model of smt/utils/printer.py (12-135) and of LinearSolver._active (linear_solvers.py 123-129), run by arbitrary
    programs that print, nest contexts, raise and catch exceptions.
    Simplification: time.time() is an arbitrary clock, read once at entry and once at exit of a timed context. *)
From Coq Require Import Arith ZArith Bool String List.
Import ListNotations.
Open Scope list_scope.
Open Scope nat_scope.

Record printer := { active : bool; depth : nat; max_print_depth : nat; times : list (string * list Z); tick : nat }.
(** printer.py 28-32 *)
Definition new_printer : printer := {| active := false; depth := 1; max_print_depth := 100; times := []; tick := 0 |}.

Inductive cmd :=
| Print (s : string) (noindent : bool)
| SetActive (b : bool)
| Timed (str key : option string) (body : cmd)
| Active (b : bool) (body : cmd)
| Seq (c1 c2 : cmd)
| Skip
| Raise
| Try (c h : cmd).

Fixpoint spaces (n : nat) : string := match n with 0 => EmptyString | S n => ("   " ++ spaces n)%string end.
(** printer.py 49-63: the lines printed *)
Definition call (p : printer) (s : string) (noindent : bool) : list string :=
  if active p && Nat.leb (depth p) (max_print_depth p) then [if noindent then s else (spaces (depth p) ++ s)%string] else [].
Fixpoint add_time (k : string) (t : Z) (l : list (string * list Z)) : list (string * list Z) :=
  match l with [] => [(k, [t])] | (k', ts) :: r => if String.eqb k' k then (k', ts ++ [t]) :: r else (k', ts) :: add_time k t r end.
(** printer.py 34-47: None is KeyError *)
Definition time_of (p : printer) (k : string) : option (list Z) := match find (fun x => String.eqb (fst x) k) (times p) with Some x => Some (snd x) | None => None end.
Definition set_active (b : bool) (p : printer) : printer := {| active := b; depth := depth p; max_print_depth := max_print_depth p; times := times p; tick := tick p |}.
Definition set_depth (d : nat) (p : printer) : printer := {| active := active p; depth := d; max_print_depth := max_print_depth p; times := times p; tick := tick p |}.
Definition set_times (l : list (string * list Z)) (p : printer) : printer := {| active := active p; depth := depth p; max_print_depth := max_print_depth p; times := l; tick := tick p |}.
Definition next_tick (p : printer) : printer := {| active := active p; depth := depth p; max_print_depth := max_print_depth p; times := times p; tick := S (tick p) |}.

Section Exec.
Variables (clock : nat -> Z) (fmt : Z -> string).
(** the result: did it end without exception, the printer, the lines printed *)
Fixpoint exec (c : cmd) (p : printer) : bool * printer * list string :=
  match c with
  | Print s ni => (true, p, call p s ni)
  | SetActive b => (true, set_active b p, [])
  | Skip => (true, p, [])
  | Raise => (false, p, [])
  | Seq c1 c2 => match exec c1 p with
                 | (true, p1, l1) => match exec c2 p1 with (ok, p2, l2) => (ok, p2, l1 ++ l2) end
                 | r => r
                 end
  | Try c1 h => match exec c1 p with
                | (false, p1, l1) => match exec h p1 with (ok, p2, l2) => (ok, p2, l1 ++ l2) end
                | r => r
                end
  | Timed str key body => (* printer.py 98-135 *)
      let l0 := match str with Some s => call p (s ++ " ...") false | None => [] end in
      let start := clock (tick p) in
      match exec body (set_depth (S (depth p)) (next_tick p)) with
      | (false, p1, l1) => (false, p1, l0 ++ l1)
      | (true, p1, l1) =>
          let p2 := next_tick (set_depth (depth p1 - 1) p1) in
          let t := (clock (tick p1) - start)%Z in
          let l2 := match str with Some s => call p2 (s ++ " - done. Time (sec): " ++ fmt t) false | None => [] end in
          (true, match key with Some k => set_times (add_time k t (times p2)) p2 | None => p2 end, l0 ++ l1 ++ l2)
      end
  | Active b body => (* linear_solvers.py 123-129 *)
      match exec body (set_active (active p && b) p) with
      | (false, p1, l1) => (false, p1, l1)
      | (true, p1, l1) => (true, set_active (active p) p1, l1)
      end
  end.
End Exec.
(** an operation tried n times, every time failing inside a timed context and the exception caught by the caller *)
Fixpoint failing (n : nat) (s k : string) : cmd := match n with 0 => Skip | S n => Seq (Try (Timed (Some s) (Some k) Raise) Skip) (failing n s k) end.
