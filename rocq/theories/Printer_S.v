(** Vocabulary of C53. *)
From Coq Require Import Arith ZArith Bool String List.
From Verif Require Import Printer_M.
Section S.
Variables (clock : nat -> Z) (fmt : Z -> string).
Definition ok (r : bool * printer * list string) : bool := fst (fst r).
Definition after (r : bool * printer * list string) : printer := snd (fst r).
Definition lines (r : bool * printer * list string) : list string := snd r.
(** the printer seen by the body of a timed context *)
Definition inside (p : printer) : printer := set_depth (S (depth p)) (next_tick p).
(** number of timed contexts left by an exception while c runs *)
Fixpoint aborted (c : cmd) (p : printer) : nat :=
  match c with
  | Seq c1 c2 => aborted c1 p + (if ok (exec clock fmt c1 p) then aborted c2 (after (exec clock fmt c1 p)) else 0)
  | Try c1 h => aborted c1 p + (if ok (exec clock fmt c1 p) then 0 else aborted h (after (exec clock fmt c1 p)))
  | Timed _ _ b => aborted b (inside p) + (if ok (exec clock fmt b (inside p)) then 0 else 1)
  | Active b c1 => aborted c1 (set_active (active p && b) p)
  | _ => 0
  end.
(** number of timed contexts with key k left normally *)
Fixpoint completed (k : string) (c : cmd) (p : printer) : nat :=
  match c with
  | Seq c1 c2 => completed k c1 p + (if ok (exec clock fmt c1 p) then completed k c2 (after (exec clock fmt c1 p)) else 0)
  | Try c1 h => completed k c1 p + (if ok (exec clock fmt c1 p) then 0 else completed k h (after (exec clock fmt c1 p)))
  | Timed _ key b => completed k b (inside p) + (if ok (exec clock fmt b (inside p)) then match key with Some k' => if String.eqb k' k then 1 else 0 | None => 0 end else 0)
  | Active b c1 => completed k c1 (set_active (active p && b) p)
  | _ => 0
  end.
(** programs that catch no exception; programs that do not switch printing *)
Fixpoint no_try (c : cmd) : Prop := match c with Seq a b => no_try a /\ no_try b | Timed _ _ b => no_try b | Active _ b => no_try b | Try _ _ => False | _ => True end.
Fixpoint no_switch (c : cmd) : Prop := match c with Seq a b => no_switch a /\ no_switch b | Timed _ _ b => no_switch b | Active _ b => no_switch b | Try a b => no_switch a /\ no_switch b | SetActive _ => False | _ => True end.
Definition recorded (p : printer) (k : string) : list Z := match time_of p k with Some l => l | None => nil end.
End S.
