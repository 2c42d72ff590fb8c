(** Model of smt/applications/mfk.py 36-105 (NestedLHS).
    Simplifications: points are an abstract type, the euclidean distance an arbitrary rational
    function [dist] (the code only sorts and compares distances), the LHS sampler an arbitrary
    function [lhs level nt] returning the design drawn for that level. [None] = IndexError. *)
From Coq Require Import ZArith QArith Bool Arith List.
Import ListNotations.
Open Scope list_scope.
Open Scope nat_scope.

Section Nested.
Context {pt : Type}.
Variable dist : pt -> pt -> Q.

(** numpy.sort *)
Fixpoint insert (x : Q) (l : list Q) : list Q :=
  match l with [] => [x] | y :: r => if Qle_bool x y then x :: l else y :: insert x r end.
Fixpoint sort (l : list Q) : list Q := match l with [] => [] | x :: r => insert x (sort r) end.

(** [(np.where(row == k))[0][0]] *)
Fixpoint first_index (k : Q) (row : list Q) : nat :=
  match row with [] => 0 | x :: r => if Qeq_bool x k then 0 else S (first_index k r) end.

(** mfk.py 92-99: walk through the sorted distances until the index found is unused *)
Fixpoint pick_from (sorted row : list Q) (ind : list nat) : option nat :=
  match sorted with
  | [] => None
  | k :: r => let l := first_index k row in
              if existsb (Nat.eqb l) ind then pick_from r row ind else Some l
  end.

(** mfk.py 91-100 *)
Fixpoint choose (hi lo : list pt) (ind : list nat) : option (list nat) :=
  match hi with
  | [] => Some ind
  | h :: hs => let row := map (dist h) lo in
               match pick_from (sort row) row ind with
               | None => None
               | Some l => choose hs lo (ind ++ [l])
               end
  end.

(** numpy.delete(lo, ind, axis=0) *)
Fixpoint delete_from (i : nat) (ind : list nat) (lo : list pt) : list pt :=
  match lo with
  | [] => []
  | x :: r => if existsb (Nat.eqb i) ind then delete_from (S i) ind r else x :: delete_from (S i) ind r
  end.

(** mfk.py 88-103: levels processed from the last pair to the first *)
Fixpoint nest (does : list (list pt)) : option (list (list pt)) :=
  match does with
  | [] => Some []
  | d :: rest =>
      match nest rest with
      | None => None
      | Some [] => Some [d]
      | Some (r :: rs) =>
          match choose r d [] with
          | None => None
          | Some ind => Some ((delete_from 0 ind d ++ r) :: r :: rs)
          end
      end
  end.

(** mfk.py 71-87: level sizes 2^(nlevel-1-i) * nb and one LHS per level; nt[0] of an empty list
    is an IndexError *)
Definition nested_lhs (lhs : nat -> nat -> list pt) (nlevel nb : nat) : option (list (list pt)) :=
  match nlevel with
  | 0 => None
  | _ => nest (map (fun i => lhs i (2 ^ (nlevel - 1 - i) * nb)) (seq 0 nlevel))
  end.
End Nested.
