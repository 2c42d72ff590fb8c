(** Property C17: nested designs. *)
From Coq Require Import ZArith QArith Bool Arith List Lia.
From Verif Require Import Nested_M Nested_P.
Import ListNotations.
Open Scope list_scope.
Open Scope nat_scope.

(** C17. Whatever the samplers draw: if the call returns, there is one design per level, sizes
    are nb, 2 nb, 4 nb ... from the highest fidelity down, every point of a higher-fidelity design
    occurs in every lower one, and every point was drawn for its level or a higher one. *)
Theorem C17_nested : forall (pt : Type) (dist : pt -> pt -> Q) lhs nlevel nb out,
  (forall i nt, length (lhs i nt) = nt) -> nested_lhs dist lhs nlevel nb = Some out ->
  length out = nlevel /\
  (forall i, i < nlevel -> length (nth i out []) = 2 ^ (nlevel - 1 - i) * nb) /\
  (forall i j, i <= j -> j < nlevel -> incl (nth j out []) (nth i out [])) /\
  (forall i x, i < nlevel -> In x (nth i out []) -> exists j, i <= j < nlevel /\ In x (lhs j (2 ^ (nlevel - 1 - j) * nb))).
Proof. exact nested_result. Qed.
Print Assumptions C17_nested.

(** C17. The call does not raise when no drawn point is equally far from two points of a design. *)
Theorem C17_no_exception : forall (pt : Type) (dist : pt -> pt -> Q) lhs nlevel nb,
  (forall i nt, length (lhs i nt) = nt) -> 1 <= nlevel ->
  (forall i j h, i < nlevel -> j < nlevel -> In h (lhs i (2 ^ (nlevel - 1 - i) * nb)) ->
     forall k l a b, nth_error (lhs j (2 ^ (nlevel - 1 - j) * nb)) k = Some a ->
       nth_error (lhs j (2 ^ (nlevel - 1 - j) * nb)) l = Some b -> (dist h a == dist h b)%Q -> k = l) ->
  exists out, nested_lhs dist lhs nlevel nb = Some out.
Proof. exact nested_total. Qed.
Print Assumptions C17_no_exception.

(** Non-vacuity (points on a line, 2 levels, 2 high-fidelity points), and a tie that makes the
    code run out of neighbours: two low points at the same distance from two high points. *)
Example C17_nonvacuous :
  let d (a b : Z) := inject_Z ((a - b) * (a - b))%Z in
  let lhs (i nt : nat) := if Nat.eqb i 0 then [0; 7; 23; 60]%Z else [20; 10]%Z in
  nested_lhs d lhs 2 2 = Some [[0; 60; 20; 10]%Z; [20; 10]%Z] /\
  nest d [[5; -5]%Z; [0; 0]%Z] = None.
Proof. split; vm_compute; reflexivity. Qed.
