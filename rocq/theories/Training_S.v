(** Specification of the training-data API on the visible history (newest first). *)
From Coq Require Import String ZArith Bool Arith List.
From Verif Require Import Training_M.
Import ListNotations.
Open Scope list_scope.

Section Spec.
Context {A : Type}.
Definition trace := list (op A * out).

(** content of the caller's array [l] at the time the history ends *)
Fixpoint content (past : trace) (l : nat) : option (arr A) :=
  match past with
  | [] => None
  | (NewArr a, Loc m) :: p => if Nat.eqb l m then Some a else content p l
  | (Poke m i v, Done) :: p =>
      if Nat.eqb l m then
        match content p l with
        | Some a => match set_flat i v (data a) with
                    | Some d => Some {| shape := shape a; data := d |}
                    | None => None end
        | None => None end
      else content p l
  | _ :: p => content p l
  end.

(** the same content as a 2D table: a rank-1 array is a column *)
Definition as_table (a : arr A) : arr A :=
  {| shape := match shape a with [] => [1; 1] | [n] => [n; 1] | s => s end; data := data a |}.
Definition rank_ok (a : arr A) : Prop := length (shape a) <= 2.
Definition table (past : trace) (l : nat) : option (arr A) := option_map as_table (content past l).

Definition pair_of (x y : option (arr A)) : option (arr A * arr A) :=
  match x, y with Some a, Some b => Some (a, b) | _, _ => None end.

(** training values (inputs, outputs) of group [name]: last successful set/update call *)
Fixpoint values_of (past : trace) (name : label) : option (arr A * arr A) :=
  match past with
  | [] => None
  | (SetValues lx ly n, Done) :: p =>
      if label_eqb name n then pair_of (table p lx) (table p ly) else values_of p name
  | (UpdateValues ly n, Done) :: p =>
      if label_eqb name n then pair_of (option_map fst (values_of p name)) (table p ly) else values_of p name
  | _ :: p => values_of p name
  end.

(** derivatives w.r.t. input [k] of group [name]: last successful set/update call for that k *)
Fixpoint derivs_of (past : trace) (name : label) (k : Z) : option (arr A * arr A) :=
  match past with
  | [] => None
  | (SetDerivs lx ly j n, Done) :: p =>
      if label_eqb name n && Z.eqb k j then pair_of (table p lx) (table p ly) else derivs_of p name k
  | (UpdateDerivs ly j n, Done) :: p =>
      if label_eqb name n && Z.eqb k j then pair_of (option_map fst (derivs_of p name k)) (table p ly) else derivs_of p name k
  | _ :: p => derivs_of p name k
  end.

(** recorded sizes (number of points, of inputs, of outputs): those of the last successful call setting values, for whatever group *)
Fixpoint sizes_of (past : trace) : option (nat * nat * nat) :=
  match past with
  | [] => None
  | (SetValues lx ly n, Done) :: p => match table p lx, table p ly with Some x, Some y => Some (rows x, cols x, cols y) | _, _ => None end
  | _ :: p => sizes_of p
  end.

(** derivative indexes are 0-based and non-negative, as documented *)
Definition nonneg_kx (o : op A) : Prop :=
  match o with SetDerivs _ _ k _ | UpdateDerivs _ k _ => (0 <= k)%Z | _ => True end.
End Spec.
Arguments trace : clear implicits.
