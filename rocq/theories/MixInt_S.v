(** Specification vocabulary for mixed-integer encodings, independent of the model's loops:
    a relaxed row is the concatenation of one block per variable. *)
From Coq Require Import String ZArith QArith Bool Arith List.
From Verif Require Import MixInt_M.
Import ListNotations.
Open Scope list_scope.
Open Scope nat_scope.

Inductive Forall3 {A B C} (P : A -> B -> C -> Prop) : list A -> list B -> list C -> Prop :=
| Forall3_nil : Forall3 P [] [] []
| Forall3_cons a b c la lb lc : P a b c -> Forall3 P la lb lc -> Forall3 P (a :: la) (b :: lb) (c :: lc).

(** well-formed specifications: no malformed type, enums have at least one level *)
Definition good_type (t : xtype) : Prop :=
  match t with FLOAT | INT => True | ENUM n => 1 <= n | _ => False end.
(** number of relaxed coordinates of a variable *)
Definition width (t : xtype) : nat := match t with ENUM n => n | _ => 1 end.
(** [bs] is the list of blocks of a relaxed row for the types [ts] *)
Definition blocks (ts : list xtype) (bs : list (list Q)) : Prop :=
  Forall2 (fun t b => length b = width t) ts bs.

(** declared limits fit the type *)
Definition limits_fit (t : xtype) (l : list level) : Prop :=
  match t with FLOAT | INT => length l = 2 | ENUM n => length l = n | _ => False end.
(** relaxed bounds of one variable *)
Definition relaxed (t : xtype) (l : list level) (rows : list (Q * Q)) : Prop :=
  match t with
  | ENUM n => rows = repeat (0%Q, 1%Q) n
  | _ => exists a b, l = [Num a; Num b] /\ rows = [(a, b)]
  end.

(** [z] is a nearest integer of [q], the even one if there are two *)
Definition nearest_even (q : Q) (z : Z) : Prop :=
  (Qle (q - inject_Z z) (1#2) /\ Qle (inject_Z z - q) (1#2))%Q /\
  ((q - inject_Z z == 1#2 \/ inject_Z z - q == 1#2)%Q -> Z.even z = true).
(** coordinate [i] of block [b] is maximal *)
Definition maximal (b : list Q) (i : nat) : Prop := forall j, j < length b -> (nth j b 0 <= nth i b 0)%Q.
(** [b'] is the projection of block [b] of a variable of type [t] *)
Definition projected (t : xtype) (b b' : list Q) : Prop :=
  match t with
  | INT => exists q z, b = [q] /\ b' = [inject_Z z] /\ nearest_even q z
  | ENUM n => length b' = n /\
      (forall i, i < n -> (maximal b i -> nth i b' 0%Q = 1%Q) /\ (~ maximal b i -> nth i b' 0%Q = 0%Q)) /\
      exists i, i < n /\ maximal b i
  | _ => b' = b
  end.
(** block with a single 1 at position [i] *)
Definition hot (b : list Q) (i : nat) : Prop :=
  i < length b /\ forall j, j < length b -> nth j b 0%Q = if Nat.eqb j i then 1%Q else 0%Q.
(** a folded coordinate and a block denote the same value of the variable *)
Definition same_value (t : xtype) (v : Q) (b : list Q) : Prop :=
  match t with
  | ENUM n => length b = n /\ exists i, v = inject_Z (Z.of_nat i) /\ hot b i
  | _ => b = [v]
  end.
Definition in_bounds (lim : Q * Q) (v : Q) : Prop := (fst lim <= v /\ v <= snd lim)%Q.
(** declared numeric bounds of an integer variable are integers *)
Definition int_bounds (t : xtype) (l : list level) : Prop :=
  match t with INT => exists a b, l = [Num (inject_Z a); Num (inject_Z b)] | _ => True end.
(** [v] is a legal folded value of a variable with declared limits [l] *)
Definition legal (t : xtype) (l : list level) (v : Q) : Prop :=
  match t with
  | FLOAT => exists a b, l = [Num a; Num b] /\ in_bounds (a, b) v
  | INT => exists a b z, l = [Num a; Num b] /\ v = inject_Z z /\ in_bounds (a, b) v
  | ENUM n => exists i, i < n /\ v = inject_Z (Z.of_nat i)
  | _ => False
  end.
(** the user-facing value *)
Definition legal_mixed (t : xtype) (l : list level) (m : mixed) : Prop :=
  match t, m with
  | FLOAT, MFloat q => exists a b, l = [Num a; Num b] /\ in_bounds (a, b) q
  | INT, MInt z => exists a b, l = [Num a; Num b] /\ in_bounds (a, b) (inject_Z z)
  | ENUM _, MLevel v => In v l
  | _, _ => False
  end.
(** [k] is [q] truncated toward zero *)
Definition truncates (q : Q) (k : Z) : Prop :=
  (0 <= q /\ inject_Z k <= q < inject_Z (k + 1))%Q \/ (q < 0 /\ inject_Z (k - 1) < q <= inject_Z k)%Q.
(** a folded coordinate that names a level of an enum with n levels: after truncation it counts from the start or, when negative, from the end *)
Definition names_level (t : xtype) (v : Q) (b : list Q) : Prop :=
  match t with
  | ENUM n => length b = n /\ exists k, truncates v k /\ (- Z.of_nat n <= k < Z.of_nat n)%Z /\ hot b (Z.to_nat (k mod Z.of_nat n))
  | _ => b = [v]
  end.
(** a folded coordinate that names no level *)
Definition no_level (t : xtype) (v : Q) : Prop := match t with ENUM n => exists k, truncates v k /\ ((k < - Z.of_nat n) \/ (Z.of_nat n <= k))%Z | _ => False end.
