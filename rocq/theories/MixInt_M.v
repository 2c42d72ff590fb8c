(** Model of smt/applications/mixed_integer.py: mixed-integer/categorical encodings.
    Simplifications: floats are rationals (no NaN/inf, no -0.0); the numbers of enum levels are
    naturals; every function works row by row in the source, so the model gives the row function
    and lifts it over the rows of a table (an exception in one row is an exception of the call;
    with zero rows no element-wise exception is raised). *)
From Coq Require Import String ZArith QArith Qround Bool Arith List.
Import ListNotations.
Open Scope list_scope.

(** mixed_integer.py 11-13; the last two constructors are the malformed specifications (an
    unknown non-tuple, a tuple with another tag) that the code rejects. *)
Inductive xtype := FLOAT | INT | ENUM (n : nat) | BadType | BadTuple (n : nat).

(** an entry of xlimits: numeric bound or label *)
Inductive level := Num (q : Q) | Lab (s : string).

Inductive res (A : Type) := Ok (a : A) | ValueError | IndexError.
Arguments Ok {A} a. Arguments ValueError {A}. Arguments IndexError {A}.

Definition is_tuple (t : xtype) : bool := match t with ENUM _ | BadTuple _ => true | _ => false end.
Definition bad_spec (t : xtype) : bool := match t with BadType | BadTuple _ => true | _ => false end.
Definition tuple_arity (t : xtype) : option nat := match t with ENUM n | BadTuple n => Some n | _ => None end.

(** mixed_integer.py 25-47: the loop of check_xspec_consistency, three tests per variable *)
Fixpoint check_loop (ts : list xtype) (ls : list (list level)) : bool :=
  match ts, ls with
  | t :: ts', l :: ls' =>
      if negb (is_tuple t) && negb (Nat.eqb (length l) 2) then false
      else if bad_spec t then false
      else if (match tuple_arity t with Some n => negb (Nat.eqb (length l) n) | None => false end) then false
      else check_loop ts' ls'
  | _, _ => true
  end.
(** mixed_integer.py 16-47: raises ValueError iff [false] *)
Definition check_xspec (ts : list xtype) (ls : list (list level)) : bool :=
  if negb (Nat.eqb (length ls) (length ts)) then false else check_loop ts ls.

(** mixed_integer.py 57-69 *)
Fixpoint unfolded_dim_acc (ts : list xtype) (acc : nat) : res nat :=
  match ts with
  | [] => Ok acc
  | FLOAT :: r | INT :: r => unfolded_dim_acc r (acc + 1)
  | ENUM n :: r => unfolded_dim_acc r (acc + n)
  | _ => ValueError
  end.
Definition compute_unfolded_dimension (ts : list xtype) : res nat := unfolded_dim_acc ts 0.

(** mixed_integer.py 92-107: the rows collected before conversion. [xlimits[i]] with i beyond the
    end is an IndexError. *)
Fixpoint unfold_rows (ts : list xtype) (ls : list (list level)) : res (list (list level)) :=
  match ts with
  | [] => Ok []
  | t :: ts' =>
      match t with
      | BadType | BadTuple _ => ValueError
      | _ =>
        match ls with
        | [] => IndexError
        | l :: ls' =>
          match t with
          | ENUM n => if Nat.eqb n (length l)
                      then match unfold_rows ts' ls' with
                           | Ok r => Ok (repeat [Num 0; Num 1] n ++ r) | e => e end
                      else ValueError
          | _ => match unfold_rows ts' ls' with Ok r => Ok (l :: r) | e => e end
          end
        end
      end
  end.
(** mixed_integer.py 109: np.array(xlims).astype(float).  Simplification: a label is never
    convertible (numpy would accept labels that spell numbers), a row of other length than 2
    makes the array ragged and the conversion fail (the degenerate case where all rows have the
    same other length is excluded by the consistency check and also reported as an error). *)
Fixpoint to_floats (rows : list (list level)) : res (list (Q * Q)) :=
  match rows with
  | [] => Ok []
  | [Num a; Num b] :: r => match to_floats r with Ok l => Ok ((a, b) :: l) | e => e end
  | _ => ValueError
  end.
Definition unfold_xlimits (ts : list xtype) (ls : list (list level)) : res (list (Q * Q)) :=
  match unfold_rows ts ls with Ok r => to_floats r | ValueError => ValueError | IndexError => IndexError end.

(** numpy.round with 0 decimals: nearest integer, ties to even (mixed_integer.py 124) *)
Definition np_round (q : Q) : Z :=
  let f := Qfloor q in
  let frac := (q - inject_Z f)%Q in
  if Qle_bool (1 # 2) frac
  then if Qle_bool frac (1 # 2) then (if Z.even f then f else f + 1)%Z else (f + 1)%Z
  else f.

(** numpy.max of a non-empty block *)
Fixpoint np_max (d : Q) (l : list Q) : Q :=
  match l with [] => d | x :: r => np_max (if Qle_bool d x then x else d) r end.

(** strict comparison used by [xenum < maxx] (130) *)
Definition Qlt_bool (a b : Q) : bool := negb (Qle_bool b a).

(** mixed_integer.py 112-137, one row.  [ret[:, x_col]] out of range is an IndexError; a slice
    is truncated at the end of the row, and numpy.max of an empty slice is a ValueError; columns
    beyond the last type are returned unchanged. *)
Fixpoint cast_row (ts : list xtype) (x : list Q) : res (list Q) :=
  match ts with
  | [] => Ok x
  | FLOAT :: ts' =>
      (* the column is not touched, so no IndexError is possible here *)
      match x with
      | [] => cast_row ts' []
      | a :: r => match cast_row ts' r with Ok l => Ok (a :: l) | e => e end
      end
  | INT :: ts' =>
      match x with
      | [] => IndexError
      | a :: r => match cast_row ts' r with Ok l => Ok (inject_Z (np_round a) :: l) | e => e end
      end
  | ENUM n :: ts' =>
      match firstn n x with
      | [] => ValueError
      | a :: b => let m := np_max a b in
                  match cast_row ts' (skipn n x) with
                  | Ok l => Ok (map (fun v => if Qlt_bool v m then 0%Q else 1%Q) (a :: b) ++ l)
                  | e => e end
      end
  | _ => ValueError
  end.

(** numpy.argmax: first index of the maximum ([best] value at [bi], current index [i]) *)
Fixpoint argmax_from (best : Q) (bi i : nat) (l : list Q) : nat :=
  match l with
  | [] => bi
  | x :: r => if Qlt_bool best x then argmax_from x i (S i) r else argmax_from best bi (S i) r
  end.

(** mixed_integer.py 140-157, one row *)
Fixpoint fold_row (ts : list xtype) (x : list Q) : res (list Q) :=
  match ts with
  | [] => Ok []
  | FLOAT :: ts' | INT :: ts' =>
      match x with
      | [] => IndexError
      | a :: r => match fold_row ts' r with Ok l => Ok (a :: l) | e => e end
      end
  | ENUM n :: ts' =>
      match firstn n x with
      | [] => ValueError
      | a :: b => match fold_row ts' (skipn n x) with
                  | Ok l => Ok (inject_Z (Z.of_nat (argmax_from a 0 1 b)) :: l)
                  | e => e end
      end
  | _ => ValueError
  end.

(** [x.astype(int)] / [int(x)]: truncation toward zero *)
Definition py_int (q : Q) : Z := Z.quot (Qnum q) (Zpos (Qden q)).

(** Python/numpy index [k] into an axis of length [n] (negative indexes count from the end) *)
Definition py_index (n : nat) (k : Z) : option nat :=
  if (0 <=? k)%Z && (k <? Z.of_nat n)%Z then Some (Z.to_nat k)
  else if (- Z.of_nat n <=? k)%Z && (k <? 0)%Z then Some (Z.to_nat (k + Z.of_nat n)) else None.

(** zeros(n) with entry [i] set to 1 *)
Definition one_hot (n i : nat) : list Q := map (fun j => if Nat.eqb j i then 1%Q else 0%Q) (seq 0 n).

(** mixed_integer.py 160-178, one row ([x[row, i]] beyond the end is an IndexError) *)
Fixpoint unfold_row (ts : list xtype) (x : list Q) : res (list Q) :=
  match ts with
  | [] => Ok []
  | t :: ts' =>
      if bad_spec t then ValueError else
      match x with
      | [] => IndexError
      | a :: r =>
          match t with
          | ENUM n => match py_index n (py_int a) with
                      | None => IndexError
                      | Some i => match unfold_row ts' r with Ok l => Ok (one_hot n i ++ l) | e => e end
                      end
          | _ => match unfold_row ts' r with Ok l => Ok (a :: l) | e => e end
          end
      end
  end.

(** the values handed back to users: a number or a label *)
Inductive mixed := MFloat (q : Q) | MInt (z : Z) | MLevel (l : level).
(** mixed_integer.py 188-203 *)
Fixpoint cast_to_mixed (ts : list xtype) (ls : list (list level)) (x : list Q) : res (list mixed) :=
  match ts with
  | [] => Ok []
  | t :: ts' =>
      match x with
      | [] => IndexError
      | a :: r =>
          let rest := cast_to_mixed ts' (tl ls) r in
          match t with
          | FLOAT => match rest with Ok l => Ok (MFloat a :: l) | e => e end
          | INT => match rest with Ok l => Ok (MInt (py_int a) :: l) | e => e end
          | ENUM _ => match ls with
                      | [] => IndexError
                      | l0 :: _ => match py_index (length l0) (py_int a) with
                                   | None => IndexError
                                   | Some i => match nth_error l0 i with
                                               | None => IndexError
                                               | Some v => match rest with Ok l => Ok (MLevel v :: l) | e => e end
                                               end
                                   end
                      end
          | _ => ValueError
          end
      end
  end.

(** lift to tables *)
Fixpoint map_rows {A B} (f : A -> res B) (rows : list A) : res (list B) :=
  match rows with
  | [] => Ok []
  | x :: r => match f x with
              | Ok y => match map_rows f r with Ok l => Ok (y :: l) | ValueError => ValueError | IndexError => IndexError end
              | ValueError => ValueError | IndexError => IndexError end
  end.
Definition res_bind {A B} (r : res A) (f : A -> res B) : res B :=
  match r with Ok a => f a | ValueError => ValueError | IndexError => IndexError end.

(** mixed_integer.py 213-246: MixedIntegerSamplingMethod(xtypes, xlimits, cls)(nt); [inner] is
    the wrapped sampler built on the relaxed bounds. *)
Definition sample (ts : list xtype) (ls : list (list level)) (folded : bool)
  (inner : list (Q * Q) -> nat -> list (list Q)) (nt : nat) : res (list (list Q)) :=
  if negb (check_xspec ts ls) then ValueError
  else res_bind (unfold_xlimits ts ls) (fun lims =>
       res_bind (map_rows (cast_row ts) (inner lims nt)) (fun d =>
       if folded then map_rows (fold_row ts) d else Ok d)).

(** mixed_integer.py 281-289 and 298-306: what the wrapped surrogate is trained on and asked *)
Definition to_inner_train (ts : list xtype) (folded : bool) (x : list (list Q)) : res (list (list Q)) :=
  if folded then map_rows (unfold_row ts) x else Ok x.
Definition to_inner_predict (ts : list xtype) (folded : bool) (x : list (list Q)) : res (list (list Q)) :=
  res_bind (to_inner_train ts folded x) (map_rows (cast_row ts)).
