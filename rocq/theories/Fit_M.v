(** Model of smt/utils/neural_net/metrics.py (rsquare, 12-32), smt/utils/neural_net/model.py goodness_of_fit (443-530, without the plots),
    smt/utils/neural_net/data.py load_csv (14-84).
    Simplifications: doubles are reals; the text of the file is taken as already split into names and numbers. *)
From Coq Require Import Reals ZArith Arith Bool List String.
From Verif Require Import RSum.
Import ListNotations.
Open Scope list_scope.
Open Scope R_scope.

(** ** metrics.py 12-32.  arrays of shape (K, m) *)
Definition arr := nat -> nat -> R.
Definition epsilon : R := / 10 ^ 8.
Definition np_mean2 (K m : nat) (a : arr) : R := rsum K (fun k => rsum m (fun i => a k i)) / INR (K * m).
Definition rsquare (K m : nat) (pred true : arr) : nat -> R :=
  let bar := np_mean2 K m true in
  fun k => let SSE := rsum m (fun i => (pred k i - true k i) ^ 2) in
           let SSTO := rsum m (fun i => (true k i - bar) ^ 2 + epsilon) in
           1 - SSE / SSTO.
(** np.round(x, 2): nearest multiple of 1/100, ties to even *)
Definition rint (x : R) : Z :=
  let f := Int_part x in
  if Rlt_dec (x - IZR f) (/ 2) then f else if Rlt_dec (/ 2) (x - IZR f) then (f + 1)%Z else if Z.even f then f else (f + 1)%Z.
Definition round2 (x : R) : R := IZR (rint (x * 100)) / 100.
(** np.mean, np.std of a (1, m) array *)
Definition np_mean (m : nat) (v : nat -> R) : R := rsum m v / INR m.
Definition np_std (m : nat) (v : nat -> R) : R := sqrt (rsum m (fun i => (v i - np_mean m v) ^ 2) / INR m).
Record metrics := { R_squared : R; std_error : R; avg_error : R }.
Definition fit_metrics (m : nat) (pred test : nat -> R) : metrics :=
  {| R_squared := round2 (rsquare 1 m (fun _ => pred) (fun _ => test) 0%nat);
     std_error := round2 (np_std m (fun i => pred i - test i));
     avg_error := round2 (np_mean m (fun i => pred i - test i)) |}.
(** model.py 443-488: arrays with their shapes; [eval], [grad]: the predictions at the columns of X (entry (output, point), (output, input, point)).
    None: a failed assertion, an index out of range, or test partials given to a model trained without partials *)
Record mat2 := { rows : nat; cols : nat; at2 : nat -> nat -> R }.
Record ten3 := { t_y : nat; t_x : nat; t_m : nat; at3 : nat -> nat -> nat -> R }.
Section Goodness.
Variables (n_x n_y : nat) (eval : mat2 -> nat -> nat -> R) (grad : mat2 -> nat -> nat -> nat -> R) (trained_with_partials : bool).
Definition goodness (X Y : mat2) (J : option ten3) (response partial : nat) : option metrics :=
  if negb (Nat.eqb (cols X) (cols Y)) then None
  else if negb (Nat.eqb (rows X) n_x) then None
  else if negb (Nat.eqb (rows Y) n_y) then None
  else match J with
       | Some J => if negb (Nat.eqb (cols X) (t_m J)) then None
                   else if negb (Nat.eqb (rows X) (t_x J)) then None
                   else if negb trained_with_partials then None
                   else if Nat.ltb response (t_y J) && Nat.ltb response n_y && Nat.ltb partial n_x
                        then Some (fit_metrics (cols Y) (grad X response partial) (at3 J response partial)) else None
       | None => if Nat.ltb response n_y then Some (fit_metrics (cols Y) (eval X response) (at2 Y response)) else None
       end.
End Goodness.

(** ** data.py 14-84 *)
Inductive err := EException | EValue | EIndex | EType.
Inductive out (A : Type) := Got (a : A) | Err (e : err).
Arguments Got {A} a.
Arguments Err {A} e.
Definition bind {A B} (x : out A) (f : A -> out B) : out B := match x with Got a => f a | Err e => Err e end.
(** file is None or ""; no such file; names of the first line and numbers of the others *)
Inductive source := NoFile | Missing | File (names : list string) (lines : list (list R)).
(** headers.index(header): position of the first equal name; with a single name tolist() gives that string, in which a substring is searched *)
Fixpoint find_name (label : string) (names : list string) (i : nat) : option nat :=
  match names with [] => None | n :: r => if String.eqb n label then Some i else find_name label r (S i) end.
Definition name_index (names : list string) (label : string) : out nat :=
  match (match names with [n] => String.index 0 label n | _ => find_name label names 0 end) with Some i => Got i | None => Err EValue end.
Definition width (lines : list (list R)) : nat := match lines with [] => 0%nat | l :: _ => List.length l end.
(** data[:, i]: one line or one column (or none) gives an array that is not two-dimensional *)
Definition column (lines : list (list R)) (i : nat) : out (list R) :=
  if Nat.leb (List.length lines) 1 || Nat.leb (width lines) 1 then Err EIndex
  else if Nat.ltb i (width lines) then Got (map (fun l => nth i l 0) lines) else Err EIndex.
Definition labelled (names : list string) (lines : list (list R)) (label : string) : out (list R) := bind (name_index names label) (column lines).
Fixpoint columns (names : list string) (lines : list (list R)) (labels : list string) : out (list (list R)) :=
  match labels with [] => Got [] | l :: r => bind (labelled names lines l) (fun c => bind (columns names lines r) (fun cs => Got (c :: cs))) end.
(** J[i][j] = ...: assignment into a tensor of zeros; out of range raises IndexError (the column is looked up first) *)
Definition tensor := list (list (list R)).
Fixpoint set_nth {A} (i : nat) (v : A) (l : list A) : list A :=
  match l, i with [], _ => [] | _ :: r, O => v :: r | x :: r, S i => x :: set_nth i v r end.
Definition set_entry (J : tensor) (i j : nat) (v : list R) : out tensor :=
  match nth_error J i with None => Err EIndex | Some row => if Nat.ltb j (List.length row) then Got (set_nth i (set_nth j v row) J) else Err EIndex end.
Fixpoint fill_row (names : list string) (lines : list (list R)) (J : tensor) (i j : nat) (labels : list string) : out tensor :=
  match labels with [] => Got J | l :: r => bind (labelled names lines l) (fun c => bind (set_entry J i j c) (fun J => fill_row names lines J i (S j) r)) end.
Fixpoint fill (names : list string) (lines : list (list R)) (J : tensor) (i : nat) (partials : list (list string)) : out tensor :=
  match partials with [] => Got J | row :: r => bind (fill_row names lines J i 0 row) (fun J => fill names lines J (S i) r) end.
Definition load_csv (file : source) (inputs outputs : option (list string)) (partials : option (list (list string))) : out (list (list R) * list (list R) * option tensor) :=
  match file with
  | NoFile | Missing => Err EException
  | File names lines =>
    if negb (forallb (fun l => Nat.eqb (List.length l) (width lines)) lines) then Err EValue (* genfromtxt: inconsistent number of columns *)
    else match inputs, outputs with
    | None, _ | _, None => Err EType
    | Some inputs, Some outputs =>
      match inputs with
      | [] => Err EException
      | first :: _ =>
        match outputs with
        | [] => Err EException
        | _ =>
          bind (labelled names lines first) (fun c => let m := List.length c in
          bind (columns names lines inputs) (fun X =>
          bind (columns names lines outputs) (fun Y =>
          match partials with
          | None | Some [] => Got (X, Y, None)
          | Some ps => bind (fill names lines (repeat (repeat (repeat 0 m) (List.length inputs)) (List.length outputs)) 0 ps) (fun J => Got (X, Y, Some J))
          end)))
        end
      end
    end
  end.
