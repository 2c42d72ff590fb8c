(** Model of smt/sampling_methods/sampling_method.py (scaling) and full_factorial.py.
    Simplification: floats are rationals. *)
From Coq Require Import ZArith QArith Bool Arith List.
From Verif Require Import MixInt_M.
Import ListNotations.
Open Scope list_scope.
Open Scope nat_scope.

(** sampling_method.py 133-151 ([_scale_to_xlimits]), one row: columns beyond [nx] are left
    alone; a row shorter than [nx] is an IndexError. *)
Fixpoint scale_row (lims : list (Q * Q)) (x : list Q) : res (list Q) :=
  match lims with
  | [] => Ok x
  | (lo, up) :: lims' =>
      match x with
      | [] => IndexError
      | v :: r => match scale_row lims' r with
                  | Ok l => Ok ((lo + v * (up - lo))%Q :: l)
                  | ValueError => ValueError | IndexError => IndexError end
      end
  end.
Definition scale (lims : list (Q * Q)) (rows : list (list Q)) : res (list (list Q)) := map_rows (scale_row lims) rows.

(** random.py 13-33: numpy.random.rand is an oracle (a function giving nt rows) *)
Definition random_sampling (rand : nat -> nat -> list (list Q)) (lims : list (Q * Q)) (nt : nat) : res (list (list Q)) :=
  scale lims (rand nt (length lims)).

Definition prod_nat (l : list nat) : nat := fold_right Nat.mul 1 l.
Definition sum_nat (l : list nat) : nat := fold_right Nat.add 0 l.
Definition Qsum (l : list Q) : Q := fold_right Qplus 0%Q l.
Definition q_of_nat (n : nat) : Q := inject_Z (Z.of_nat n).

(** full_factorial.py 47-51: weights; a length-1 weight vector broadcasts (55), any other length
    mismatch is a ValueError at 55 *)
Definition norm_weights (nx : nat) (w : option (list Q)) : res (list Q) :=
  match w with
  | None => Ok (repeat (1 / q_of_nat nx)%Q nx)
  | Some w =>
      let wn := map (fun v => (v / Qsum w)%Q) w in
      if Nat.eqb (length wn) nx then Ok wn
      else match wn with [v] => Ok (repeat v nx) | _ => ValueError end
  end.

Fixpoint incr (i : nat) (l : list nat) : list nat :=
  match l, i with
  | [], _ => []
  | n :: r, 0 => S n :: r
  | n :: r, S j => n :: incr j r
  end.

(** full_factorial.py 55: weights - num_list / sum(num_list) *)
Fixpoint scores (w : list Q) (num : list nat) (s : nat) : list Q :=
  match w, num with
  | a :: w', n :: num' => (a - q_of_nat n / q_of_nat s)%Q :: scores w' num' s
  | _, _ => []
  end.

(** full_factorial.py 53-56; [None] = out of fuel; numpy.argmax of an empty array is a ValueError *)
Fixpoint level_loop (fuel : nat) (w : list Q) (nt : nat) (num : list nat) : option (res (list nat)) :=
  if nt <=? prod_nat num then Some (Ok num)
  else match fuel with
       | 0 => None
       | S f => match scores w num (sum_nat num) with
                | [] => Some ValueError
                | a :: b => level_loop f w nt (incr (argmax_from a 0 1 b) num)
                end
       end.

(** numpy.linspace(0, 1, n) *)
Definition linspace (n : nat) : list Q :=
  match n with
  | 0 => []
  | 1 => [0%Q]
  | _ => map (fun i => (q_of_nat i / q_of_nat (n - 1))%Q) (seq 0 n)
  end.

(** full_factorial.py 58-59 and 66: meshgrid(indexing="ij") columns flattened in C order *)
Fixpoint grid (num : list nat) : list (list Q) :=
  match num with
  | [] => [[]]
  | n :: r => flat_map (fun v => map (cons v) (grid r)) (linspace n)
  end.

(** full_factorial.py 28-68 followed by the scaling of ScaledSamplingMethod.__call__ *)
Definition full_factorial (fuel : nat) (w : option (list Q)) (clip : bool) (lims : list (Q * Q)) (nt : nat)
  : option (res (list (list Q))) :=
  let nx := length lims in
  match norm_weights nx w with
  | ValueError => Some ValueError | IndexError => Some IndexError
  | Ok wn =>
      match level_loop fuel wn nt (repeat 1 nx) with
      | None => None
      | Some (Ok num) =>
          let nt' := if clip then prod_nat num else nt in
          Some (scale lims (firstn nt' (grid num)))
      | Some ValueError => Some ValueError
      | Some IndexError => Some IndexError
      end
  end.
