(** Model of smt/applications/moe.py.  Simplifications: GaussianMixture and multivariate_normal are arbitrary
    (cluster labels, weights and densities are inputs); one output; exact arithmetic. *)
From Coq Require Import Reals String Bool Arith List.
From Verif Require Import RSum.
Import ListNotations.
Open Scope list_scope.
Open Scope nat_scope.

(** ** moe.py 481-508 (_extract_part): np.arange(0, num, quantile), mask[indices] = True, values[mask], values[~mask] *)
Fixpoint arange (fuel i num q : nat) : list nat :=
  match fuel with O => [] | S f => if Nat.ltb i num then i :: arange f (i + q) num q else [] end.
Definition set_true (mask : nat -> bool) (l : list nat) : nat -> bool := fold_left (fun m i j => if Nat.eqb j i then true else m j) l mask.
Fixpoint select {A} (i : nat) (mask : nat -> bool) (l : list A) : list A :=
  match l with [] => [] | a :: r => if mask i then a :: select (S i) mask r else select (S i) mask r end.
Definition extract_part {A} (values : list A) (quantile : nat) : list A * list A :=
  let num := length values in
  let mask := set_true (fun _ => false) (arange num 0 num quantile) in
  (select 0 mask values, select 0 (fun i => negb (mask i)) values).

(** ** moe.py 672-680 (_cluster_values).  None: AssertionError or IndexError *)
Definition append_at {A} (c : nat) (v : A) (cl : list (list A)) : option (list (list A)) :=
  if Nat.ltb c (length cl) then Some (firstn c cl ++ (nth c cl [] ++ [v]) :: skipn (S c) cl) else None.
Fixpoint cluster_loop {A} (cls : list nat) (values : list A) (cl : list (list A)) : option (list (list A)) :=
  match cls, values with
  | c :: cls, v :: values => match append_at c v cl with Some cl => cluster_loop cls values cl | None => None end
  | _, _ => Some cl
  end.
Definition cluster_values {A} (n_clusters : nat) (values : list A) (cls : list nat) : option (list (list A)) :=
  if Nat.eqb (length values) (length cls) then cluster_loop cls values (repeat [] n_clusters) else None.

Open Scope R_scope.
(** ** moe.py 682-737: membership probabilities of one point; [w] weights, [rv] densities of the k clusters *)
Definition proba (k : nat) (w rv : nat -> R) : nat -> R :=
  if Nat.eqb k 1 then (fun _ => 1)
  else let probs := fun j => w j * rv j in
       let rad := rsum k probs in
       if Rlt_dec 0 rad then (fun j => probs j / rad) else probs.
(** moe.py 438-478: [e] are the values (or variances) predicted by the k experts at the point *)
Definition smooth_value (k : nat) (w rv e : nat -> R) : R := rsum k (fun j => e j * proba k w rv j).
Definition smooth_variance (k : nat) (w rv e : nat -> R) : R := rsum k (fun j => e j * proba k w rv j ^ 2).
(** np.argmax of the first k entries *)
Fixpoint argmax (k : nat) (p : nat -> R) : nat :=
  match k with O => 0%nat | S k => let b := argmax k p in if Nat.eqb k 0 then 0%nat else if Rlt_dec (p b) (p k) then k else b end.
(** moe.py 402-436 *)
Definition hard_value (k : nat) (w rv e : nat -> R) : R := e (argmax k (proba k w rv)).

(** ** moe.py 510-570 (_find_best_model): scores.  [norm2 n M] is np.linalg.norm of the n x n matrix with ord 2;
    expected has shape (n,) and actual (n,1), so expected - actual is the n x n matrix expected_j - actual_i *)
Definition score (norm2 : nat -> (nat -> nat -> R) -> R) (n : nat) (expected actual : nat -> R) : R :=
  norm2 n (fun i j => expected j - actual i).
Fixpoint best_loop {A} (l : list (A * R)) (best : option (A * R)) : option (A * R) :=
  match l with
  | [] => best
  | (a, s) :: r => best_loop r (match best with None => Some (a, s) | Some (b, t) => if Rlt_dec s t then Some (a, s) else best end)
  end.
(** None: sms[None], KeyError *)
Definition find_best_model {A} (norm2 : nat -> (nat -> nat -> R) -> R) (n : nat) (expected : nat -> R) (experts : list (A * (nat -> R))) : option A :=
  option_map fst (best_loop (map (fun '(a, actual) => (a, score norm2 n expected actual)) experts) None).

(** ** moe.py 572-606 (_find_best_heaviside_factor); [err i] is the validation error of the i-th factor *)
Definition hfactor (i : nat) : R := 1 / 10 + 2 * INR i / 20.
Fixpoint rmax_list (l : list R) (m : R) : R := match l with [] => m | x :: r => rmax_list r (Rmax m x) end.
Fixpoint first_min (l : list R) (i bi : nat) (b : R) : nat :=
  match l with [] => bi | x :: r => if Rlt_dec x b then first_min r (S i) i x else first_min r (S i) bi b end.
Definition best_heaviside (n_clusters : nat) (err : nat -> R) : R :=
  if Nat.ltb 1 n_clusters
  then let errors := map err (seq 0 21) in
       if Rlt_dec (rmax_list (tl errors) (hd 0 errors)) (1 / 10 ^ 6) then 1
       else hfactor (first_min (tl errors) 1 0 (hd 0 errors))
  else 1.

(** ** moe.py 326-364 (_get_enabled_expert_types); the ValueError of 360-363 is built but not raised *)
Record proto := { p_name : string; p_deriv : bool; p_var : bool }.
Definition mem (s : string) (l : list string) : bool := existsb (String.eqb s) l.
Definition enabled (names : list string) (types : list proto) (deriv var : bool) (allow deny : list string) : list string :=
  let ps := filter (fun p => mem (p_name p) names) types in
  let ps := if deriv then filter p_deriv ps else ps in
  let ps := if var then filter p_var ps else ps in
  let ps := match allow with [] => ps | _ => filter (fun p => mem (p_name p) allow) ps end in
  let ps := match deny with [] => ps | _ => filter (fun p => negb (mem (p_name p) deny)) ps end in
  map p_name ps.
