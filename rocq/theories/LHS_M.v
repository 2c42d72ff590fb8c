(** Model of smt/sampling_methods/lhs.py 77-325: optimised Latin hypercube (ESE).
    Simplifications: floats are reals; plans are functions of (row, column) with [n] rows and [d]
    columns; [hist] is not returned; random draws come from two arbitrary streams ([ints]: the
    integers returned by randint before reduction to the range, [unif]: rand). *)
From Coq Require Import Reals Arith Bool List.
From Verif Require Import RSum.
Import ListNotations.
Open Scope list_scope.
Open Scope R_scope.

Definition plan := nat -> nat -> R.

Section ESE.
Variables (n d p : nat) (fixed : list nat).
Variables (ints : nat -> nat) (unif : nat -> R).

(** scipy pdist/cdist, euclidean *)
Definition dist (X : plan) (i j : nat) : R := sqrt (rsum d (fun k => (X i k - X j k) ^ 2)).
(** [x ** (-p)] *)
Definition ipow (x : R) : R := / (x ^ p).
(** [x ** (1.0 / p)] for x >= 0 *)
Definition root (x : R) : R := if Rle_dec x 0 then 0 else Rpower x (/ INR p).
(** lhs.py 232-243 ([_PhiP]); pdist enumerates each unordered pair once *)
Definition phiP (X : plan) : R := root (rsum n (fun i => rsum i (fun j => ipow (dist X i j)))).

(** lhs.py 276-282: draw until outside [excl]; [None] = still drawing after [fuel] draws *)
Fixpoint draw (fuel : nat) (excl : list nat) (pos : nat) : option (nat * nat) :=
  match fuel with
  | O => None
  | S f => let v := (ints pos mod n)%nat in
           if existsb (Nat.eqb v) excl then draw f excl (S pos) else Some (v, S pos)
  end.

(** row exchange in column [k] (298) *)
Definition swap (X : plan) (i1 i2 k : nat) : plan :=
  fun i c => if Nat.eqb c k then (if Nat.eqb i i1 then X i2 k else if Nat.eqb i i2 then X i1 k else X i c) else X i c.
(** sum over the rows other than i1, i2 ([np.delete]) *)
Definition rsum_others (i1 i2 : nat) (f : nat -> R) : R :=
  rsum n (fun m => if Nat.eqb m i1 || Nat.eqb m i2 then 0 else f m).

(** lhs.py 286-300: incremental criterion and exchange *)
Definition exchange_at (X : plan) (i1 i2 k : nat) (phi : R) : plan * R :=
  let d1 m := sqrt (dist X i1 m ^ 2 + (X i2 k - X m k) ^ 2 - (X i1 k - X m k) ^ 2) in
  let d2 m := sqrt (dist X i2 m ^ 2 - (X i2 k - X m k) ^ 2 + (X i1 k - X m k) ^ 2) in
  let res := root (phi ^ p + rsum_others i1 i2 (fun m =>
                 ipow (d1 m) - ipow (dist X i1 m) + ipow (d2 m) - ipow (dist X i2 m))) in
  (swap X i1 i2 k, res).

(** heap of plans: location 0 is the caller's plan *)
Record st := { heap : nat -> plan; next : nat; pos : nat }.
Definition upd_heap (h : nat -> plan) (l : nat) (X : plan) : nat -> plan := fun m => if Nat.eqb m l then X else h m.

(** lhs.py 245-300 ([_PhiP_exchange]) on the plan at location [l] *)
Definition exchange (fuel : nat) (s : st) (l k : nat) (phi : R) : option (st * R) :=
  match draw fuel fixed (pos s) with
  | None => None
  | Some (i1, p1) =>
      match draw fuel (i1 :: fixed) p1 with
      | None => None
      | Some (i2, p2) =>
          let '(X', r) := exchange_at (heap s l) i1 i2 k phi in
          Some ({| heap := upd_heap (heap s) l X'; next := next s; pos := p2 |}, r)
      end
  end.

(** lhs.py 177-183: J copies of the current plan, one exchange in each *)
Fixpoint candidates (fuel J : nat) (s : st) (cur k : nat) (phi : R) : option (st * list (nat * R)) :=
  match J with
  | O => Some (s, [])
  | S J' =>
      let l := next s in
      let s1 := {| heap := upd_heap (heap s) l (heap s cur); next := S l; pos := pos s |} in
      match exchange fuel s1 l k phi with
      | None => None
      | Some (s2, r) =>
          match candidates fuel J' s2 cur k phi with
          | None => None
          | Some (s3, cs) => Some (s3, (l, r) :: cs)
          end
      end
  end.

(** numpy.argmin (186-187): first smallest *)
Fixpoint argmin (b : nat * R) (cs : list (nat * R)) : nat * R :=
  match cs with [] => b | c :: r => argmin (if Rlt_dec (snd c) (snd b) then c else b) r end.

Record loop := { s_ : st; cur : nat; phi_ : R; best : nat; phi_best : R; upos : nat; nacpt : nat; nimp : nat }.

(** lhs.py 172-202: one pass of the inner loop ([None]: draws did not end, or J = 0) *)
Definition inner_body (fuel J : nat) (T : R) (i : nat) (L : loop) : option loop :=
  match candidates fuel J (s_ L) (cur L) ((i + 1) mod d)%nat (phi_ L) with
  | None => None
  | Some (s', []) => None
  | Some (s', c :: cs) =>
      let '(k, phi_try) := argmin c cs in
      if Rle_dec (phi_try - phi_ L) (T * unif (upos L))
      then if Rlt_dec phi_try (phi_best L)
           then Some {| s_ := s'; cur := k; phi_ := phi_try; best := k; phi_best := phi_try;
                        upos := S (upos L); nacpt := S (nacpt L); nimp := S (nimp L) |}
           else Some {| s_ := s'; cur := k; phi_ := phi_try; best := best L; phi_best := phi_best L;
                        upos := S (upos L); nacpt := S (nacpt L); nimp := nimp L |}
      else Some {| s_ := s'; cur := cur L; phi_ := phi_ L; best := best L; phi_best := phi_best L;
                   upos := S (upos L); nacpt := nacpt L; nimp := nimp L |}
  end.
Fixpoint inner_loop (fuel J : nat) (T : R) (todo i : nat) (L : loop) : option loop :=
  match todo with
  | O => Some L
  | S t => match inner_body fuel J T i L with None => None | Some L' => inner_loop fuel J T t (S i) L' end
  end.

(** lhs.py 204-224: temperature update *)
Definition new_T (T phi_best phi_old tol : R) (acpt imp : R) : R :=
  if Rlt_dec (phi_best - phi_old) tol
  then if Rle_dec 0.1 acpt
       then if Rlt_dec imp acpt then 0.8 * T else if Req_EM_T imp acpt then T else T / 0.8
       else T / 0.8
  else if Rle_dec acpt 0.1 then T / 0.7 else 0.9 * T.

(** lhs.py 166-224 *)
Fixpoint outer_loop (fuel J ninner : nat) (tol : R) (todo : nat) (T : R) (L : loop) : option loop :=
  match todo with
  | O => Some L
  | S t =>
      let L0 := {| s_ := s_ L; cur := cur L; phi_ := phi_ L; best := best L; phi_best := phi_best L;
                   upos := upos L; nacpt := 0; nimp := 0 |} in
      match inner_loop fuel J T ninner 0 L0 with
      | None => None
      | Some L' =>
          let T' := new_T T (phi_best L') (phi_best L) tol
                      (INR (nacpt L') / INR ninner) (INR (nimp L') / INR ninner) in
          outer_loop fuel J ninner tol t T' L'
      end
  end.

(** lhs.py 145-230 ([_maximinESE]); the caller's plan [X] sits at location 0.  Returns the final
    heap and the location of X_best. *)
Definition maximinESE (fuel J ninner nouter : nat) (tol : R) (X : plan) : option ((nat -> plan) * nat) :=
  let ph := phiP X in
  let L := {| s_ := {| heap := fun _ => X; next := 1; pos := 0 |}; cur := 0; phi_ := ph;
              best := 0; phi_best := ph; upos := 0; nacpt := 0; nimp := 0 |} in
  match outer_loop fuel J ninner tol nouter (0.005 * ph) L with
  | None => None
  | Some L' => Some (heap (s_ L'), best L')
  end.
End ESE.

(** lhs.py 302-325 ([_ese]), after the initial plan [P0] has been drawn (pyDOE, not modelled) *)
Definition ese (n d : nat) (ints : nat -> nat) (unif : nat -> R) (fuel : nat) (P0 : plan) : option ((nat -> plan) * nat) :=
  maximinESE n d 10 [] ints unif fuel 20 (Nat.min (20 * d) 100) (Nat.min (3 * d / 2) 30) 0.001 P0.
