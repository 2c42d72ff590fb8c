(** Model of the training-data API and the prediction entry points of
    smt/surrogate_models/surrogate_model.py (lines 93-436) and smt/utils/checks.py.

    Arrays live in a heap (location -> array) so that copying and aliasing are visible.
    [A] is the type of array elements (floats; never inspected here).
    Printing and timing are not modelled, except that the "time per point" line divides by
    the number of points (a ZeroDivisionError for an empty query). *)
From Coq Require Import String ZArith Bool Arith List.
Import ListNotations.
Open Scope list_scope.

Section Training.
Context {A : Type}.

(** numpy array: shape and flat (row-major) data. *)
Record arr := { shape : list nat; data : list A }.

(** group label: [None] or a string (surrogate_model.py 102). *)
Definition label := option string.
Definition label_eqb (a b : label) : bool :=
  match a, b with
  | None, None => true | Some s, Some t => String.eqb s t | _, _ => false
  end.

(** checks.py 10-19: [np.atleast_2d(array.T).T] then rank test.  The view has the same flat
    data; a rank-1 array becomes one column. *)
Definition ensure_2d (a : arr) : option arr :=
  match shape a with
  | [] => Some {| shape := [1; 1]; data := data a |}
  | [n] => Some {| shape := [n; 1]; data := data a |}
  | [_; _] => Some a
  | _ => None
  end.
Definition rows (a : arr) : nat := nth 0 (shape a) 0.
Definition cols (a : arr) : nat := nth 1 (shape a) 0.

(** Outcomes: [EValue] ValueError, [EKey] KeyError, [ENotImpl] NotImplementedError,
    [EZero] ZeroDivisionError, [EIndex] IndexError (caller's own), [ENoArr] no such array. *)
Inductive out :=
| Done | Loc (l : nat) | EValue | EKey | ENotImpl | EZero | EIndex | ENoArr.

(** training_points: (group label, entry key) -> (location of xt, location of yt);
    newest binding first.  Simplification: the empty group that [defaultdict] creates on a
    failing update is not represented. *)
Definition store := list ((label * Z) * (nat * nat)).
Definition key_eqb (a b : label * Z) : bool := label_eqb (fst a) (fst b) && Z.eqb (snd a) (snd b).
Definition find_entry (st : store) (k : label * Z) : option (nat * nat) :=
  match find (fun p => key_eqb k (fst p)) st with Some p => Some (snd p) | None => None end.

(** [caller]: the locations of arrays created by user code. *)
Record state := {
  heap : nat -> option arr; next : nat; caller : list nat; points : store;
  dims : option (nat * nat * nat)   (* nt, nx, ny attributes *)
}.
Definition init : state :=
  {| heap := fun _ => None; next := 0; caller := []; points := []; dims := None |}.

Definition upd (h : nat -> option arr) (l : nat) (a : arr) : nat -> option arr :=
  fun m => if Nat.eqb m l then Some a else h m.

Fixpoint set_flat (i : nat) (v : A) (d : list A) : option (list A) :=
  match d, i with
  | [], _ => None
  | _ :: r, 0 => Some (v :: r)
  | x :: r, S j => match set_flat j v r with Some r' => Some (x :: r') | None => None end
  end.

(** [sup_td]: self.supports["training_derivatives"] of the concrete surrogate. *)
Variable sup_td : bool.

Inductive op :=
| NewArr (a : arr)                                     (* user code creates an array *)
| Poke (l : nat) (i : nat) (v : A)                     (* user code writes into one of its arrays *)
| SetValues (xt yt : nat) (name : label)
| UpdateValues (yt : nat) (name : label)
| SetDerivs (xt dy : nat) (kx : Z) (name : label)
| UpdateDerivs (dy : nat) (kx : Z) (name : label).

(** [np.array(x)]: a fresh copy. *)
Definition alloc (s : state) (a : arr) : state * nat :=
  ({| heap := upd (heap s) (next s) a; next := S (next s); caller := caller s;
      points := points s; dims := dims s |}, next s).
Definition bind (s : state) (k : label * Z) (e : nat * nat) : state :=
  {| heap := heap s; next := next s; caller := caller s; points := (k, e) :: points s; dims := dims s |}.
Definition with_dims (s : state) (d : nat * nat * nat) : state :=
  {| heap := heap s; next := next s; caller := caller s; points := points s; dims := Some d |}.

(** arguments are arrays of the caller, viewed as 2D *)
Definition arg (s : state) (l : nat) : option arr :=
  if existsb (Nat.eqb l) (caller s) then heap s l else None.

(** surrogate_model.py 102-128 *)
Definition set_values (s : state) (xt yt : arr) (name : label) : state * out :=
  match ensure_2d xt, ensure_2d yt with
  | Some x, Some y =>
      if negb (Nat.eqb (rows x) (rows y)) then (s, EValue)
      else let s := with_dims s (rows x, cols x, cols y) in
           let '(s1, lx) := alloc s x in
           let '(s2, ly) := alloc s1 y in
           (bind s2 (name, 0%Z) (lx, ly), Done)
  | _, _ => (s, EValue)
  end.

(** surrogate_model.py 130-167 *)
Definition update_values (s : state) (yt : arr) (name : label) : state * out :=
  match ensure_2d yt with
  | None => (s, EValue)
  | Some y =>
      match find_entry (points s) (name, 0%Z) with
      | None => (s, EValue)
      | Some (lx, _) =>
          match heap s lx with
          | None => (s, EKey)   (* unreachable: entries point to allocated arrays *)
          | Some x =>
              if negb (Nat.eqb (rows x) (rows y)) then (s, EValue)
              else let '(s1, ly) := alloc s y in (bind s1 (name, 0%Z) (lx, ly), Done)
          end
      end
  end.

(** surrogate_model.py 169-200 *)
Definition set_derivs (s : state) (xt dy : arr) (kx : Z) (name : label) : state * out :=
  if negb sup_td then (s, ENotImpl)
  else match ensure_2d xt, ensure_2d dy with
  | Some x, Some y =>
      if negb (Nat.eqb (rows x) (rows y)) then (s, EValue)
      else let '(s1, lx) := alloc s x in
           let '(s2, ly) := alloc s1 y in
           (bind s2 (name, (kx + 1)%Z) (lx, ly), Done)
  | _, _ => (s, EValue)
  end.

(** surrogate_model.py 202-241: the presence test (226) and the row-count test (232-233) look
    at entry [kx], the assignment (239) at entry [kx + 1] (KeyError if absent). *)
Definition update_derivs (s : state) (dy : arr) (kx : Z) (name : label) : state * out :=
  if negb sup_td then (s, ENotImpl)
  else match ensure_2d dy with
  | None => (s, EValue)
  | Some y =>
      match find_entry (points s) (name, kx) with
      | None => (s, EValue)
      | Some (lx, _) =>
          match heap s lx with
          | None => (s, EKey)   (* unreachable *)
          | Some x =>
              if negb (Nat.eqb (rows x) (rows y)) then (s, EValue)
              else match find_entry (points s) (name, (kx + 1)%Z) with
                   | None => (s, EKey)
                   | Some (lx1, _) => let '(s1, ly) := alloc s y in
                                      (bind s1 (name, (kx + 1)%Z) (lx1, ly), Done)
                   end
          end
      end
  end.

Definition step (s : state) (o : op) : state * out :=
  match o with
  | NewArr a => let '(s1, l) := alloc s a in
                ({| heap := heap s1; next := next s1; caller := l :: caller s1; points := points s1; dims := dims s1 |}, Loc l)
  | Poke l i v =>
      match arg s l with
      | None => (s, ENoArr)
      | Some a => match set_flat i v (data a) with
                  | None => (s, EIndex)
                  | Some d => ({| heap := upd (heap s) l {| shape := shape a; data := d |};
                                  next := next s; caller := caller s; points := points s; dims := dims s |}, Done)
                  end
      end
  | SetValues lx ly n => match arg s lx, arg s ly with
                         | Some x, Some y => set_values s x y n | _, _ => (s, ENoArr) end
  | UpdateValues ly n => match arg s ly with Some y => update_values s y n | None => (s, ENoArr) end
  | SetDerivs lx ly k n => match arg s lx, arg s ly with
                           | Some x, Some y => set_derivs s x y k n | _, _ => (s, ENoArr) end
  | UpdateDerivs ly k n => match arg s ly with Some y => update_derivs s y k n | None => (s, ENoArr) end
  end.

Fixpoint run (s : state) (ops : list op) : state * list (op * out) :=
  match ops with
  | [] => (s, [])
  | o :: rest => let '(s', r) := step s o in
                 let '(s'', tr) := run s' rest in (s'', (o, r) :: tr)
  end.

(** what training code sees: the contents of training_points[name][key] *)
Definition read (s : state) (name : label) (key : Z) : option (arr * arr) :=
  match find_entry (points s) (name, key) with
  | Some (lx, ly) => match heap s lx, heap s ly with Some x, Some y => Some (x, y) | _, _ => None end
  | None => None
  end.

(** Prediction entry points.  [pred] is the model-specific method: it receives an array and
    may overwrite it (first component: the final content), and returns flat output data. *)
Inductive pout := POk (y : arr) | PErr (e : out).
Definition predictor := arr -> arr * list A.

(** [y.reshape((n, ny))] *)
Definition reshape2 (d : list A) (n ny : nat) : pout :=
  if Nat.eqb (length d) (n * ny) then POk {| shape := [n; ny]; data := d |} else PErr EValue.

(** surrogate_model.py 273-311 ([predict_values]): works on a copy (288). Steps: checks,
    copy, model-specific call, time-per-point division (307), reshape. *)
Definition predict_values (h : nat -> option arr) (l : nat) (nx ny : nat) (pred : predictor)
  : (nat -> option arr) * pout :=
  match h l with
  | None => (h, PErr ENoArr)
  | Some a => match ensure_2d a with
    | None => (h, PErr EValue)
    | Some x => if negb (Nat.eqb (cols x) nx) then (h, PErr EValue)
                else let '(_, y) := pred x in         (* the copy x2 is discarded *)
                     if Nat.eqb (rows x) 0 then (h, PErr EZero) else (h, reshape2 y (rows x) ny)
    end
  end.

(** surrogate_model.py 313-355 ([predict_derivatives], one [kx]): the view of the caller's
    array itself is passed (346), so the predictor's writes reach the caller. *)
Definition predict_derivatives (sup : bool) (h : nat -> option arr) (l : nat) (nx ny : nat) (pred : predictor)
  : (nat -> option arr) * pout :=
  if negb sup then (h, PErr ENotImpl)
  else match h l with
  | None => (h, PErr ENoArr)
  | Some a => match ensure_2d a with
    | None => (h, PErr EValue)
    | Some x => if negb (Nat.eqb (cols x) nx) then (h, PErr EValue)
                else let '(x', y) := pred x in
                     let h' := upd h l {| shape := shape a; data := data x' |} in
                     if Nat.eqb (rows x) 0 then (h', PErr EZero) else (h', reshape2 y (rows x) ny)
    end
  end.

(** surrogate_model.py 379-400 ([predict_variances]): works on a copy (398). *)
Definition predict_variances (sup : bool) (h : nat -> option arr) (l : nat) (nx ny : nat) (pred : predictor)
  : (nat -> option arr) * pout :=
  if negb sup then (h, PErr ENotImpl)
  else match h l with
  | None => (h, PErr ENoArr)
  | Some a => match ensure_2d a with
    | None => (h, PErr EValue)
    | Some x => if negb (Nat.eqb (cols x) nx) then (h, PErr EValue)
                else let '(_, y) := pred x in (h, reshape2 y (rows x) ny)
    end
  end.

(** surrogate_model.py 355-375 ([predict_output_derivatives]): the view of the caller's array is passed; whatever the
    model-specific method returns ([B], a dictionary of arrays) is returned as it is. *)
Definition predict_output_derivatives {B : Type} (sup : bool) (h : nat -> option arr) (l : nat) (nx : nat) (pred : arr -> arr * B)
  : (nat -> option arr) * (B + out) :=
  if negb sup then (h, inr ENotImpl)
  else match h l with
  | None => (h, inr ENoArr)
  | Some a => match ensure_2d a with
    | None => (h, inr EValue)
    | Some x => if negb (Nat.eqb (cols x) nx) then (h, inr EValue)
                else let '(x', y) := pred x in (upd h l {| shape := shape a; data := data x' |}, inl y)
    end
  end.

(** surrogate_model.py 399-437 ([predict_variance_derivatives]): the rank is checked before the support (413-414); the view of
    the caller's array is passed; the result is not reshaped. *)
Definition predict_variance_derivatives {B : Type} (sup : bool) (h : nat -> option arr) (l : nat) (nx : nat) (pred : arr -> arr * B)
  : (nat -> option arr) * (B + out) :=
  match h l with
  | None => (h, inr ENoArr)
  | Some a => match ensure_2d a with
    | None => (h, inr EValue)
    | Some x => if negb sup then (h, inr ENotImpl)
                else if negb (Nat.eqb (cols x) nx) then (h, inr EValue)
                else let '(x', y) := pred x in
                     let h' := upd h l {| shape := shape a; data := data x' |} in
                     if Nat.eqb (rows x) 0 then (h', inr EZero) else (h', inl y)
    end
  end.
End Training.
Arguments arr : clear implicits.
Arguments op : clear implicits.
Arguments state : clear implicits.
Arguments pout : clear implicits.
Arguments predictor : clear implicits.
