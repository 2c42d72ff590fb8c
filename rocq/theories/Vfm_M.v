(** Model of smt/applications/vfm.py.  Simplifications: one output (ny = 1); surrogates are arbitrary functions from
    options and training data to a trained model or an exception; exact arithmetic.  Option dictionaries are objects
    in a heap (an address each), because the code mutates the dictionaries it was given. *)
From Coq Require Import Reals String Bool Arith List.
Import ListNotations.
Open Scope list_scope.
Open Scope nat_scope.

(** Python dictionaries: insertion ordered association lists *)
Inductive val := VBool (b : bool) | VOther (k : nat).
Definition truthy (v : val) : bool := match v with VBool b => b | VOther k => negb (Nat.eqb k 0) end.
Definition dict := list (string * val).
Fixpoint get (k : string) (d : dict) : option val := match d with [] => None | (k', v) :: d => if String.eqb k k' then Some v else get k d end.
Fixpoint set (k : string) (v : val) (d : dict) : dict := match d with [] => [(k, v)] | (k', v') :: d => if String.eqb k k' then (k', v) :: d else (k', v') :: set k v d end.
Fixpoint del (k : string) (d : dict) : dict := match d with [] => [] | (k', v') :: d => if String.eqb k k' then d else (k', v') :: del k d end.
Definition heap := nat -> dict.
Definition store (h : heap) (a : nat) (d : dict) : heap := fun b => if Nat.eqb b a then d else h b.

Definition point := nat -> R.
(** a trained surrogate: predict_values, predict_derivatives(x, kx), supports["derivatives"] *)
Record model := { predict : point -> R; dpredict : nat -> point -> R; sup : bool }.
(** constructor with options, set_training_values(X, y), set_training_derivatives, train(); None: some exception *)
Definition factory := dict -> list (point * R) -> option (list (nat -> R)) -> option model.
Inductive mdl := Callable (f : factory) | Name (s : string).
Inductive bridge := Additive | Multiplicative.
Record opts := {
  o_lf : mdl; o_bridge : mdl; o_type : bridge; o_opt_lf : nat; o_opt_bridge : nat;  (* addresses of options_LF, options_bridge *)
  o_data_lf : option (list (point * R)); o_data_hf : option (list (point * R));        (* X, y, both or none given *)
  o_dy_lf : option (list (nat -> R)); o_dy_hf : option (list (nat -> R)) }.
(** sm_HF and the two surrogates it closes over *)
Record hf := { h_lf : model; h_bridge : model; h_type : bridge }.
Inductive exn := ValueError | KeyError | UnboundLocalError | Failure.
Inductive result (A : Type) := Ok (a : A) | Raise (e : exn).
Arguments Ok {A} a. Arguments Raise {A} e.

(** vfm.py 241-274 (_check_param) *)
Definition resolve (types : string -> option factory) (m : mdl) : option factory := match m with Callable f => Some f | Name s => types s end.
Definition init_deriv (h : heap) (a : nat) : heap := match get "deriv" (h a) with Some _ => h | None => store h a (set "deriv" (VBool false) (h a)) end.
(** d["deriv"]; del d["deriv"] *)
Definition pop_deriv (h : heap) (a : nat) : option (val * heap) := match get "deriv" (h a) with Some v => Some (v, store h a (del "deriv" (h a))) | None => None end.

Open Scope R_scope.
(** vfm.py 166-195: data of the bridge *)
Definition bridge_value (t : bridge) (lf : model) (p : point * R) : point * R :=
  (fst p, match t with Multiplicative => snd p / predict lf (fst p) | Additive => snd p - predict lf (fst p) end).
Definition bridge_deriv (t : bridge) (lf : model) (p : (point * R) * (nat -> R)) : nat -> R :=
  let '((x, y), dy) := p in fun i =>
  match t with
  | Multiplicative => (dy i * predict lf x - y * dpredict lf i x) / predict lf x ^ 2
  | Additive => dy i - dpredict lf i x
  end.
(** vfm.py 126-239 (_apply) *)
Definition apply (types : string -> option factory) (o : opts) (h : heap) : result hf * heap :=
  match o_data_lf o, o_data_hf o with
  | Some dlf, Some dhf =>
    match resolve types (o_lf o) with None => (Raise ValueError, h) | Some flf =>
    match resolve types (o_bridge o) with None => (Raise ValueError, h) | Some fbr =>
    let h := init_deriv (init_deriv h (o_opt_lf o)) (o_opt_bridge o) in
    match pop_deriv h (o_opt_lf o) with None => (Raise KeyError, h) | Some (lf_deriv, h) =>
    match (if truthy lf_deriv then match o_dy_lf o with None => None | Some d => Some (Some d) end else Some None) with None => (Raise UnboundLocalError, h) | Some dlf_deriv =>
    match flf (h (o_opt_lf o)) dlf dlf_deriv with None => (Raise Failure, h) | Some lf =>
    match pop_deriv h (o_opt_bridge o) with None => (Raise KeyError, h) | Some (b_deriv, h) =>
    match (if truthy b_deriv then match o_dy_hf o with None => None | Some d => Some (Some (map (bridge_deriv (o_type o) lf) (combine dhf d))) end else Some None) with
      None => (Raise UnboundLocalError, h) | Some dbr =>
    match fbr (h (o_opt_bridge o)) (map (bridge_value (o_type o) lf) dhf) dbr with None => (Raise Failure, h) | Some br =>
    (Ok {| h_lf := lf; h_bridge := br; h_type := o_type o |}, h)
    end end end end end end end end
  | _, _ => (Raise ValueError, h)
  end.
(** vfm.py 210-239: the closures stored in sm_HF *)
Definition hf_value (m : hf) (x : point) : R :=
  match h_type m with Multiplicative => predict (h_bridge m) x * predict (h_lf m) x | Additive => predict (h_bridge m) x + predict (h_lf m) x end.
Definition hf_deriv (m : hf) (i : nat) (x : point) : R :=
  match h_type m with
  | Multiplicative => dpredict (h_bridge m) i x * predict (h_lf m) x + predict (h_bridge m) x * dpredict (h_lf m) i x
  | Additive => dpredict (h_bridge m) i x + dpredict (h_lf m) i x
  end.
(** the application object: options and sm_HF (None: not trained) *)
Record vfm := { v_opts : opts; v_hf : option hf }.
Definition ensure (types : string -> option factory) (v : vfm) (h : heap) : result hf * vfm * heap :=
  match v_hf v with
  | Some m => (Ok m, v, h)
  | None => match apply types (v_opts v) h with
            | (Ok m, h) => (Ok m, {| v_opts := v_opts v; v_hf := Some m |}, h)
            | (Raise e, h) => (Raise e, v, h)
            end
  end.
(** vfm.py 76-96 *)
Definition predict_values (types : string -> option factory) (v : vfm) (h : heap) (x : point) : result R * vfm * heap :=
  match ensure types v h with
  | (Ok m, v, h) => (Ok (hf_value m x), v, h)
  | (Raise e, v, h) => (Raise e, v, h)
  end.
(** vfm.py 98-124, one index *)
Definition predict_derivatives (types : string -> option factory) (v : vfm) (h : heap) (x : point) (kx : nat) : result R * vfm * heap :=
  match ensure types v h with
  | (Ok m, v, h) => (if sup (h_bridge m) && sup (h_lf m) then Ok (hf_deriv m kx x) else Raise KeyError, v, h)
  | (Raise e, v, h) => (Raise e, v, h)
  end.
