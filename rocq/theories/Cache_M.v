(** Model of smt/utils/caching.py (16-79) and of the _train methods that use it: idw.py 61-78, rbf.py 129-147,
    qp.py 61-71, ls.py 59-69, rmts.py 420-450.
    Simplifications: pickle and md5 are arbitrary functions; a file is its contents or absent; the part of the surrogate
    other than the printer is one value that pickling maps to bytes (None: pickling raises). *)
From Coq Require Import Arith Bool String List.
Import ListNotations.
Open Scope list_scope.

Section Cache.
Variables (B V P E : Type).
Definition dict := list (string * V).
Definition fs := string -> option string.
Variables (dumps_self : B -> option string) (md5 : string -> string) (dumps : dict -> string) (loads : string -> option dict).

Record obj := { body : B; printer : option P }.
(** what happens when the cache file is written: written; open() raises; only the first n bytes get written, then dump raises or the process ends *)
Inductive wr := WOk | WFail | WPart (n : nat).
Inductive res (T : Type) := Done (t : T) | BodyRaise (e : E) | PickleError | WriteError.
Arguments Done {T}. Arguments BodyRaise {T}. Arguments PickleError {T}. Arguments WriteError {T}.

(** caching.py 52-79: the printer is taken off, and put back only if pickling did not raise *)
Definition checksum (o : obj) : option string * obj :=
  match dumps_self (body o) with None => (None, {| body := body o; printer := None |}) | Some p => (Some (md5 p), o) end.
Definition filename (dir : option string) (chk : string) : string :=
  ((match dir with Some d => d | None => "None" end) ++ "/" ++ "" ++ "_" ++ chk ++ ".dat")%string.
Definition truthy (dir : option string) : bool := match dir with None => false | Some d => negb (String.eqb d "") end.
Definition write (f : fs) (n : string) (s : string) : fs := fun m => if String.eqb m n then Some s else f m.
(** caching.py 17-49 with [body_] the body of the with statement *)
Definition cached_operation {T} (o : obj) (dir : option string) (body_ : dict -> E + dict * T) (w : wr) (f : fs) : res T * obj * fs :=
  match checksum o with
  | (None, o') => (PickleError, o', f)
  | (Some chk, o') =>
      let n := filename dir chk in
      let loaded := match f n with Some s => loads s | None => None end in
      let outputs := match loaded with Some d => d | None => [] end in
      match body_ outputs with
      | inl e => (BodyRaise e, o', f)
      | inr (outputs', t) =>
          match loaded with
          | Some _ => (Done t, o', f)
          | None => if truthy dir then
                      match w with
                      | WOk => (Done t, o', write f n (dumps outputs'))
                      | WFail => (WriteError, o', f)
                      | WPart k => (WriteError, o', write f n (substring 0 k (dumps outputs')))
                      end
                    else (Done t, o', f)
          end
      end
  end.

(** ** the surrogates.  [compute b]: the attributes _new_train sets; [store]: those copied to outputs; [load]: those taken from outputs *)
Record client := { compute : E + dict; store : list string; load : list string; key_error : E }.
Variable cl : B -> client.
Definition get (d : dict) (k : string) : option V := match find (fun p => String.eqb (fst p) k) d with Some p => Some (snd p) | None => None end.
Fixpoint select (d : dict) (ks : list string) : option dict :=
  match ks with [] => Some [] | k :: r => match get d k, select d r with Some v, Some l => Some ((k, v) :: l) | _, _ => None end end.
(** the result: the attributes set, and whether they were computed *)
Definition train_body (c : client) (outputs : dict) : E + dict * (dict * bool) :=
  match outputs with
  | _ :: _ => match select outputs (load c) with Some a => inr (outputs, (a, false)) | None => inl (key_error c) end
  | [] => match compute c with
          | inl e => inl e
          | inr a => match select a (store c) with Some s => inr (s, (a, true)) | None => inl (key_error c) end
          end
  end.
Definition train (o : obj) (dir : option string) (w : wr) (f : fs) : res (dict * bool) * obj * fs := cached_operation o dir (train_body (cl (body o))) w f.
End Cache.
Arguments Done {E T}. Arguments BodyRaise {E T}. Arguments PickleError {E T}. Arguments WriteError {E T}.
(** attribute names, rbf.py 143-147 and 112, rmts.py 435-450 *)
Definition rbf_client {V E} (c : E + dict V) (e : E) : client V E := {| compute := c; store := ["sol"%string]; load := ["sol"%string]; key_error := e |}.
Definition rmts_keys : list string := ["sol_coeff"; "sol"; "mtx"; "full_dof2coeff"; "full_hess"; "full_jac_dict"]%string.
Definition rmts_client {V E} (c : E + dict V) (e : E) : client V E := {| compute := c; store := rmts_keys; load := rmts_keys; key_error := e |}.
(** idw.py 73-78, qp.py 66-71, ls.py 64-69: nothing is put in outputs *)
Definition nostore_client {V E} (c : E + dict V) (e : E) : client V E := {| compute := c; store := []; load := ["sol"%string]; key_error := e |}.
