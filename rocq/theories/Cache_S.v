(** Vocabulary of C52: what can happen to a cache directory. *)
From Coq Require Import Arith Bool String List.
From Verif Require Import Cache_M.
Section S.
Variables (B V P E : Type) (dumps_self : B -> option string) (md5 : string -> string) (dumps : dict V -> string) (loads : string -> option (dict V)) (cl : B -> client V E).
(** pickle: loading what was dumped gives it back, loading a strict prefix raises *)
Definition pickle_contract : Prop := (forall d, loads (dumps d) = Some d) /\ (forall d n, n < String.length (dumps d) -> loads (substring 0 n (dumps d)) = None).
(** no md5 collision between surrogates that would train differently *)
Definition no_collision : Prop := forall b b' p p', dumps_self b = Some p -> dumps_self b' = Some p' -> md5 p = md5 p' -> cl b = cl b'.
(** a surrogate class: what it loads it also computes and stores, unless it stores nothing *)
Definition client_ok (c : client V E) : Prop := forall a, compute _ _ c = inr a -> exists s, select V a (store _ _ c) = Some s /\ (store _ _ c = nil \/ forall k, In k (load _ _ c) -> In k (store _ _ c)).
(** a checksum has 32 characters *)
Definition md5_length : Prop := forall s, String.length (md5 s) = 32.
(** file systems after any history of trainings (of any surrogates, in any directories, with any write failures),
    deletions and truncations, from one without cache files *)
Inductive reach : fs -> Prop :=
| r0 : forall f, (forall dir b p, dumps_self b = Some p -> f (filename dir (md5 p)) = None) -> reach f
| r_train : forall f o dir w r o' f', reach f -> train B V P E dumps_self md5 dumps loads cl o dir w f = (r, o', f') -> reach f'
| r_delete : forall f n, reach f -> reach (fun m => if String.eqb m n then None else f m)
| r_truncate : forall f n k s, reach f -> f n = Some s -> reach (fun m => if String.eqb m n then Some (substring 0 k s) else f m).
End S.
