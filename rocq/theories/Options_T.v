(** Properties C01-C04: options dictionaries. *)
From Coq Require Import String ZArith Bool Arith List Lia.
From Verif Require Import Options_M Options_S Options_P.
Import ListNotations.
Open Scope string_scope.
Open Scope list_scope.

(** C01. After any history, reading option [n] of dictionary [i] returns the last accepted
    write of that history (and raises KeyError if there is none), without side effect. *)
Theorem C01_read_back : forall ops s tr i n,
  Forall wf_op ops -> run init ops = (s, tr) -> i < length (pool s) ->
  step s (GetItem i n) =
    (s, match last_write (rev tr) i n with Some (v, _) => OVal v | None => OKeyErr n end).
Proof. exact read_back. Qed.
Print Assumptions C01_read_back.

(** C01. A rejected set changes nothing at all. *)
Theorem C01_rejected_set_is_noop : forall s i n v s' r,
  step s (SetItem i n v) = (s', r) -> r <> OOk -> s' = s.
Proof. exact rejected_noop. Qed.
Print Assumptions C01_rejected_set_is_noop.

(** C02. If no declaration failed, every readable value is the None default of its option or
    is admissible for the declaration in force. *)
Theorem C02_stored_values_admissible : forall ops s tr i n v b,
  Forall wf_op ops -> run init ops = (s, tr) -> declares_ok tr ->
  last_write (rev tr) i n = Some (v, b) ->
  (b = true /\ v = VNone) \/ exists d, decl_in_force (rev tr) i n = Some d /\ admissible d v.
Proof. exact stored_admissible'. Qed.
Print Assumptions C02_stored_values_admissible.

(** C02. A failing update raises at some key [bad] of the argument; exactly the entries before
    [bad] have been stored, every other option is as before.  A succeeding one stores all. *)
Theorem C02_update_prefix : forall s i kvs s' r,
  NoDup (map fst kvs) -> i < length (pool s) -> step s (Update i kvs) = (s', r) ->
  (r = OOk /\ forall n, snd (step s' (GetItem i n)) =
     match entry n kvs with Some v => OVal v | None => snd (step s (GetItem i n)) end)
  \/ exists bad, r = OAssert bad /\ In bad (map fst kvs) /\
       forall n, snd (step s' (GetItem i n)) =
         match entry n (before bad kvs) with Some v => OVal v | None => snd (step s (GetItem i n)) end.
Proof. exact update_effect'. Qed.
Print Assumptions C02_update_prefix.

(** C02. The restriction to successful declarations is needed: a failing re-declaration leaves
    a stored value that the declaration in force does not allow. *)
Theorem C02_failed_redeclaration_refuted : exists ops s tr v d,
  Forall wf_op ops /\ run init ops = (s, tr) /\
  snd (step s (GetItem 0 "a")) = OVal v /\ v <> VNone /\
  decl_in_force (rev tr) 0 "a" = Some d /\ ~ admissible d v.
Proof. exact failed_redeclaration. Qed.
Print Assumptions C02_failed_redeclaration_refuted.

(** C03. A set is accepted exactly when the option is declared and the documented rule holds. *)
Theorem C03_accept_iff : forall ops s tr i n v,
  Forall wf_op ops -> run init ops = (s, tr) -> i < length (pool s) ->
  (snd (step s (SetItem i n v)) = OOk <->
   exists d, decl_in_force (rev tr) i n = Some d /\ admissible d v).
Proof. exact accept_iff. Qed.
Print Assumptions C03_accept_iff.

(** C03. In consequence the list of correlation names of a kriging model is not enforced:
    every string is accepted, for every model state reachable after declaring it. *)
Theorem C03_listed_values_refuted : forall ops s tr i name,
  Forall wf_op ops -> run init ops = (s, tr) -> i < length (pool s) ->
  decl_in_force (rev tr) i "corr" = Some krg_corr_decl ->
  snd (step s (SetItem i "corr" (VStr name))) = OOk.
Proof. exact corr_accepts_all. Qed.
Print Assumptions C03_listed_values_refuted.

(** C04. No history of calls on other dictionaries changes any answer of dictionary [i]. *)
Theorem C04_independence : forall s ops s' tr i,
  run s ops = (s', tr) -> i < length (pool s) -> Forall (fun o => target o <> Some i) ops ->
  forall o, target o = Some i -> o <> Clone i -> snd (step s' o) = snd (step s o).
Proof. exact independence. Qed.
Print Assumptions C04_independence.

(** C04. A fresh clone is another dictionary giving the same answers as its parent, and
    cloning does not change the parent. *)
Theorem C04_clone_copies : forall s i s' k, step s (Clone i) = (s', ONew k) ->
  k <> i /\ (forall n, snd (step s' (GetItem k n)) = snd (step s (GetItem i n)))
  /\ (forall n v, snd (step s' (SetItem k n v)) = snd (step s (SetItem i n v)))
  /\ (forall n, snd (step s' (GetItem i n)) = snd (step s (GetItem i n))).
Proof. exact clone_copies. Qed.
Print Assumptions C04_clone_copies.

(** C04. The docstring's "deep-copied clone" is false: a mutable value is shared, changing its
    content through one dictionary is visible through the other. *)
Theorem C04_deep_copy_refuted : exists ops s tr c l x s',
  run init ops = (s, tr) /\
  snd (step s (GetItem 0 "prior")) = OVal (VRef c l) /\
  snd (step s (GetItem 1 "prior")) = OVal (VRef c l) /\
  fst (step s (Mutate l x)) = s' /\ heap s l <> heap s' l.
Proof. exact shallow_clone. Qed.
Print Assumptions C04_deep_copy_refuted.

(** Non-vacuity: a concrete history with declarations, accepted and rejected writes, a failing
    update and a clone meets the hypotheses of C01-C04. *)
Example C01_C04_nonvacuous :
  Forall wf_op demo /\ declares_ok (snd (run init demo)) /\
  1 < length (pool (fst (run init demo))) /\
  last_write (rev (snd (run init demo))) 0 "n" = Some (VInt 3, false) /\
  last_write (rev (snd (run init demo))) 0 "corr" = Some (VStr "squar_exp", true) /\
  last_write (rev (snd (run init demo))) 1 "corr" = Some (VStr "anything", false) /\
  decl_in_force (rev (snd (run init demo))) 1 "corr" = Some krg_corr_decl /\
  Forall (fun o => target o <> Some 0) (skipn 6 demo).
Proof. exact (conj demo_wf (conj demo_ok demo_rest)). Qed.
