(** Theorems C52. *)
From Coq Require Import Arith Bool String List Lia.
From Verif Require Import Cache_M Cache_S Cache_P Cache_P2.
Import ListNotations.
Open Scope list_scope.
Open Scope nat_scope.
Section C52.
Context {B V P E : Type} (dumps_self : B -> option string) (md5 : string -> string) (dumps : dict V -> string) (loads : string -> option (dict V)) (cl : B -> client V E).
Notation train := (train B V P E dumps_self md5 dumps loads cl).
Notation reach := (reach B V P E dumps_self md5 dumps loads cl).
Notation compute := (compute V E). Notation store := (store V E). Notation load := (load V E).
Hypotheses (PC : pickle_contract V dumps loads) (NC : no_collision B V E dumps_self md5 cl) (ML : md5_length md5).

(** After any history, a training that finishes leaves the values a fresh computation gives: all of them if it computed,
    those the class loads if it used the cache. *)
Theorem C52_transparent : forall f o dir w a computed o' f', reach f -> client_ok V E (cl (body B P o)) -> train o dir w f = (Done (a, computed), o', f') ->
  exists full, compute (cl (body B P o)) = inr full /\ (computed = true -> a = full) /\ (computed = false -> forall k, In k (load (cl (body B P o))) -> get V a k = get V full k).
Proof.
  intros f o dir w a c o' f' R OK T. pose proof (train_cases B V P E dumps_self md5 dumps loads cl PC NC ML f o dir w R OK) as H. destruct (dumps_self (body B P o)) as [p|]; [|congruence].
  destruct (compute (cl (body B P o))) as [e|full]; [congruence|]. exists full. split; [reflexivity|]. destruct H as (st & _ & [[H _]|[(l & H & _ & G & _)|[_ H]]]); rewrite T in H.
  - injection H as -> -> _ _. split; [reflexivity|discriminate].
  - injection H as -> -> _ _. split; [discriminate|]. intros _. exact G.
  - destruct w; try discriminate. injection H as -> -> _ _. split; [reflexivity|discriminate].
Qed.
(** A training raises an exception of its own exactly when the computation fails, and then no file and nothing of the surrogate's printer changes. *)
Theorem C52_failure_iff : forall f o dir w, reach f -> client_ok V E (cl (body B P o)) ->
  ((exists e o' f', train o dir w f = (BodyRaise e, o', f')) <-> dumps_self (body B P o) <> None /\ exists e, compute (cl (body B P o)) = inl e).
Proof.
  intros f o dir w R OK. pose proof (train_cases B V P E dumps_self md5 dumps loads cl PC NC ML f o dir w R OK) as H. destruct (dumps_self (body B P o)) as [p|].
  - destruct (compute (cl (body B P o))) as [e|full].
    + split; [intros _; split; [discriminate|exists e; reflexivity]|intros _; exists e, o, f; exact H].
    + split; [|intros [_ [e He]]; discriminate]. intros (e & o' & f' & T). destruct H as (st & _ & [[H _]|[(l & H & _)|[_ H]]]); rewrite T in H; try discriminate. destruct w; discriminate.
  - split; [intros (e & o' & f' & T); congruence|intros [N _]; congruence].
Qed.
Theorem C52_failure_stores_nothing : forall f o dir w e o' f', train o dir w f = (BodyRaise e, o', f') -> f' = f /\ o' = o.
Proof.
  intros f o dir w e o' f'. clear NC ML PC. unfold Cache_M.train, cached_operation, checksum. destruct (dumps_self (body B P o)) as [p|]; [|discriminate]. cbv zeta.
  destruct (train_body V E (cl (body B P o)) _) as [e1|[d t]]; [intros [= <- <- <-]; tauto|]. destruct (match f (filename dir (md5 p)) with Some s => loads s | None => None end); [discriminate|]. destruct (truthy dir); [destruct w|]; discriminate.
Qed.
(** The printer is given back unless pickling the surrogate raises: then it is lost. *)
Theorem C52_printer : forall f o dir w r o' f', train o dir w f = (r, o', f') ->
  (dumps_self (body B P o) <> None -> o' = o) /\ (dumps_self (body B P o) = None -> r = PickleError /\ body B P o' = body B P o /\ printer B P o' = None /\ f' = f).
Proof.
  intros f o dir w r o' f'. clear NC ML PC. unfold Cache_M.train, cached_operation, checksum. destruct (dumps_self (body B P o)) as [p|].
  - cbv zeta. intros H. split; [intros _|discriminate]. destruct (train_body V E (cl (body B P o)) _) as [e1|[d t]]; [congruence|].
    destruct (match f (filename dir (md5 p)) with Some s => loads s | None => None end); [congruence|]. destruct (truthy dir); [destruct w|]; congruence.
  - intros [= <- <- <-]. split; [congruence|]. intros _. repeat split.
Qed.
(** A class that stores nothing (IDW, QP, LS) computes at every call. *)
Theorem C52_nothing_stored_recomputes : forall f o dir w a computed o' f', reach f -> client_ok V E (cl (body B P o)) -> store (cl (body B P o)) = [] ->
  train o dir w f = (Done (a, computed), o', f') -> computed = true.
Proof.
  intros f o dir w a c o' f' R OK S T. pose proof (train_cases B V P E dumps_self md5 dumps loads cl PC NC ML f o dir w R OK) as H. destruct (dumps_self (body B P o)) as [p|]; [|congruence].
  destruct (compute (cl (body B P o))) as [e|full]; [congruence|]. destruct H as (st & Hs & [[H _]|[(l & H & _ & _ & _ & N)|[_ H]]]); rewrite T in H; [congruence| |destruct w; congruence]. rewrite S in Hs. cbn in Hs. congruence.
Qed.
(** A class that stores something finds it at the next call with the same directory, and changes no file then. *)
Theorem C52_second_call_hits : forall f o dir a computed o' f', reach f -> client_ok V E (cl (body B P o)) -> store (cl (body B P o)) <> [] -> truthy dir = true ->
  train o dir WOk f = (Done (a, computed), o', f') -> forall w2, exists a2, train o' dir w2 f' = (Done (a2, false), o', f').
Proof.
  intros f o dir a c o' f' R OK S D T w2. pose proof (train_cases B V P E dumps_self md5 dumps loads cl PC NC ML f o dir WOk R OK) as H.
  pose proof (r_train B V P E dumps_self md5 dumps loads cl f o dir WOk _ _ _ R T) as R'.
  assert (Eo : o' = o) by (apply (C52_printer f o dir WOk _ _ _ T); intros Z; rewrite Z in H; congruence). subst o'.
  pose proof (train_cases B V P E dumps_self md5 dumps loads cl PC NC ML f' o dir w2 R' OK) as H'. destruct (dumps_self (body B P o)) as [p|] eqn:Dp; [|congruence].
  destruct (compute (cl (body B P o))) as [e|full] eqn:C; [congruence|]. destruct H as (st & Hs & H). destruct H' as (st' & Hs' & H'). assert (st' = st) by congruence. subst st'.
  assert (Ne : st <> []). { destruct (store (cl (body B P o))) as [|k ks]; [congruence|]. cbn in Hs. destruct (get V full k); [|discriminate]. destruct (select V full ks); [|discriminate]. injection Hs as <-. discriminate. }
  assert (L : match f' (filename dir (md5 p)) with Some s => loads s = Some st | None => False end).
  { destruct H as [[_ [Z|Z]]|[(l & H & _ & _ & L & _)|[_ H]]]; try congruence; rewrite T in H; injection H as _ _ ->.
    - exact L.
    - unfold write. rewrite String.eqb_refl. apply PC. }
  destruct H' as [[H' [Z|Z]]|[(l & H' & _)|[_ H']]]; try congruence; [exists l; exact H'|]. exfalso. clear H. unfold Cache_M.train, cached_operation, checksum in H'. rewrite Dp in H'. cbv zeta in H'.
  destruct (f' (filename dir (md5 p))) as [s|]; [|contradiction]. rewrite L in H'. destruct (OK full C) as (s9 & _ & [Z|Sub]); [congruence|].
  destruct (select_some V full st (load (cl (body B P o)))) as [l Hl]; [intros k0 H0; apply (get_select V full _ _ Hs k0), Sub, H0|intros k0 H0; apply (select_all V full _ _ Hs k0), Sub, H0|].
  destruct st as [|x st0]; [congruence|]. unfold train_body in H'. rewrite Hl in H'. destruct w2; discriminate.
Qed.
(** Without a data directory nothing is ever written; but a file in a directory called None is read. *)
Theorem C52_no_directory_writes_nothing : forall f o w r o' f', train o None w f = (r, o', f') -> f' = f.
Proof.
  intros f o w r o' f'. clear NC ML PC. unfold Cache_M.train, cached_operation, checksum. destruct (dumps_self (body B P o)) as [p|]; [|intros [= _ _ <-]; reflexivity]. cbv zeta. destruct (train_body V E (cl (body B P o)) _) as [e1|[d t]]; [intros [= _ _ <-]; reflexivity|].
  destruct (match f (filename None (md5 p)) with Some s => loads s | None => None end); intros [= _ _ <-]; reflexivity.
Qed.
Theorem C52_no_directory_reads_None_refuted : forall f o p s x st l, dumps_self (body B P o) = Some p -> f (filename (Some "None"%string) (md5 p)) = Some s -> loads s = Some (x :: st) ->
  select V (x :: st) (load (cl (body B P o))) = Some l -> forall w, train o None w f = (Done (l, false), o, f).
Proof.
  intros f o p s x st l D F L S w. clear NC ML PC. unfold Cache_M.train, cached_operation, checksum. rewrite D. cbv zeta. change (filename None (md5 p)) with (filename (Some "None"%string) (md5 p)). rewrite F, L. unfold train_body. rewrite S. reflexivity.
Qed.
(** RBF: a training served from the cache does not set the matrix that predict_output_derivatives needs. *)
Theorem C52_rbf_matrix_missing_refuted : forall f o dir w a o' f' c e, reach f -> cl (body B P o) = rbf_client c e -> client_ok V E (cl (body B P o)) ->
  train o dir w f = (Done (a, false), o', f') -> exists v, a = [("sol"%string, v)].
Proof.
  intros f o dir w a o' f' c e R Ec OK T. pose proof (train_cases B V P E dumps_self md5 dumps loads cl PC NC ML f o dir w R OK) as H. destruct (dumps_self (body B P o)) as [p|]; [|congruence].
  destruct (compute (cl (body B P o))) as [e'|full]; [congruence|]. destruct H as (st & _ & [[H _]|[(l & H & S & _)|[_ H]]]); rewrite T in H; [congruence| |destruct w; congruence].
  injection H as <- _ _. rewrite Ec in S. unfold rbf_client in S. cbn [Cache_M.load select] in S. destruct (get V st "sol") as [v|]; [|discriminate]. injection S as <-. exists v. reflexivity.
Qed.
(** RMTB, RMTC: the six stored attributes all come back. *)
Theorem C52_rmts_complete : forall f o dir w a computed o' f' c e, reach f -> cl (body B P o) = rmts_client c e -> client_ok V E (cl (body B P o)) ->
  train o dir w f = (Done (a, computed), o', f') ->
  exists full, c = inr full /\ forall k, In k ["sol_coeff"; "sol"; "mtx"; "full_dof2coeff"; "full_hess"; "full_jac_dict"]%string -> get V a k = get V full k.
Proof.
  intros f o dir w a c o' f' c0 e R Ec OK T. destruct (C52_transparent f o dir w a c o' f' R OK T) as (full & C & H1 & H2). rewrite Ec in C, H2. exists full. split; [exact C|].
  intros k Hk. destruct c; [rewrite H1; reflexivity|]. apply H2; [reflexivity|exact Hk].
Qed.
End C52.
Print Assumptions C52_transparent.
Print Assumptions C52_failure_iff.
Print Assumptions C52_failure_stores_nothing.
Print Assumptions C52_printer.
Print Assumptions C52_nothing_stored_recomputes.
Print Assumptions C52_second_call_hits.
Print Assumptions C52_no_directory_writes_nothing.
Print Assumptions C52_no_directory_reads_None_refuted.
Print Assumptions C52_rbf_matrix_missing_refuted.
Print Assumptions C52_rmts_complete.
(** an RBF model (true) and one that cannot be pickled (false) *)
Definition ex_md5 (s : string) : string := "0123456789abcdef0123456789abcdef".
Definition ex_cl (b : bool) : client string nat := rbf_client (inr [("mtx", "M"); ("sol", "S")]%string) 7.
Definition ex_dump (b : bool) : option string := if b then Some "x"%string else None.
Definition ex_o (b : bool) : obj bool unit := {| body := b; printer := Some tt |}.
Notation ex_train := (train bool string unit nat ex_dump ex_md5 dumpd loadd ex_cl).
Example C52_nonvacuous : pickle_contract string dumpd loadd /\ no_collision bool string nat ex_dump ex_md5 ex_cl /\ md5_length ex_md5 /\ (forall b, client_ok string nat (ex_cl b)) /\
  let '(r1, o1, f1) := ex_train (ex_o true) (Some "d"%string) (WPart 9) (fun _ => None) in
  let '(r2, o2, f2) := ex_train o1 (Some "d"%string) WOk f1 in
  let '(r3, o3, f3) := ex_train o2 (Some "d"%string) WOk f2 in
  let '(r4, o4, f4) := ex_train (ex_o false) (Some "d"%string) WOk f3 in
  r1 = WriteError /\ f1 "d/_0123456789abcdef0123456789abcdef.dat"%string <> None /\ r2 = Done ([("mtx", "M"); ("sol", "S")]%string, true) /\ r3 = Done ([("sol", "S")]%string, false)
  /\ r4 = PickleError /\ printer _ _ o4 = None.
Proof.
  split; [exact pickle_ok|]. split; [intros b b' p p' _ _ _; reflexivity|]. split; [intros s; reflexivity|]. split.
  - intros b a [= <-]. exists [("sol", "S")]%string. split; [reflexivity|]. right. intros k Hk. exact Hk.
  - vm_compute. repeat split; discriminate.
Qed.
