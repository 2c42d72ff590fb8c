(** Proofs of the exact forms of C06 and C07. *)
From Coq Require Import String ZArith Bool Arith List Lia.
From Verif Require Import Training_M Training_S Training_P.
Import ListNotations.
Open Scope list_scope.
Section Proofs.
Context {A : Type}.
Variable sup_td : bool.
Lemma failed_noop (s s' : state A) ly kx name r : step sup_td s (UpdateDerivs ly kx name) = (s', r) -> r <> Done -> s' = s.
Proof.
  cbn [step]. intros E N. destruct (arg s ly) as [y|]; [|congruence]. unfold update_derivs in E. destruct sup_td; cbn [negb] in E; [|congruence]. destruct (ensure_2d y) as [y2|]; [|congruence].
  destruct (find_entry _ _) as [[lx ?]|]; [|congruence]. destruct (heap s lx) as [x|]; [|congruence]. destruct (negb _); [congruence|]. destruct (find_entry _ _) as [[lx1 ?]|]; [|congruence]. destruct (alloc s y2) as [s1 l1]. congruence.
Qed.
Lemma update_derivs_effect ops (s : state A) tr ly kx name y s' r :
  Forall nonneg_kx ops -> run sup_td init ops = (s, tr) -> sup_td = true -> (0 <= kx)%Z ->
  content (rev tr) ly = Some y -> rank_ok y -> step sup_td s (UpdateDerivs ly kx name) = (s', r) ->
  (r = Done -> exists xk yk, derivs_of (rev tr) name kx = Some (xk, yk) /\ read s' name (kx + 1) = Some (xk, as_table y) /\
    (forall n k, ~ (n = name /\ k = kx) -> (0 <= k)%Z -> read s' n (k + 1) = read s n (k + 1)) /\ (forall n, read s' n 0 = read s n 0)) /\
  (r <> Done -> s' = s).
Proof.
  intros Hf Hr Hsup Hk Hy Hrk E. split; [|exact (failed_noop s s' ly kx name r E)]. intros ->.
  pose proof (proj1 (update_derivs_iff sup_td ops s tr ly kx name y Hf Hr Hsup Hk Hy Hrk)) as Hd. rewrite E in Hd. destruct (Hd eq_refl) as (x0 & y0 & y2 & _ & _ & _ & Hn).
  destruct (derivs_of (rev tr) name kx) as [[xk yk]|] eqn:ED; [|congruence]. exists xk, yk. split; [reflexivity|].
  pose proof (rel_run sup_td ops s tr Hf Hr) as HR. pose proof (rel_step sup_td s (rev tr) (UpdateDerivs ly kx name) HR Hk) as HR'.
  rewrite E in HR'. destruct HR as (_ & _ & Hv & Hdd). destruct HR' as (_ & _ & Hv' & Hdd'). split; [|split].
  - rewrite Hdd' by exact Hk. cbn. destruct (label_eqb_spec name name); [|contradiction]. rewrite Z.eqb_refl; cbn. unfold table; rewrite ED, Hy. reflexivity.
  - intros n k Hne Hk'. rewrite Hdd', Hdd by exact Hk'. cbn. destruct (label_eqb_spec n name) as [->|]; [|reflexivity]. destruct (Z.eqb_spec k kx) as [->|]; [|reflexivity]. exfalso; apply Hne; split; reflexivity.
  - intros n. rewrite Hv', Hv. reflexivity.
Qed.
Lemma upd_spec (h : nat -> option (arr A)) l (a : arr A) d : h l = Some a ->
  (forall m, m <> l -> upd h l {| shape := shape a; data := d |} m = h m) /\ upd h l {| shape := shape a; data := d |} l = Some {| shape := shape a; data := d |} /\
  (upd h l {| shape := shape a; data := d |} l = h l <-> d = data a).
Proof.
  intros Ha. unfold upd. split; [intros m Hm; destruct (Nat.eqb_spec m l); [contradiction|reflexivity]|]. rewrite Nat.eqb_refl. split; [reflexivity|]. rewrite Ha. destruct a as [sh da]. cbn. split; [congruence|intros ->; reflexivity].
Qed.
Lemma ensure_bad (a : arr A) nx : ~ rank_ok a \/ cols (as_table a) <> nx -> ensure_2d a = None \/ exists x, ensure_2d a = Some x /\ Nat.eqb (cols x) nx = false.
Proof.
  intros H. destruct (ensure_2d a) as [x|] eqn:E; [|left; reflexivity]. right. exists x. split; [reflexivity|]. pose proof (ensure_rank a x E) as Hr. assert (Ex : x = as_table a) by (pose proof (ensure_as_table a Hr); congruence). subst x.
  destruct H as [H|H]; [contradiction|]. apply Nat.eqb_neq. exact H.
Qed.
Lemma predict_derivs_exact (h : nat -> option (arr A)) l nx ny pred a sup :
  h l = Some a ->
  (sup = false -> predict_derivatives sup h l nx ny pred = (h, PErr ENotImpl)) /\
  (sup = true -> ~ rank_ok a \/ cols (as_table a) <> nx -> predict_derivatives sup h l nx ny pred = (h, PErr EValue)) /\
  (sup = true -> rank_ok a -> cols (as_table a) = nx ->
     let '(h', res) := predict_derivatives sup h l nx ny pred in let '(left_in_x, y) := pred (as_table a) in
     res = (if Nat.eqb (rows (as_table a)) 0 then PErr EZero else if Nat.eqb (length y) (rows (as_table a) * ny) then POk {| shape := [rows (as_table a); ny]; data := y |} else PErr EValue) /\
     (forall m, m <> l -> h' m = h m) /\ h' l = Some {| shape := shape a; data := data left_in_x |} /\ (h' l = h l <-> data left_in_x = data a)).
Proof.
  intros Ha. unfold predict_derivatives; rewrite Ha. split; [intros ->; reflexivity|]. split.
  - intros -> H; cbn [negb]. destruct (ensure_bad a nx H) as [->|(x & -> & ->)]; reflexivity.
  - intros -> Hr Hc. cbn [negb]. rewrite ensure_as_table by exact Hr. rewrite Hc, Nat.eqb_refl; cbn [negb]. destruct (pred (as_table a)) as [x' y]. destruct (upd_spec h l a (data x') Ha) as (U1 & U2 & U3). rewrite Ha in U3.
    destruct (Nat.eqb (rows (as_table a)) 0); (split; [reflexivity|split; [exact U1|split; [exact U2|exact U3]]]).
Qed.
Lemma predict_output_exact (B : Type) (h : nat -> option (arr A)) l nx (pred : arr A -> arr A * B) a sup :
  h l = Some a ->
  (sup = false -> predict_output_derivatives sup h l nx pred = (h, inr ENotImpl)) /\
  (sup = true -> ~ rank_ok a \/ cols (as_table a) <> nx -> predict_output_derivatives sup h l nx pred = (h, inr EValue)) /\
  (sup = true -> rank_ok a -> cols (as_table a) = nx ->
     let '(h', res) := predict_output_derivatives sup h l nx pred in let '(left_in_x, y) := pred (as_table a) in
     res = inl y /\ (forall m, m <> l -> h' m = h m) /\ h' l = Some {| shape := shape a; data := data left_in_x |} /\ (h' l = h l <-> data left_in_x = data a)).
Proof.
  intros Ha. unfold predict_output_derivatives; rewrite Ha. split; [intros ->; reflexivity|]. split.
  - intros -> H; cbn [negb]. destruct (ensure_bad a nx H) as [->|(x & -> & ->)]; reflexivity.
  - intros -> Hr Hc. cbn [negb]. rewrite ensure_as_table by exact Hr. rewrite Hc, Nat.eqb_refl; cbn [negb]. destruct (pred (as_table a)) as [x' y]. destruct (upd_spec h l a (data x') Ha) as (U1 & U2 & U3). rewrite Ha in U3. split; [reflexivity|split; [exact U1|split; [exact U2|exact U3]]].
Qed.
Lemma predict_vderivs_exact (B : Type) (h : nat -> option (arr A)) l nx (pred : arr A -> arr A * B) a sup :
  h l = Some a ->
  (~ rank_ok a -> predict_variance_derivatives sup h l nx pred = (h, inr EValue)) /\
  (rank_ok a -> sup = false -> predict_variance_derivatives sup h l nx pred = (h, inr ENotImpl)) /\
  (rank_ok a -> sup = true -> cols (as_table a) <> nx -> predict_variance_derivatives sup h l nx pred = (h, inr EValue)) /\
  (sup = true -> rank_ok a -> cols (as_table a) = nx ->
     let '(h', res) := predict_variance_derivatives sup h l nx pred in let '(left_in_x, y) := pred (as_table a) in
     res = (if Nat.eqb (rows (as_table a)) 0 then inr EZero else inl y) /\ (forall m, m <> l -> h' m = h m) /\ h' l = Some {| shape := shape a; data := data left_in_x |} /\ (h' l = h l <-> data left_in_x = data a)).
Proof.
  intros Ha. unfold predict_variance_derivatives; rewrite Ha. split; [intros H; rewrite ensure_none by exact H; reflexivity|]. split; [intros Hr ->; rewrite ensure_as_table by exact Hr; reflexivity|]. split.
  - intros Hr -> H. rewrite ensure_as_table by exact Hr. cbn [negb]. destruct (Nat.eqb_spec (cols (as_table a)) nx); [contradiction|reflexivity].
  - intros -> Hr Hc. rewrite ensure_as_table by exact Hr. cbn [negb]. rewrite Hc, Nat.eqb_refl; cbn [negb]. destruct (pred (as_table a)) as [x' y]. destruct (upd_spec h l a (data x') Ha) as (U1 & U2 & U3). rewrite Ha in U3.
    destruct (Nat.eqb (rows (as_table a)) 0); (split; [reflexivity|split; [exact U1|split; [exact U2|exact U3]]]).
Qed.
(** value and variance predictions, for every possible result length and an empty query *)
Lemma predict_values_exact (h : nat -> option (arr A)) l nx ny pred a : h l = Some a -> rank_ok a -> cols (as_table a) = nx ->
  predict_values h l nx ny pred = (h, if Nat.eqb (rows (as_table a)) 0 then PErr EZero else if Nat.eqb (length (snd (pred (as_table a)))) (rows (as_table a) * ny) then POk {| shape := [rows (as_table a); ny]; data := snd (pred (as_table a)) |} else PErr EValue).
Proof.
  intros Ha Hr Hc. unfold predict_values. rewrite Ha, ensure_as_table by exact Hr. rewrite Hc, Nat.eqb_refl; cbn [negb]. destruct (pred (as_table a)) as [x' y]. destruct (Nat.eqb (rows (as_table a)) 0); reflexivity.
Qed.
Lemma predict_variances_exact (h : nat -> option (arr A)) l nx ny pred a : h l = Some a -> rank_ok a -> cols (as_table a) = nx ->
  predict_variances true h l nx ny pred = (h, if Nat.eqb (length (snd (pred (as_table a)))) (rows (as_table a) * ny) then POk {| shape := [rows (as_table a); ny]; data := snd (pred (as_table a)) |} else PErr EValue).
Proof.
  intros Ha Hr Hc. unfold predict_variances. cbn [negb]. rewrite Ha, ensure_as_table by exact Hr. rewrite Hc, Nat.eqb_refl; cbn [negb]. destruct (pred (as_table a)) as [x' y]. reflexivity.
Qed.
End Proofs.
