(** C125: continuity of the RMTC predictions: neighbouring elements share the values and slopes of their common vertices. *)
From Coq Require Import Reals Arith Bool List Lia Lra ZArith.
From Coquelicot Require Import Coquelicot.
From Verif Require Import RSum Mat Index_M Index_P Rmtb_M Rmtb_P2 Rmtb_P3 Rmtb_P4 Rmtc_M Rmtc_S Rmtc_P Rmtc_P2 Rmtc_P3 Rmtc_P4 Cont_S Cont_P Cont_P3.
Import ListNotations.
Open Scope list_scope.
Open Scope R_scope.

(** the influence of vertex v of one dimension, as a function of the position p *)
Definition hat (dv : nat) (u : R) : R :=
  let w := Rmin 1 (Rabs u) in
  match dv with O => 1 - 3 * (w * w) + 2 * (w * w * w) | _ => 2 * u * ((1 - w) * (1 - w)) end.
Lemma hat_cont n x dv f : continuous_at n f x -> continuous_at n (fun y => hat dv (f y)) x.
Proof.
  intros F. assert (W : continuous_at n (fun y => Rmin 1 (Rabs (f y))) x) by (apply c_min; [apply c_const|apply c_abs, F]).
  assert (W1 : continuous_at n (fun y => 1 - Rmin 1 (Rabs (f y))) x) by (apply c_minus; [apply c_const|exact W]).
  unfold hat. cbv zeta. destruct dv.
  - apply c_plus; [apply c_minus; [apply c_const|apply c_scal, c_mult; exact W]|apply c_scal, c_mult; [apply c_mult; exact W|exact W]].
  - apply c_mult; [apply c_scal, F|apply c_mult; exact W1].
Qed.
Lemma two_terms (n e : nat) (h : nat -> R) : (e < n)%nat -> (forall v, (v < S n)%nat -> v <> e -> v <> S e -> h v = 0) -> rsum (S n) h = h e + h (S e).
Proof.
  intros He Z. rewrite (rsum_split (S n) h e) by lia. f_equal. rewrite (rsum_split (S n) _ (S e)) by lia.
  rewrite (proj2 (Nat.eqb_neq (S e) e)) by lia. rewrite rsum_zero; [ring|]. intros i Hi. destruct (Nat.eqb_spec i (S e)); [reflexivity|]. destruct (Nat.eqb_spec i e); [reflexivity|]. apply Z; assumption.
Qed.
Lemma hat_far dv u : 1 <= Rabs u -> hat dv u = 0.
Proof. intros U. unfold hat. rewrite Rmin_left by exact U. destruct dv; ring. Qed.
(** one dimension: the local form is the sum over all vertices *)
Lemma one_dim (num e : nat) (s : R) (G : nat -> nat -> R) : (e < num)%nat -> -1 <= s <= 1 ->
  rsum 4 (fun k => herm k s * G (derv_map k) (e + side_map k)%nat) =
  rsum (S num) (fun v => hat 0 (INR e + (1 + s) / 2 - INR v) * G 0%nat v + hat 1 (INR e + (1 + s) / 2 - INR v) * G 1%nat v).
Proof.
  intros He Hs. rewrite (two_terms num e) by
    (exact He || (intros v Hv N1 N2; rewrite !hat_far; [ring| |];
      (destruct (lt_eq_lt_dec v e) as [[L|L]|L]; [|lia|];
       [assert (INR v + 1 <= INR e) by (rewrite <- S_INR; apply le_INR; lia); rewrite Rabs_pos_eq by lra; lra
       |assert (INR e + 2 <= INR v) by (replace (INR e + 2) with (INR (S (S e))) by (rewrite !S_INR; ring); apply le_INR; lia); rewrite Rabs_left1 by lra; lra]))).
  rewrite S_INR. unfold hat. cbv zeta. cbn [rsum herm derv_map side_map Nat.leb Nat.even].
  replace (INR e + (1 + s) / 2 - INR e) with ((1 + s) / 2) by ring. replace (INR e + (1 + s) / 2 - (INR e + 1)) with (- ((1 - s) / 2)) by field.
  rewrite Rabs_Ropp, !Rabs_pos_eq by lra. rewrite !Rmin_right by lra.
  rewrite !Nat.add_0_r, !Nat.add_1_r. field.
Qed.

Section R.
Variables (nelems : list nat) (lo up : nat -> R) (inv : nat -> nat -> R) (dof : nat -> R).
Let nx := length nelems.
Hypothesis Hbox : forall k, (k < nx)%nat -> lo k < up k.
Hypothesis Hel : forall k, (k < nx)%nat -> (0 < nth k nelems 0)%nat.
Let e (y : nat -> R) (d : nat) : nat := Z.to_nat (fst (loc nelems lo up y d)).
Let s (y : nat -> R) (d : nat) : R := snd (loc nelems lo up y d).
Lemma pos_eq y d : (d < nx)%nat -> (e y d < nth d nelems 0)%nat /\ -1 <= s y d <= 1 /\
  INR (e y d) + (1 + s y d) / 2 = (nearest (lo d) (up d) (y d) - lo d) / (up d - lo d) * INR (nth d nelems 0%nat).
Proof.
  intros Hd. pose proof (Hbox d Hd) as B. pose proof (Hel d Hd) as N. destruct (fi_range (lo d) (up d) _ (y d) B N) as (A & C).
  pose proof (fi_point (lo d) (up d) _ (y d) B N) as P. unfold e, s, loc. split; [lia|]. split; [exact C|].
  rewrite <- P, INR_IZR_INZ, Z2Nat.id by lia. pose proof (lt_0_INR _ N). field. lra.
Qed.
Lemma tensor_vertices x : forall n d (D : list nat -> list nat -> R), (d + n <= nx)%nat ->
  continuous_at nx (fun y => tensor_herm n d (s y) (fun ls => D (map derv_map ls) (verts (map (e y) (seq d n)) ls))) x.
Proof.
  induction n as [|n IH]; intros d D Hd; [exact (c_const nx x (D [] []))|].
  apply (c_ext nx x (fun y => rsum (S (nth d nelems 0%nat)) (fun v =>
     hat 0 ((nearest (lo d) (up d) (y d) - lo d) / (up d - lo d) * INR (nth d nelems 0%nat) - INR v) * tensor_herm n (S d) (s y) (fun ls => D (0%nat :: map derv_map ls) (v :: verts (map (e y) (seq (S d) n)) ls)) +
     hat 1 ((nearest (lo d) (up d) (y d) - lo d) / (up d - lo d) * INR (nth d nelems 0%nat) - INR v) * tensor_herm n (S d) (s y) (fun ls => D (1%nat :: map derv_map ls) (v :: verts (map (e y) (seq (S d) n)) ls))))).
  - intros y. destruct (pos_eq y d ltac:(lia)) as (A & B & C). rewrite <- C.
    rewrite <- (one_dim (nth d nelems 0%nat) (e y d) (s y d) (fun dv v => tensor_herm n (S d) (s y) (fun ls => D (dv :: map derv_map ls) (v :: verts (map (e y) (seq (S d) n)) ls))) A B). reflexivity.
  - assert (Q : forall v, continuous_at nx (fun y => (nearest (lo d) (up d) (y d) - lo d) / (up d - lo d) * INR (nth d nelems 0%nat) - INR v) x).
    { intros v. apply c_minus; [|apply c_const]. apply c_mult; [|apply c_const]. apply c_div, c_minus; [|apply c_const]. unfold nearest.
      repeat first [apply c_min | apply c_max | apply c_const | apply c_coord; lia]. }
    apply (c_sum nx x (S (nth d nelems 0%nat)) (fun v y => hat 0 ((nearest (lo d) (up d) (y d) - lo d) / (up d - lo d) * INR (nth d nelems 0%nat) - INR v) * tensor_herm n (S d) (s y) (fun ls => D (0%nat :: map derv_map ls) (v :: verts (map (e y) (seq (S d) n)) ls)) +
     hat 1 ((nearest (lo d) (up d) (y d) - lo d) / (up d - lo d) * INR (nth d nelems 0%nat) - INR v) * tensor_herm n (S d) (s y) (fun ls => D (1%nat :: map derv_map ls) (v :: verts (map (e y) (seq (S d) n)) ls)))).
    intros v Hv. apply c_plus; (apply c_mult; [apply hat_cont, Q|]).
    + apply (IH (S d) (fun a b => D (0%nat :: a) (v :: b))). lia.
    + apply (IH (S d) (fun a b => D (1%nat :: a) (v :: b))). lia.
Qed.
Hypothesis Hinv : forall i j, (i < nterm nelems)%nat -> (j < nterm nelems)%nat -> rsum (nterm nelems) (fun k => inv i k * coeff2nodal nelems k j) = if Nat.eqb i j then 1 else 0.
Lemma tensor_len : forall n d s0 v v', (forall ls, length ls = n -> v ls = v' ls) -> tensor_herm n d s0 v = tensor_herm n d s0 v'.
Proof. induction n as [|n IH]; intros d s0 v v' H; cbn [tensor_herm]; [apply H; reflexivity|]. apply rsum_ext. intros k _. f_equal. apply IH. intros ls L. apply H. cbn. lia. Qed.
Lemma rmtc_cont x : continuous_at nx (rmtc_value nelems lo up false inv dof) x.
Proof.
  apply (c_ext nx x (fun y => tensor_herm nx 0 (s y) (fun ls => dof (contract_index (map (fun _ => 2%nat) nelems) (map derv_map ls) * nuniq nelems + contract_index (nuniqs nelems) (verts (map (e y) (seq 0 nx)) ls))%nat))).
  - intros y. rewrite value_tensor by assumption. reflexivity.
  - apply (tensor_vertices x nx 0 (fun a b => dof (contract_index (map (fun _ => 2%nat) nelems) a * nuniq nelems + contract_index (nuniqs nelems) b)%nat)). lia.
Qed.
End R.
