(** One level when the outputs of this level and of the level below are given in other units. *)
From Coq Require Import Reals Arith Bool List Lia Lra FunctionalExtensionality.
From Verif Require Import RSum Mat Tri_M Tri_P Kernels_M Krg_M Krg_S Krg_P Krg_P2 Krg_P3 Krg_P4 Order_P2 Order_P3 Mfk_M Mfk_S Mfk_P Mfk_P2 Mfk_P3 Rmtc_S MfkUnits_S MfkUnits_P MfkUnits_P2.
Import ListNotations.
Open Scope list_scope.
Open Scope R_scope.
Lemma fvec_prefix po rho nx x j : (degree rho <= degree po)%nat -> (j < n_regr rho nx)%nat -> fvec rho nx x j = fvec po nx x j.
Proof.
  assert (L : forall l : list nat, exists r, fold_left (fun f k => f ++ map (fun j => x k * x j) (seq k (nx - k))) l (1 :: map x (seq 0 nx)) = (1 :: map x (seq 0 nx)) ++ r).
  { intros l. assert (G : forall (l : list nat) (s : list R), exists r, fold_left (fun f k => f ++ map (fun j => x k * x j) (seq k (nx - k))) l s = s ++ r).
    { clear l. induction l as [|k l IH]; intros s; [exists []; rewrite app_nil_r; reflexivity|]. cbn [fold_left]. destruct (IH (s ++ map (fun j => x k * x j) (seq k (nx - k)))) as (r & ->). eexists. rewrite <- app_assoc. reflexivity. }
    apply G. }
  intros D Hj. unfold fvec. destruct rho, po; cbn [degree n_regr regr] in *; try lia; try reflexivity.
  - assert (j = 0%nat) as -> by lia. reflexivity.
  - assert (j = 0%nat) as -> by lia. destruct (L (seq 0 nx)) as (r & ->). reflexivity.
  - destruct (L (seq 0 nx)) as (r & ->). rewrite app_nth1; [reflexivity|]. cbn [length]. rewrite map_length, seq_length. lia.
Qed.
Lemma n_regr_le po rho nx : (degree rho <= degree po)%nat -> (n_regr rho nx <= n_regr po nx)%nat.
Proof. destruct rho, po; cbn [degree n_regr]; try lia; intros _; generalize (nx * (nx + 1) / 2)%nat; lia. Qed.
(** change of trend functions *)
Section T.
Variables (q N : nat) (al be : R).
Hypotheses (Hq : (q + q <= N)%nat) (Hal : al <> 0).
Definition tcol (V : vec) : vec := fun j => if Nat.ltb j q then al * V j + be * V (q + j)%nat else V j.
Definition tz (z : vec) : vec := fun j => if Nat.ltb j q then al * z j else z j + (if Nat.ltb (j - q) q then be * z (j - q)%nat else 0).
Definition iz (z : vec) : vec := fun j => if Nat.ltb j q then z j / al else z j - (if Nat.ltb (j - q) q then be * (z (j - q)%nat / al) else 0).
Lemma lt_true k : (k < q)%nat -> Nat.ltb k q = true. Proof. apply Nat.ltb_lt. Qed.
Lemma lt_false k : (q <= k)%nat -> Nat.ltb k q = false. Proof. apply Nat.ltb_ge. Qed.
Lemma tz_iz z j : tz (iz z) j = z j.
Proof.
  unfold tz, iz. destruct (Nat.ltb_spec j q) as [H|H]; [field; exact Hal|]. destruct (Nat.ltb_spec (j - q) q) as [G|G]; ring.
Qed.
Lemma tcol_dot V z : dot N (tcol V) z = dot N V (tz z).
Proof.
  unfold dot. replace N with (q + (q + (N - q - q)))%nat by lia. rewrite !rsum_app.
  rewrite (rsum_ext q (fun i => tcol V i * z i) (fun i => V i * (al * z i) + be * (V (q + i)%nat * z i))) by (intros i Hi; unfold tcol; rewrite lt_true by exact Hi; ring).
  rewrite (rsum_ext q (fun i => V i * tz z i) (fun i => V i * (al * z i))) by (intros i Hi; unfold tz; rewrite lt_true by exact Hi; ring).
  rewrite (rsum_ext q (fun i => tcol V (q + i)%nat * z (q + i)%nat) (fun i => V (q + i)%nat * z (q + i)%nat)) by (intros i Hi; unfold tcol; rewrite lt_false by lia; ring).
  rewrite (rsum_ext q (fun i => V (q + i)%nat * tz z (q + i)%nat) (fun i => V (q + i)%nat * z (q + i)%nat + be * (V (q + i)%nat * z i))).
  2:{ intros i Hi. unfold tz. rewrite lt_false by lia. replace (q + i - q)%nat with i by lia. rewrite lt_true by exact Hi. ring. }
  rewrite (rsum_ext (N - q - q) (fun i => tcol V (q + (q + i))%nat * z (q + (q + i))%nat) (fun i => V (q + (q + i))%nat * tz z (q + (q + i))%nat)).
  2:{ intros i Hi. unfold tcol, tz. rewrite !lt_false by lia. ring. }
  rewrite !rsum_plus, !rsum_scal_l. ring.
Qed.
Lemma tcol_lin n (F : mat) (w : vec) j : rsum n (fun i => tcol (F i) j * w i) = tcol (fun j => rsum n (fun i => F i j * w i)) j.
Proof.
  unfold tcol. destruct (Nat.ltb j q); [|reflexivity]. rewrite <- !rsum_scal_l, <- rsum_plus. apply rsum_ext. intros; ring.
Qed.
Lemma unb_tcol n (F F' : mat) (f f' w : vec) : (forall i j, (i < n)%nat -> (j < N)%nat -> F' i j = tcol (F i) j) -> (forall j, (j < N)%nat -> f' j = tcol f j) -> unbiased n N F' f' w <-> unbiased n N F f w.
Proof.
  intros HF Hf. unfold unbiased.
  assert (E : forall j, (j < N)%nat -> rsum n (fun i => F' i j * w i) = tcol (fun j => rsum n (fun i => F i j * w i)) j).
  { intros j Hj. rewrite <- tcol_lin. apply rsum_ext. intros i Hi. rewrite HF by assumption. reflexivity. }
  split; intros H j Hj.
  - assert (P : forall k, (q <= k)%nat -> (k < N)%nat -> rsum n (fun a => F a k * w a) = f k).
    { intros k Hk HN. pose proof (H k HN) as W. rewrite (E k HN), (Hf k HN) in W. unfold tcol in W. rewrite lt_false in W by exact Hk. exact W. }
    destruct (le_lt_dec q j) as [L|L]; [apply P; assumption|]. pose proof (H j Hj) as W. rewrite (E j Hj), (Hf j Hj) in W. unfold tcol in W. rewrite lt_true in W by exact L. rewrite (P (q + j)%nat) in W by lia.
    apply (Rmult_eq_reg_l al); [lra|exact Hal].
  - rewrite (E j Hj), (Hf j Hj). unfold tcol. destruct (Nat.ltb_spec j q) as [L|L]; rewrite ?(H j Hj), ?(H (q + j)%nat) by lia; reflexivity.
Qed.
Lemma blup_tcol n (Rm F F' : mat) (r f f' w : vec) : (forall i j, (i < n)%nat -> (j < N)%nat -> F' i j = tcol (F i) j) -> (forall j, (j < N)%nat -> f' j = tcol f j) -> blup n N Rm F r f w -> blup n N Rm F' r f' w.
Proof. intros HF Hf [U M]. split; [apply (unb_tcol n F F' f f' w HF Hf); exact U|]. intros w' U'. apply M. apply (unb_tcol n F F' f f' w' HF Hf). exact U'. Qed.
End T.
