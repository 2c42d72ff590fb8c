From Coq Require Import Reals ZArith Arith Bool List Lia Lra.
From Coquelicot Require Import Coquelicot.
From Verif Require Import RSum Mat Index_M Index_P Rmtb_M Rmtb_S Rmtb_P4 Rmtc_M Repro_S Repro_P2 Repro_P3.
Import ListNotations.
Open Scope list_scope.
Open Scope R_scope.
Definition f_ex (x : pt) : R := 1 + 2 * x 0%nat + 3 * (x 0%nat * x 1%nat).
Lemma f_ex_affine : multi_affine 2 f_ex.
Proof.
  split.
  - intros x y E. unfold f_ex. rewrite !E by lia. reflexivity.
  - intros [|[|k]] x z Hk; [| |lia]; unfold slope, f_ex; rewrite ?upd_eq, ?upd_neq by lia; ring.
Qed.
Lemma linear_multi_affine nx a (b : nat -> R) : multi_affine nx (fun x => a + rsum nx (fun k => b k * x k)).
Proof.
  split.
  - intros x y E. f_equal. apply rsum_ext. intros k Hk. rewrite E by exact Hk. reflexivity.
  - intros k x z Hk. unfold slope.
    assert (S1 : forall w, rsum nx (fun j => b j * upd x k w j) = rsum nx (fun j => b j * upd x k 0 j) + b k * w).
    { intros w. rewrite <- (rsum_single nx (fun j => b j * w) k Hk), <- rsum_plus. apply rsum_ext. intros j _.
      unfold upd. destruct (Nat.eqb j k); ring. }
    rewrite (S1 z), (S1 1). ring.
Qed.
Lemma order_one : ~ exists c : Z -> R, forall x : pt, 1 / 4 <= x 0%nat <= 1 / 2 -> rmtb_value [1%nat] [1%nat] (fun _ => 0) (fun _ => 1) false c x = x 0%nat.
Proof.
  intros (c & E).
  assert (K : forall x, rmtb_value [1%nat] [1%nat] (fun _ => 0) (fun _ => 1) false c x = c 0%Z).
  { intros x. apply Rle_antisym; [apply (value_hull [1%nat] [1%nat] _ _ c ltac:(repeat constructor) x (c 0%Z) (c 0%Z))|apply (value_hull [1%nat] [1%nat] _ _ c ltac:(repeat constructor) x (c 0%Z) (c 0%Z))];
    intros k Hk; replace k with 0%Z by (cbn in Hk; lia); lra. }
  pose proof (E (fun _ => 1 / 4) ltac:(cbn beta; lra)) as A. pose proof (E (fun _ => 1 / 2) ltac:(cbn beta; lra)) as B. rewrite K in A, B. lra.
Qed.
Lemma grev_ex : greville 3 5 0 = - (1 / 6) /\ greville 2 4 1 = 1 / 3.
Proof. unfold greville, uniform_knots. cbn. split; field. Qed.
Lemma vertex_ex : vertex_values [2; 1]%nat (fun _ => 0) (fun _ => 1) f_ex 3 = 7 / 2 /\ vertex_values [2; 1]%nat (fun _ => 0) (fun _ => 1) f_ex 9 = 3 / 4.
Proof.
  unfold vertex_values, f_ex. cbn -[INR]. split; unfold upd; cbn; field.
Qed.

Lemma rmtb_inside orders ncps lo up f : Forall2 (fun o n => (2 <= o <= n)%nat) orders ncps -> multi_affine (length orders) f -> forall x,
  (forall k, (k < length orders)%nat -> lo k < up k /\ / 10 ^ 15 <= (x k - lo k) / (up k - lo k) <= 1 - / 10 ^ 15) ->
  rmtb_value orders ncps lo up false (fun z => greville_values orders ncps lo up f (Z.to_nat z)) x = f x.
Proof.
  intros Hd Hf x Hx. rewrite (rmtb_reproduces orders ncps lo up f Hd Hf). apply (f_ext _ f Hf). intros k Hk. destruct (Hx k Hk) as (L & E).
  unfold clamp. rewrite to_param_inside by exact E. field. lra.
Qed.
Lemma linear_slope nx a (b : nat -> R) k x : (k < nx)%nat -> slope (fun x => a + rsum nx (fun k => b k * x k)) k x = b k.
Proof.
  intros Hk. unfold slope.
  assert (rsum nx (fun j => b j * upd x k 1 j) = rsum nx (fun j => b j * upd x k 0 j) + b k) as ->.
  { rewrite <- (rsum_single nx b k Hk), <- rsum_plus. apply rsum_ext. intros j _. unfold upd. destruct (Nat.eqb j k); ring. }
  ring.
Qed.
Lemma rmtc_linear_ext nelems lo up inv a (b : nat -> R) : (forall k, (k < length nelems)%nat -> lo k < up k) ->
  (forall k, (k < length nelems)%nat -> (0 < nth k nelems 0)%nat) ->
  (forall i j, (i < nterm nelems)%nat -> (j < nterm nelems)%nat -> rsum (nterm nelems) (fun k => inv i k * coeff2nodal nelems k j) = if Nat.eqb i j then 1 else 0) ->
  let f := fun x => a + rsum (length nelems) (fun k => b k * x k) in forall x,
  rmtc_value nelems lo up true inv (vertex_values nelems lo up f) x = f x.
Proof.
  intros Hb He Hi f x. pose proof (linear_multi_affine (length nelems) a b) as Hf. fold f in Hf.
  assert (N : forall k, (k < length nelems)%nat -> nearest (lo k) (up k) (nearest (lo k) (up k) (x k)) = nearest (lo k) (up k) (x k)).
  { intros k Hk. apply Index_P.nearest_id. pose proof (Hb k Hk). unfold nearest, Rmin, Rmax. repeat destruct Rle_dec; lra. }
  rewrite (Rmtc_P4.value_expansion nelems lo up inv (vertex_values nelems lo up f) Hb He Hi).
  rewrite (rmtc_reproduces nelems lo up inv f Hb He Hi Hf).
  rewrite (rsum_ext _ _ (fun k => b k * (x k - nearest (lo k) (up k) (x k)))).
  2: { intros k Hk. cbv beta. rewrite (rmtc_reproduces_slope nelems lo up inv f Hb He Hi Hf) by exact Hk. unfold f. rewrite linear_slope by exact Hk. reflexivity. }
  unfold f. rewrite Rplus_assoc, <- rsum_plus. f_equal. apply rsum_ext. intros k Hk. unfold clamp_c. rewrite N by exact Hk. ring.
Qed.
Lemma clip_err t : 0 <= t <= 1 -> Rabs (Rmin (Rmax t (0 + eps)) (1 - eps) - t) <= eps.
Proof.
  intros H. assert (0 < eps < 1 / 4) by (split; [apply eps_pos|unfold eps; apply Rmult_lt_reg_l with (10 ^ 15); [lra|rewrite Rinv_r; lra]]).
  unfold Rmin, Rmax. repeat destruct Rle_dec; apply Rabs_le; lra.
Qed.
Lemma rmtb_linear_ext orders ncps lo up a (b : nat -> R) : Forall2 (fun o n => (2 <= o <= n)%nat) orders ncps ->
  (forall k, (k < length orders)%nat -> lo k < up k) ->
  let f := fun x => a + rsum (length orders) (fun k => b k * x k) in forall x,
  Rabs (rmtb_value orders ncps lo up true (fun z => greville_values orders ncps lo up f (Z.to_nat z)) x - f x) <=
  / 10 ^ 15 * rsum (length orders) (fun k => Rabs (b k) * (up k - lo k)).
Proof.
  intros Hd Hb f x. pose proof (linear_multi_affine (length orders) a b) as Hf. fold f in Hf.
  rewrite (Rmtb_P4.value_expansion orders ncps lo up _ (Repro_P.Hdim1 orders ncps Hd) Hb).
  rewrite (rmtb_reproduces orders ncps lo up f Hd Hf).
  rewrite (rsum_ext _ _ (fun k => b k * (x k - nearest (lo k) (up k) (x k)))).
  2: { intros k Hk. cbv beta. rewrite (rmtb_reproduces_slope orders ncps lo up f Hd Hb Hf) by exact Hk. unfold f. rewrite linear_slope by exact Hk. reflexivity. }
  set (c := clamp lo up (fun k => nearest (lo k) (up k) (x k))).
  assert (f c + rsum (length orders) (fun k => b k * (x k - nearest (lo k) (up k) (x k))) - f x =
          rsum (length orders) (fun k => b k * (c k - nearest (lo k) (up k) (x k)))) as ->.
  { unfold f. transitivity (rsum (length orders) (fun k => b k * c k) + rsum (length orders) (fun k => b k * (x k - nearest (lo k) (up k) (x k))) - rsum (length orders) (fun k => b k * x k)); [ring|].
    rewrite <- rsum_plus, <- rsum_minus. apply rsum_ext. intros k _. ring. }
  eapply Rle_trans; [apply rsum_abs|]. rewrite <- rsum_scal_l. apply rsum_le. intros k Hk. rewrite Rabs_mult.
  replace (/ 10 ^ 15 * (Rabs (b k) * (up k - lo k))) with (Rabs (b k) * (/ 10 ^ 15 * (up k - lo k))) by ring.
  apply Rmult_le_compat_l; [apply Rabs_pos|]. pose proof (Hb k Hk) as L. unfold c, clamp. set (v := nearest (lo k) (up k) (x k)).
  assert (V : lo k <= v <= up k) by (unfold v, nearest, Rmin, Rmax; repeat destruct Rle_dec; lra).
  assert (T : 0 <= (v - lo k) / (up k - lo k) <= 1).
  { split; [apply Rdiv_le_0_compat; lra|]. apply Rmult_le_reg_r with (up k - lo k); [lra|]. unfold Rdiv. rewrite Rmult_assoc, Rinv_l by lra. lra. }
  pose proof (clip_err _ T) as E.
  change (to_param (lo k) (up k) v) with (Rmin (Rmax ((v - lo k) / (up k - lo k)) (0 + eps)) (1 - eps)).
  set (q := Rmin (Rmax ((v - lo k) / (up k - lo k)) (0 + eps)) (1 - eps)) in *.
  replace (lo k + (up k - lo k) * q - v) with ((up k - lo k) * (q - (v - lo k) / (up k - lo k))) by (field; lra).
  rewrite Rabs_mult, (Rabs_pos_eq (up k - lo k)) by lra. rewrite Rmult_comm. apply Rmult_le_compat_r; [lra|exact E].
Qed.
