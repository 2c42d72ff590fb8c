(** C125: the extrapolating RMTB predictions are continuous for spline orders of at least 2. *)
From Coq Require Import Reals Arith Bool List Lia Lra ZArith.
From Coquelicot Require Import Coquelicot.
From Verif Require Import RSum Mat Index_M Index_P Rmtb_M Rmtb_S Rmtb_P Rmtb_P2 Rmtb_P3 Rmtb_P4 Cont_S Cont_P Cont_P3.
Import ListNotations.
Open Scope list_scope.
Open Scope R_scope.

Lemma c_msum n x : forall ns (G : vec -> list nat -> R), (forall is, Forall2 lt is ns -> continuous_at n (fun y => G y is) x) -> continuous_at n (fun y => msum ns (G y)) x.
Proof.
  induction ns as [|m ns IH]; intros G H; cbn [msum]; [apply H; constructor|].
  apply (c_sum n x m (fun i y => msum ns (fun is => G y (i :: is)))). intros i Hi. apply (IH (fun y is => G y (i :: is))). intros is His. apply H. constructor; assumption.
Qed.
Lemma c_lprod n x (f : vec -> nat -> nat -> R) : forall is d, (forall j i, (j < length is)%nat -> continuous_at n (fun y => f y (d + j)%nat i) x) -> continuous_at n (fun y => lprod d is (f y)) x.
Proof.
  induction is as [|i is IH]; intros d H; cbn [lprod]; [apply c_const|]. apply c_mult.
  - specialize (H 0%nat i ltac:(cbn; lia)). rewrite Nat.add_0_r in H. exact H.
  - apply IH. intros j i' Hj. specialize (H (S j) i' ltac:(cbn; lia)). rewrite Nat.add_succ_r in H. exact H.
Qed.
Lemma F2_nth : forall orders ncps k, Forall2 (fun o m => (2 <= o <= m)%nat) orders ncps -> (k < length orders)%nat -> (2 <= nth k orders 0 <= nth k ncps 0)%nat.
Proof. intros orders ncps k H. revert k. induction H as [|o m os ms Hom Hr IH]; intros k Hk; cbn in Hk; [lia|]. destruct k; cbn; [exact Hom|]. apply IH. lia. Qed.

Section R.
Variables (orders ncps : list nat) (lo up : nat -> R) (coef : Z -> R).
Hypothesis H2 : Forall2 (fun o m => (2 <= o <= m)%nat) orders ncps.
Let nx := length orders.
Hypothesis Hbox : forall k, (k < nx)%nat -> lo k < up k.
Notation U := (rawsum (prodl orders) (raw_data orders ncps lo up) (raw_col orders ncps lo up) coef).
Lemma H1 : Forall2 (fun o m => (1 <= o <= m)%nat) orders ncps.
Proof. clear - H2. induction H2 as [|o m os ms Hom Hr IH]; [constructor|]. constructor; [lia|exact (IH Hr)]. Qed.
(** the slope along input k at a fixed end of it *)
Lemma slope_cont k a x : (k < nx)%nat -> continuous_at nx (fun y => U 0%nat (S k) (upd y k a)) x.
Proof.
  intros Hk. apply (c_ext nx x (fun y => grid_sum ncps (fac orders ncps 0 (S k) (fun j => to_param (lo j) (up j) (upd y k a j))) coef * (wid lo up 0 * wid lo up (S k)))).
  { intros y. symmetry. apply U_eq. exact H1. }
  apply c_mult; [|apply c_const]. unfold grid_sum.
  apply (c_msum nx x ncps (fun y is => lprod 0 is (fac orders ncps 0 (S k) (fun j => to_param (lo j) (up j) (upd y k a j))) * coef (Z.of_nat (contract_index ncps is)))).
  intros is His. apply c_mult; [|apply c_const].
  apply (c_lprod nx x (fun y => fac orders ncps 0 (S k) (fun j => to_param (lo j) (up j) (upd y k a j)))). cbn [Nat.add].
  intros j i Hj. assert (Hjn : (j < nx)%nat) by (pose proof (F2_length _ _ _ His) as L1; pose proof (ncps_length orders ncps H1) as L2; unfold nx; lia).
  destruct (Nat.eq_dec j k) as [->|N].
  - apply (c_ext nx x (fun _ => fac orders ncps 0 (S k) (fun j => to_param (lo j) (up j) a) k i)); [|apply c_const].
    intros y. apply fac_indep. rewrite upd_eq. reflexivity.
  - apply (c_ext nx x (fun y => bspline (uniform_knots (nth j orders 0%nat) (nth j ncps 0%nat)) (nth j orders 0%nat - 1) (Z.of_nat i) (to_param (lo j) (up j) (y j)))).
    { intros y. unfold fac. cbn [Nat.eqb]. destruct (Nat.eqb_spec j k); [contradiction|]. unfold fac0. rewrite upd_neq by exact N. reflexivity. }
    pose proof (F2_nth orders ncps j H2 Hjn) as O2. replace (nth j orders 0%nat - 1)%nat with (S (nth j orders 0%nat - 2)) by lia.
    apply (spline_cont nx x _ _ (fun y => to_param (lo j) (up j) (y j))); [lia|].
    unfold to_param. apply c_min; [|apply c_const]. apply c_max; [|apply c_const]. apply c_div, c_minus; [apply c_coord; exact Hjn|apply c_const].
Qed.
Lemma term_eq k y : (k < nx)%nat -> U 0%nat (S k) y * ext_dist (lo k) (up k) (y k) =
  U 0%nat (S k) (upd y k (lo k)) * (Rmin (y k) (lo k) - lo k) + U 0%nat (S k) (upd y k (up k)) * (Rmax (y k) (up k) - up k).
Proof.
  intros Hk. pose proof (Hbox k Hk) as B.
  assert (X : forall a, nearest (lo k) (up k) (y k) = a -> nearest (lo k) (up k) a = a -> U 0%nat (S k) (upd y k a) = U 0%nat (S k) y).
  { intros a Ea Ea'. rewrite !(U_eq orders ncps lo up coef H1). f_equal. unfold grid_sum. apply msum_ext. intros is His. f_equal. apply lprod_ext. intros j Hj. cbn [Nat.add].
    apply fac_indep. unfold upd. destruct (Nat.eqb_spec j k) as [->|N]; [|reflexivity]. rewrite <- Ea. apply to_param_nearest. exact B. }
  unfold ext_dist. destruct (Rlt_le_dec (y k) (lo k)) as [L|L]; [|destruct (Rlt_le_dec (up k) (y k)) as [L'|L']].
  - assert (E : nearest (lo k) (up k) (y k) = lo k) by (unfold nearest; rewrite Rmax_left by lra; apply Rmin_right; lra).
    rewrite (X (lo k)) by (try exact E; unfold nearest; rewrite Rmax_left by lra; apply Rmin_right; lra). rewrite E, Rmin_left by lra. rewrite (Rmax_right (y k) (up k)) by lra. ring.
  - assert (E : nearest (lo k) (up k) (y k) = up k) by (unfold nearest; rewrite Rmax_right by lra; apply Rmin_left; lra).
    rewrite (X (up k)) by (try exact E; unfold nearest; rewrite Rmax_right by lra; apply Rmin_left; lra). rewrite E, (Rmin_right (y k) (lo k)) by lra. rewrite (Rmax_left (y k) (up k)) by lra. ring.
  - assert (E : nearest (lo k) (up k) (y k) = y k) by (unfold nearest; rewrite Rmax_right by lra; apply Rmin_right; lra).
    rewrite E, (Rmin_right (y k) (lo k)) by lra. rewrite (Rmax_right (y k) (up k)) by lra. ring.
Qed.
Lemma rmtb_ext_cont x : continuous_at nx (rmtb_value orders ncps lo up true coef) x.
Proof.
  apply (c_ext nx x (fun y => rmtb_value orders ncps lo up false coef y + rsum nx (fun k => U 0%nat (S k) (upd y k (lo k)) * (Rmin (y k) (lo k) - lo k) + U 0%nat (S k) (upd y k (up k)) * (Rmax (y k) (up k) - up k)))).
  { intros y. rewrite !value_eq, Rplus_0_r. f_equal. apply rsum_ext. intros k Hk. symmetry. apply term_eq. exact Hk. }
  apply c_plus; [apply rmtb_cont; exact H2|].
  apply (c_sum nx x nx (fun k y => U 0%nat (S k) (upd y k (lo k)) * (Rmin (y k) (lo k) - lo k) + U 0%nat (S k) (upd y k (up k)) * (Rmax (y k) (up k) - up k))).
  intros k Hk. apply c_plus; (apply c_mult; [apply slope_cont; exact Hk|]); (apply c_minus; [|apply c_const]).
  - apply c_min; [apply c_coord; exact Hk|apply c_const].
  - apply c_max; [apply c_coord; exact Hk|apply c_const].
Qed.
End R.
