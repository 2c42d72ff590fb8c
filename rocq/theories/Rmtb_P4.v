From Coq Require Import Reals ZArith Arith Bool List Lia Lra.
From Coquelicot Require Import Coquelicot.
From Verif Require Import RSum Index_M Index_P Rmtb_M Rmtb_S Rmtb_P Rmtb_P2 Rmtb_P3.
Import ListNotations.
Open Scope list_scope.
Open Scope R_scope.

Lemma fold_rsum (g : nat -> R) : forall n d a, fold_left (fun acc ix => acc + g ix) (seq d n) a = a + rsum n (fun k => g (d + k)%nat).
Proof.
  induction n as [|n IH]; intros d a; cbn [seq fold_left]; [cbn; ring|]. rewrite IH, rsum_S_l, Nat.add_0_r.
  rewrite (rsum_ext n (fun i => g (d + S i)%nat) (fun k => g (S d + k)%nat)); [ring|]. intros i _. f_equal. lia.
Qed.

(** generic prediction: linear combination of raw Jacobian products *)
Section Pred.
Variables (nx nnz : nat) (lo up : nat -> R).
Variable data : nat -> nat -> (nat -> R) -> nat -> R.
Variable col : nat -> nat -> (nat -> R) -> nat -> Z.
Hypothesis Hcol : forall a b c d x inz, col a b x inz = col c d x inz.
Variable coef : Z -> R.
Definition rawsum (ix1 ix2 : nat) (x : nat -> R) : R := rsum nnz (fun inz => data ix1 ix2 x inz * coef (col ix1 ix2 x inz)).
Definition mask (kx : nat) (x : nat -> R) : R := match kx with O => 1 | S k => 1 - isexternal lo up x k end.
Lemma predict_eq ext kx x : predict nx nnz lo up data col ext coef kx x =
  rawsum kx 0 x + (if ext then rsum nx (fun ix => rawsum kx (S ix) x * ext_dist (lo ix) (up ix) (x ix) * mask kx x) else 0).
Proof.
  unfold predict, pred_data, pred_col. destruct ext.
  - rewrite (rsum_ext nnz _ (fun inz => data kx 0 x inz * coef (col kx 0 x inz)
        + rsum nx (fun ix => data kx (S ix) x inz * ext_dist (lo ix) (up ix) (x ix) * mask kx x * coef (col kx (S ix) x inz)))).
    + rewrite rsum_plus. f_equal. rewrite rsum_swap. apply rsum_ext. intros ix _. unfold rawsum. rewrite <- !rsum_scal_r.
      apply rsum_ext. intros inz _. ring.
    + intros inz _.
      rewrite (fold_left_ext_in _ (fun d ix => d + data kx (S ix) x inz * ext_dist (lo ix) (up ix) (x ix) * mask kx x)).
      * rewrite fold_rsum. rewrite Rmult_plus_distr_r. f_equal.
        -- f_equal. f_equal. destruct nx; apply Hcol.
        -- cbn [Nat.add]. rewrite <- rsum_scal_r. apply rsum_ext. intros ix _. f_equal. f_equal. destruct nx; apply Hcol.
      * intros a b _. unfold mask. destruct kx; [ring|reflexivity].
  - unfold rawsum. ring.
Qed.
End Pred.

(** derivatives of grid sums *)
Lemma is_derive_msum : forall ns (F : list nat -> R -> R) (D : list nat -> R) y,
  (forall is, Forall2 lt is ns -> is_derive (F is) y (D is)) -> is_derive (fun z => msum ns (fun is => F is z)) y (msum ns D).
Proof.
  induction ns as [|n ns IH]; intros F D y H; cbn.
  - apply H. constructor.
  - apply is_derive_rsum. intros i Hi. apply (IH (fun is => F (i :: is)) (fun is => D (i :: is))).
    intros is His. apply H. constructor; assumption.
Qed.
Lemma is_derive_lprod (F : R -> nat -> nat -> R) (F0 : nat -> nat -> R) (D : nat -> R) kx y :
  (forall z ix i, ix <> kx -> F z ix i = F0 ix i) -> (forall i, is_derive (fun z => F z kx i) y (D i)) ->
  forall is d, (d <= kx < d + length is)%nat ->
  is_derive (fun z => lprod d is (F z)) y (lprod d is (fun ix i => if Nat.eqb ix kx then D i else F0 ix i)).
Proof.
  intros H0 HD. induction is as [|i is IH]; intros d Hd; cbn [length] in Hd; [lia|]. cbn [lprod].
  destruct (Nat.eqb_spec d kx) as [-> |N].
  - apply (is_derive_ext (fun z => F z kx i * lprod (S kx) is F0)).
    + intros z. f_equal. apply lprod_ext. intros k Hk. symmetry. apply H0. lia.
    + rewrite (lprod_ext (fun ix j => if Nat.eqb ix kx then D j else F0 ix j) F0 is (S kx)).
      * apply (is_derive_scal_l (fun z => F z kx i) y (D i) (lprod (S kx) is F0)). apply HD.
      * intros k Hk. destruct (Nat.eqb_spec (S kx + k) kx); [lia|reflexivity].
  - apply (is_derive_ext (fun z => F0 d i * lprod (S d) is (F z))).
    + intros z. rewrite H0 by lia. reflexivity.
    + apply is_derive_scal. apply IH. lia.
Qed.
Lemma is_derive_grid ncps (F : R -> nat -> nat -> R) (F0 : nat -> nat -> R) (D : nat -> R) kx y coef :
  (forall z ix i, ix <> kx -> F z ix i = F0 ix i) -> (forall i, is_derive (fun z => F z kx i) y (D i)) -> (kx < length ncps)%nat ->
  is_derive (fun z => grid_sum ncps (F z) coef) y (grid_sum ncps (fun ix i => if Nat.eqb ix kx then D i else F0 ix i) coef).
Proof.
  intros H0 HD Hk. unfold grid_sum. apply (is_derive_msum ncps (fun is z => lprod 0 is (F z) * coef (Z.of_nat (contract_index ncps is)))).
  intros is His.
  apply (is_derive_scal_l (fun z => lprod 0 is (F z)) y _ (coef (Z.of_nat (contract_index ncps is)))).
  apply is_derive_lprod; [exact H0|exact HD|]. rewrite (F2_length _ _ _ His). lia.
Qed.
Lemma grid_scale ncps (F : nat -> nat -> R) (G : nat -> nat -> R) a kx coef : (kx < length ncps)%nat ->
  (forall ix i, G ix i = if Nat.eqb ix kx then F ix i * a else F ix i) -> grid_sum ncps G coef = grid_sum ncps F coef * a.
Proof.
  intros Hk E. unfold grid_sum. rewrite Rmult_comm, <- msum_scal. apply msum_ext. intros is His.
  rewrite <- Rmult_assoc. f_equal.
  assert (X : forall is d, (d <= kx < d + length is)%nat -> lprod d is G = a * lprod d is F).
  { clear - E. induction is as [|i is IH]; intros d Hd; cbn [length] in Hd; [lia|]. cbn [lprod]. rewrite E.
    destruct (Nat.eqb_spec d kx) as [-> |N].
    - rewrite (lprod_ext G F); [ring|]. intros k Hk. rewrite E. destruct (Nat.eqb_spec (S kx + k) kx); [lia|reflexivity].
    - rewrite IH by lia. ring. }
  apply X. rewrite (F2_length _ _ _ His). lia.
Qed.

Lemma eps_pos : 0 < eps.
Proof. unfold eps. apply Rinv_0_lt_compat. apply pow_lt. lra. Qed.
Lemma eps_small : eps < / 2.
Proof. unfold eps. apply Rinv_lt_contravar; [|]; cbn; lra. Qed.
Lemma to_param_range lo up x : eps <= to_param lo up x <= 1 - eps.
Proof.
  pose proof eps_pos. pose proof eps_small. unfold to_param. split.
  - apply Rmin_glb; [|lra]. eapply Rle_trans; [|apply Rmax_r]. lra.
  - apply Rmin_r.
Qed.
Lemma to_param_01 lo up x : 0 <= to_param lo up x < 1.
Proof. pose proof (to_param_range lo up x). pose proof eps_pos. lra. Qed.
Lemma to_param_inside lo up x : eps <= (x - lo) / (up - lo) <= 1 - eps -> to_param lo up x = (x - lo) / (up - lo).
Proof. intros H. unfold to_param. rewrite Rmax_left by lra. apply Rmin_left. lra. Qed.

Lemma nhood (f : R -> R) (a b x : R) (P : R -> Prop) : continuous f x -> a < f x < b -> (forall y, a < f y < b -> P y) -> locally x P.
Proof.
  intros C H HP. assert (O : open (fun z => a < z < b)) by (apply open_and; [apply open_gt|apply open_lt]).
  apply (filter_imp (fun y => a < f y < b)); [exact HP|]. apply (C (fun z => a < z < b)). apply O. exact H.
Qed.
Lemma cont_affine lo up x : lo < up -> continuous (fun y => (y - lo) / (up - lo)) x.
Proof. intros H. apply (ex_derive_continuous (fun y => (y - lo) / (up - lo))). auto_derive. lra. Qed.
Lemma to_param_derive lo up x : lo < up -> eps < (x - lo) / (up - lo) < 1 - eps -> is_derive (to_param lo up) x (/ (up - lo)).
Proof.
  intros L H. apply (is_derive_ext_loc (fun y => (y - lo) / (up - lo))).
  - apply (nhood (fun y => (y - lo) / (up - lo)) eps (1 - eps)); [apply cont_affine; exact L|exact H|].
    intros y Hy. symmetry. apply to_param_inside. lra.
  - auto_derive; [lra|]. field. lra.
Qed.
Lemma frac_lt0 lo up x : lo < up -> x < lo -> (x - lo) / (up - lo) < 0.
Proof. intros H L. apply Rmult_lt_reg_r with (up - lo); [lra|]. unfold Rdiv. rewrite Rmult_assoc, Rinv_l by lra. lra. Qed.
Lemma frac_gt1 lo up x : lo < up -> up < x -> 1 < (x - lo) / (up - lo).
Proof. intros H L. apply Rmult_lt_reg_r with (up - lo); [lra|]. unfold Rdiv. rewrite Rmult_assoc, Rinv_l by lra. lra. Qed.
Lemma to_param_out lo up x : lo < up -> (x < lo \/ up < x) -> locally x (fun y => to_param lo up y = to_param lo up x).
Proof.
  intros L H. pose proof eps_pos. pose proof eps_small. assert (K : forall y, y < lo -> to_param lo up y = eps).
  { intros y Hy. pose proof (frac_lt0 lo up y L Hy). unfold to_param. rewrite Rmax_right by lra. rewrite Rplus_0_l. apply Rmin_left. lra. }
  assert (K' : forall y, up < y -> to_param lo up y = 1 - eps).
  { intros y Hy. pose proof (frac_gt1 lo up y L Hy). unfold to_param. rewrite Rmax_left by lra. apply Rmin_right. lra. }
  destruct H as [H|H].
  - apply (nhood (fun y => y) (x - 1) lo); [apply continuous_id|lra|]. intros y Hy. rewrite !K by lra. reflexivity.
  - apply (nhood (fun y => y) up (x + 1)); [apply continuous_id|lra|]. intros y Hy. rewrite !K' by lra. reflexivity.
Qed.
Lemma ext_dist_in lo up x : lo <= x <= up -> ext_dist lo up x = 0.
Proof. intros H. unfold ext_dist. rewrite nearest_id by exact H. ring. Qed.
Lemma ext_dist_out lo up x : lo <= up -> (x < lo \/ up < x) -> ext_dist lo up x <> 0.
Proof. intros H0 H. unfold ext_dist. pose proof (nearest_in lo up x H0). lra. Qed.
Lemma ext_dist_derive lo up x : lo < up -> (x < lo \/ up < x) -> is_derive (ext_dist lo up) x 1.
Proof.
  intros L [H|H].
  - apply (is_derive_ext_loc (fun y => y - lo)).
    + apply (nhood (fun y => y) (x - 1) lo); [apply continuous_id|lra|]. intros y Hy. unfold ext_dist, nearest.
      rewrite Rmax_left by lra. rewrite Rmin_right by lra. reflexivity.
    + auto_derive; [exact I|]. ring.
  - apply (is_derive_ext_loc (fun y => y - up)).
    + apply (nhood (fun y => y) up (x + 1)); [apply continuous_id|lra|]. intros y Hy. unfold ext_dist, nearest.
      rewrite Rmax_right by lra. rewrite Rmin_left by lra. reflexivity.
    + auto_derive; [exact I|]. ring.
Qed.

Section Rmtb.
Variables (orders ncps : list nat) (lo up : nat -> R) (coef : Z -> R).
Hypothesis Hdim : Forall2 (fun o n => (1 <= o <= n)%nat) orders ncps.
Let nx := length orders.
Hypothesis Hbox : forall k, (k < nx)%nat -> lo k < up k.
Notation par x := (fun k => to_param (lo k) (up k) (x k)).
Notation U := (rawsum (prodl orders) (raw_data orders ncps lo up) (raw_col orders ncps lo up) coef).
Definition wid (ix : nat) : R := match ix with O => 1 | S k => / (up k - lo k) end.

Lemma raw_col_indep a b c d x inz : raw_col orders ncps lo up a b x inz = raw_col orders ncps lo up c d x inz.
Proof.
  unfold raw_col, jac_col. apply fold_left_ext_in. intros z ix _. rewrite !dim_basis_fst. reflexivity.
Qed.
Lemma U_eq ix1 ix2 x : U ix1 ix2 x = grid_sum ncps (fac orders ncps ix1 ix2 (par x)) coef * (wid ix1 * wid ix2).
Proof.
  rewrite <- (jac_sum orders ncps Hdim ix1 ix2 (par x) coef) by (intros; apply to_param_01).
  rewrite <- rsum_scal_r. unfold rawsum. apply rsum_ext. intros inz _. unfold raw_data, raw_col, wid.
  destruct ix1, ix2; unfold Rdiv; ring.
Qed.
Lemma U0_eq x : U 0 0 x = grid_sum ncps (fac0 orders ncps (par x)) coef.
Proof. rewrite U_eq. cbn [wid]. rewrite !Rmult_1_r. reflexivity. Qed.

Lemma value_eq ext x : rmtb_value orders ncps lo up ext coef x =
  U 0 0 x + (if ext then rsum nx (fun ix => U 0 (S ix) x * ext_dist (lo ix) (up ix) (x ix)) else 0).
Proof.
  unfold rmtb_value. rewrite predict_eq by apply raw_col_indep. f_equal. destruct ext; [|reflexivity].
  apply rsum_ext. intros ix _. unfold mask. ring.
Qed.
Lemma deriv_eq ext kx x : rmtb_derivative orders ncps lo up ext coef kx x =
  U (S kx) 0 x + (if ext then rsum nx (fun ix => U (S kx) (S ix) x * ext_dist (lo ix) (up ix) (x ix) * (1 - isexternal lo up x kx)) else 0).
Proof. unfold rmtb_derivative. rewrite predict_eq by apply raw_col_indep. reflexivity. Qed.

(** regular coordinate: inside a knot interval *)
Definition interior (kx : nat) (x : nat -> R) : Prop :=
  let t := (x kx - lo kx) / (up kx - lo kx) in
  eps < t < 1 - eps /\ forall i, t <> uniform_knots (nth kx orders 0%nat) (nth kx ncps 0%nat) i.
Definition outside (kx : nat) (x : nat -> R) : Prop := x kx < lo kx \/ up kx < x kx.

Lemma par_upd x kx z ix : ix <> kx -> to_param (lo ix) (up ix) (upd x kx z ix) = to_param (lo ix) (up ix) (x ix).
Proof. intros H. rewrite upd_neq by exact H. reflexivity. Qed.
Lemma fac_indep ix1 ix2 p q ix i : p ix = q ix -> fac orders ncps ix1 ix2 p ix i = fac orders ncps ix1 ix2 q ix i.
Proof. intros E. unfold fac, fac0, fac1, fac2, start. rewrite E. reflexivity. Qed.

Lemma U_derive_in ix2 kx x : (kx < nx)%nat -> S kx <> ix2 -> interior kx x ->
  is_derive (fun z => U 0 ix2 (upd x kx z)) (x kx) (U (S kx) ix2 x).
Proof.
  intros Hk N (Hi & Hn). pose proof (Hbox kx Hk) as L.
  apply (is_derive_ext (fun z => grid_sum ncps (fac orders ncps 0 ix2 (par (upd x kx z))) coef * wid ix2)).
  { intros z. rewrite U_eq. cbn [wid]. rewrite Rmult_1_l. reflexivity. }
  rewrite U_eq. cbn [wid].
  set (D := fun i => fac1 orders ncps (par x) kx i * / (up kx - lo kx)).
  rewrite <- Rmult_assoc.
  rewrite <- (grid_scale ncps (fac orders ncps (S kx) ix2 (par x)) (fun ix i => if Nat.eqb ix kx then D i else fac orders ncps 0 ix2 (par x) ix i) (/ (up kx - lo kx)) kx coef).
  - apply (is_derive_scal_l (fun z => grid_sum ncps (fac orders ncps 0 ix2 (par (upd x kx z))) coef) (x kx) _ (wid ix2)).
    apply (is_derive_grid ncps (fun z => fac orders ncps 0 ix2 (par (upd x kx z))) (fac orders ncps 0 ix2 (par x)) D kx (x kx) coef).
    + intros z ix i Hix. apply fac_indep. apply par_upd. exact Hix.
    + intros i.
      apply (is_derive_ext (fun z => bspline (uniform_knots (nth kx orders 0%nat) (nth kx ncps 0%nat)) (nth kx orders 0%nat - 1) (Z.of_nat i) (to_param (lo kx) (up kx) z))).
      { intros z. unfold fac. destruct (Nat.eqb_spec (S kx) 0); [discriminate|]. destruct (Nat.eqb_spec (S kx) ix2); [contradiction|].
        unfold fac0. rewrite upd_eq. reflexivity. }
      unfold D. rewrite Rmult_comm. unfold fac1.
      apply (is_derive_comp (bspline (uniform_knots (nth kx orders 0%nat) (nth kx ncps 0%nat)) (nth kx orders 0%nat - 1) (Z.of_nat i)) (to_param (lo kx) (up kx))).
      * unfold start. apply dim_local; [apply dim_ok; assumption|apply to_param_01|].
        intros j. rewrite to_param_inside by lra. apply Hn.
      * apply to_param_derive; [exact L|exact Hi].
    + rewrite (ncps_length orders ncps Hdim). exact Hk.
  - rewrite (ncps_length orders ncps Hdim). exact Hk.
  - intros ix i. destruct (Nat.eqb_spec ix kx) as [-> |Nx].
    + unfold D, fac. rewrite Nat.eqb_refl. destruct (Nat.eqb_spec (S kx) ix2); [contradiction|reflexivity].
    + unfold fac. destruct (Nat.eqb_spec (S ix) 0); [discriminate|]. destruct (Nat.eqb_spec (S ix) (S kx)); [lia|reflexivity].
Qed.
Lemma U_const_out ix1 ix2 kx x : (kx < nx)%nat -> outside kx x ->
  locally (x kx) (fun z => U ix1 ix2 (upd x kx z) = U ix1 ix2 x).
Proof.
  intros Hk Ho. apply (filter_imp (fun z => to_param (lo kx) (up kx) z = to_param (lo kx) (up kx) (x kx))); [|apply to_param_out; [apply Hbox; exact Hk|exact Ho]].
  intros z Hz. rewrite !U_eq. f_equal. unfold grid_sum. apply msum_ext. intros is His. f_equal. apply lprod_ext. intros k Hlt.
  apply fac_indep. cbn [Nat.add]. destruct (Nat.eq_dec k kx) as [-> |N]; [rewrite upd_eq; exact Hz|apply par_upd; exact N].
Qed.
Lemma is_derive_loc_const (f : R -> R) x c : locally x (fun z => f z = c) -> is_derive f x 0.
Proof.
  intros H. apply (is_derive_ext_loc (fun _ => c)); [|apply (is_derive_const c x)]. apply (filter_imp _ _ (fun z E => eq_sym E) H).
Qed.

Lemma derivative_correct ext kx x : (kx < nx)%nat -> interior kx x \/ (ext = true /\ outside kx x) ->
  is_partial (rmtb_value orders ncps lo up ext coef) x kx (rmtb_derivative orders ncps lo up ext coef kx x).
Proof.
  intros Hk HC. unfold is_partial. rewrite deriv_eq. pose proof (Hbox kx Hk) as L.
  apply (is_derive_ext (fun z => U 0 0 (upd x kx z) + (if ext then rsum nx (fun ix => U 0 (S ix) (upd x kx z) * ext_dist (lo ix) (up ix) (upd x kx z ix)) else 0))).
  { intros z. symmetry. apply value_eq. }
  destruct HC as [Hi|(-> & Ho)].
  - assert (IN : locally (x kx) (fun z => ext_dist (lo kx) (up kx) z = 0)).
    { destruct Hi as (Hi & _). apply (nhood (fun y => (y - lo kx) / (up kx - lo kx)) eps (1 - eps)); [apply cont_affine; exact L|exact Hi|].
      intros y Hy. apply ext_dist_in. pose proof eps_pos. split.
      - destruct (Rle_dec (lo kx) y); [assumption|]. pose proof (frac_lt0 (lo kx) (up kx) y L ltac:(lra)). lra.
      - destruct (Rle_dec y (up kx)); [assumption|]. pose proof (frac_gt1 (lo kx) (up kx) y L ltac:(lra)). lra. }
    assert (X0 : ext_dist (lo kx) (up kx) (x kx) = 0) by (apply locally_singleton in IN; exact IN).
    assert (EX : isexternal lo up x kx = 0) by (unfold isexternal; destruct (Req_EM_T _ _); [reflexivity|contradiction]).
    apply (is_derive_plus (fun z => U 0 0 (upd x kx z))); [apply U_derive_in; [exact Hk|lia|exact Hi]|].
    destruct ext; [|apply (is_derive_const 0 (x kx))].
    apply (is_derive_rsum nx (fun ix z => U 0 (S ix) (upd x kx z) * ext_dist (lo ix) (up ix) (upd x kx z ix))).
    intros ix Hix. rewrite EX. destruct (Nat.eq_dec ix kx) as [-> |N].
    + rewrite X0. replace (U (S kx) (S kx) x * 0 * (1 - 0)) with 0 by ring.
      apply (is_derive_loc_const _ _ 0). apply (filter_imp (fun z => ext_dist (lo kx) (up kx) z = 0)); [|exact IN].
      intros z Hz. rewrite upd_eq, Hz. ring.
    + replace (U (S kx) (S ix) x * ext_dist (lo ix) (up ix) (x ix) * (1 - 0)) with (U (S kx) (S ix) x * ext_dist (lo ix) (up ix) (x ix)) by ring.
      apply (is_derive_ext (fun z => U 0 (S ix) (upd x kx z) * ext_dist (lo ix) (up ix) (x ix))).
      { intros z. rewrite upd_neq by exact N. reflexivity. }
      apply (is_derive_scal_l (fun z => U 0 (S ix) (upd x kx z)) (x kx) (U (S kx) (S ix) x) (ext_dist (lo ix) (up ix) (x ix))).
      apply U_derive_in; [exact Hk|lia|exact Hi].
  - assert (EX : isexternal lo up x kx = 1).
    { unfold isexternal. destruct (Req_EM_T _ _) as [E|E]; [|reflexivity]. exfalso. revert E. apply ext_dist_out; [lra|exact Ho]. }
    rewrite EX.
    rewrite (rsum_zero nx (fun ix => U (S kx) (S ix) x * _ * _)) by (intros; ring). rewrite Rplus_0_r.
    replace (U (S kx) 0 x) with (0 + U (S kx) 0 x) by ring.
    apply (is_derive_plus (fun z => U 0 0 (upd x kx z))).
    + apply (is_derive_loc_const _ _ (U 0 0 x)). apply U_const_out; [exact Hk|exact Ho].
    + replace (U (S kx) 0 x) with (rsum nx (fun ix => if Nat.eqb ix kx then U 0 (S ix) x else 0)).
      2:{ rewrite (rsum_single nx (fun ix => U 0 (S ix) x) kx Hk). rewrite !U_eq. cbn [wid]. rewrite Rmult_1_l, Rmult_1_r. apply (f_equal (fun a => a * _)). unfold grid_sum. apply msum_ext. intros is _. f_equal. }
      apply (is_derive_rsum nx (fun ix z => U 0 (S ix) (upd x kx z) * ext_dist (lo ix) (up ix) (upd x kx z ix))).
      intros ix Hix. destruct (Nat.eqb_spec ix kx) as [-> |N].
      * apply (is_derive_ext_loc (fun z => U 0 (S kx) x * ext_dist (lo kx) (up kx) z)).
        -- apply (filter_imp (fun z => U 0 (S kx) (upd x kx z) = U 0 (S kx) x)); [|apply U_const_out; [exact Hk|exact Ho]].
           intros z Hz. rewrite Hz, upd_eq. reflexivity.
        -- pose proof (is_derive_scal (ext_dist (lo kx) (up kx)) (x kx) (U 0 (S kx) x) 1 (ext_dist_derive _ _ _ L Ho)) as Q.
           rewrite Rmult_1_r in Q. exact Q.
      * apply (is_derive_loc_const _ _ (U 0 (S ix) x * ext_dist (lo ix) (up ix) (x ix))).
        apply (filter_imp (fun z => U 0 (S ix) (upd x kx z) = U 0 (S ix) x)); [|apply U_const_out; [exact Hk|exact Ho]].
        intros z Hz. rewrite Hz, upd_neq by exact N. reflexivity.
Qed.

(** values *)
Lemma value_tensor x : rmtb_value orders ncps lo up false coef x = tensor_spline orders ncps (par x) 0 (fun k => coef (Z.of_nat k)).
Proof. rewrite value_eq, Rplus_0_r, U0_eq. apply grid_tensor. exact Hdim. Qed.
Lemma value_inside x : (forall k, (k < nx)%nat -> lo k <= x k <= up k) -> rmtb_value orders ncps lo up true coef x = rmtb_value orders ncps lo up false coef x.
Proof.
  intros H. rewrite !value_eq. f_equal. apply rsum_zero. intros ix Hix. rewrite ext_dist_in by (apply H; exact Hix). ring.
Qed.
Lemma to_param_nearest l u x : l < u -> to_param l u (nearest l u x) = to_param l u x.
Proof.
  intros L. pose proof eps_pos. pose proof eps_small. destruct (Rlt_dec x l) as [A|A]; [|destruct (Rlt_dec u x) as [B|B]].
  - unfold nearest. rewrite Rmax_left by lra. rewrite Rmin_right by lra. unfold to_param. pose proof (frac_lt0 l u x L A).
    rewrite (Rmax_right ((x - l) / (u - l))) by lra. replace ((l - l) / (u - l)) with 0 by (field; lra). rewrite Rmax_right by lra. reflexivity.
  - unfold nearest. rewrite Rmax_right by lra. rewrite Rmin_left by lra. unfold to_param. pose proof (frac_gt1 l u x L B).
    rewrite (Rmax_left ((x - l) / (u - l))) by lra. replace ((u - l) / (u - l)) with 1 by (field; lra). rewrite Rmax_left by lra.
    rewrite !Rmin_right by lra. reflexivity.
  - rewrite nearest_id by lra. reflexivity.
Qed.
Lemma U_nearest ix1 ix2 x : U ix1 ix2 (fun k => nearest (lo k) (up k) (x k)) = U ix1 ix2 x.
Proof.
  rewrite !U_eq. f_equal. unfold grid_sum. apply msum_ext. intros is His. f_equal. apply lprod_ext. intros k Hk.
  apply fac_indep. apply to_param_nearest. apply Hbox. pose proof (F2_length _ _ _ His) as E. rewrite (ncps_length orders ncps Hdim) in E. unfold nx. cbn [Nat.add]. lia.
Qed.
Lemma U_1_sym kx x : U 0 (S kx) x = U (S kx) 0 x.
Proof.
  rewrite !U_eq. cbn [wid]. rewrite Rmult_1_l, Rmult_1_r. apply (f_equal (fun a => a * _)). unfold grid_sum. apply msum_ext. intros is _. f_equal.
Qed.
Lemma value_expansion x : let b := fun k => nearest (lo k) (up k) (x k) in
  rmtb_value orders ncps lo up true coef x =
  rmtb_value orders ncps lo up false coef b + rsum nx (fun k => rmtb_derivative orders ncps lo up false coef k b * (x k - b k)).
Proof.
  cbv zeta. rewrite !value_eq, Rplus_0_r, U_nearest. f_equal. apply rsum_ext. intros k _.
  rewrite deriv_eq, Rplus_0_r, U_nearest, U_1_sym. reflexivity.
Qed.
Lemma value_hull x a b : (forall k, (0 <= k < Z.of_nat (prodl ncps))%Z -> a <= coef k <= b) -> a <= rmtb_value orders ncps lo up false coef x <= b.
Proof. intros H. rewrite value_eq, Rplus_0_r, U0_eq. apply (grid_hull orders ncps Hdim); [intros; apply to_param_01|exact H]. Qed.
Lemma columns_in_range ix1 ix2 x inz : (inz < prodl orders)%nat -> (0 <= raw_col orders ncps lo up ix1 ix2 x inz < Z.of_nat (prodl ncps))%Z.
Proof. intros H. apply (jac_col_range orders ncps Hdim); [intros; apply to_param_01|exact H]. Qed.
End Rmtb.

(** constants *)
Section Const.
Variables (orders ncps : list nat) (lo up : nat -> R) (c : R).
Hypothesis Hdim : Forall2 (fun o n => (1 <= o <= n)%nat) orders ncps.
Let nx := length orders.
Lemma fac1_sum p ix : (ix < nx)%nat -> 0 <= p ix < 1 -> rsum (nth ix ncps 0%nat) (fac1 orders ncps p ix) = 0.
Proof.
  intros H Hp. pose proof (dim_ok orders ncps Hdim ix H) as D. destruct (start_range orders ncps Hdim p ix H Hp) as (A & B).
  set (O := nth ix orders 0%nat) in *. set (NC := nth ix ncps 0%nat) in *. set (a := Z.to_nat (start orders ncps p ix)) in *.
  transitivity (rsum (a + (O + (NC - a - O))) (fac1 orders ncps p ix)); [f_equal; lia|]. rewrite !rsum_app.
  assert (F : forall i, fac1 orders ncps p ix i = fac orders ncps (S ix) 0 p ix i).
  { intros i. unfold fac. rewrite Nat.eqb_refl. reflexivity. }
  rewrite (rsum_zero a), (rsum_zero (NC - a - O)).
  - rewrite Rplus_0_l, Rplus_0_r.
    rewrite <- (dpiece_sum O (knots_uniform O NC) (start orders ncps p ix)) with (k := (O - 1)%nat) (x := p ix); [|apply knots_inc; lia|lia|lia].
    apply rsum_ext. intros j Hj. unfold fac1. fold O NC. f_equal. unfold node, a. lia.
  - intros i Hi. rewrite F. apply (fac_supp orders ncps Hdim); [exact H|exact Hp|]. fold a O. lia.
  - intros i Hi. rewrite F. apply (fac_supp orders ncps Hdim); [exact H|exact Hp|]. fold a O. lia.
Qed.
Lemma U_const_0 x : rawsum (prodl orders) (raw_data orders ncps lo up) (raw_col orders ncps lo up) (fun _ => c) 0 0 x = c.
Proof. rewrite (U0_eq orders ncps lo up (fun _ => c) Hdim). apply (grid_const orders ncps Hdim). intros; apply to_param_01. Qed.
Lemma U_const_1 kx x : (kx < nx)%nat -> rawsum (prodl orders) (raw_data orders ncps lo up) (raw_col orders ncps lo up) (fun _ => c) (S kx) 0 x = 0.
Proof.
  intros H. rewrite (U_eq orders ncps lo up (fun _ => c) Hdim). 
  transitivity (0 * (wid lo up (S kx) * wid lo up 0)); [f_equal|ring]. unfold grid_sum.
  transitivity (msum ncps (fun is => c * lprod 0 is (fac orders ncps (S kx) 0 (fun k => to_param (lo k) (up k) (x k))))).
  { apply msum_ext. intros; ring. }
  rewrite msum_scal, msum_lprod. rewrite (sprod_zero ncps _ ncps 0%nat kx); [ring|rewrite (ncps_length orders ncps Hdim); exact H|].
  cbn [Nat.add]. rewrite <- (fac1_sum (fun k => to_param (lo k) (up k) (x k)) kx H (to_param_01 _ _ _)).
  apply rsum_ext. intros i _. unfold fac. rewrite Nat.eqb_refl. reflexivity.
Qed.
Lemma U_const_2 k1 k2 x : (k1 < nx)%nat -> k1 <> k2 -> rawsum (prodl orders) (raw_data orders ncps lo up) (raw_col orders ncps lo up) (fun _ => c) (S k1) (S k2) x = 0.
Proof.
  intros H N. rewrite (U_eq orders ncps lo up (fun _ => c) Hdim). 
  transitivity (0 * (wid lo up (S k1) * wid lo up (S k2))); [f_equal|ring]. unfold grid_sum.
  transitivity (msum ncps (fun is => c * lprod 0 is (fac orders ncps (S k1) (S k2) (fun k => to_param (lo k) (up k) (x k))))).
  { apply msum_ext. intros; ring. }
  rewrite msum_scal, msum_lprod. rewrite (sprod_zero ncps _ ncps 0%nat k1); [ring|rewrite (ncps_length orders ncps Hdim); exact H|].
  cbn [Nat.add]. rewrite <- (fac1_sum (fun k => to_param (lo k) (up k) (x k)) k1 H (to_param_01 _ _ _)).
  apply rsum_ext. intros i _. unfold fac. rewrite Nat.eqb_refl. destruct (Nat.eqb_spec (S k1) (S k2)); [lia|reflexivity].
Qed.
Lemma const_value ext x : rmtb_value orders ncps lo up ext (fun _ => c) x = c.
Proof.
  rewrite value_eq, U_const_0. destruct ext; [|ring]. rewrite rsum_zero; [ring|]. intros ix Hix.
  rewrite (U_1_sym orders ncps lo up (fun _ => c) Hdim), U_const_1 by exact Hix. ring.
Qed.
Lemma const_derivative ext kx x : (kx < nx)%nat -> (forall k, (k < nx)%nat -> lo k < up k) -> rmtb_derivative orders ncps lo up ext (fun _ => c) kx x = 0.
Proof.
  intros H Hb. rewrite deriv_eq, U_const_1 by exact H. destruct ext; [|ring]. rewrite rsum_zero; [ring|]. intros ix Hix.
  destruct (Nat.eq_dec kx ix) as [-> |N]; [|rewrite U_const_2 by assumption; ring].
  unfold isexternal. destruct (Req_EM_T _ 0) as [->|E]; ring.
Qed.
End Const.
