From Coq Require Import Reals ZArith Arith Bool List Lia Lra Psatz.
From Coquelicot Require Import Coquelicot.
From Verif Require Import RSum Mat Index_M Index_P Rmtb_M Rmtb_S Rmtb_P Rmtb_P2 Rmtb_P3 Rmtb_P4 Rmtb_P5 Rmtc_M RmtsTrain_M RmtsTrain_P RmtsTrain_P2 RmtsTrain_P4.
Import ListNotations.
Open Scope list_scope.
Open Scope R_scope.

(** * sparse rows *)
Lemma scatter_dot n nnz data col (v : vec) : (forall inz, (inz < nnz)%nat -> (0 <= col inz < Z.of_nat n)%Z) ->
  rsum n (fun j => scatter nnz data col j * v j) = rsum nnz (fun inz => data inz * v (Z.to_nat (col inz))).
Proof.
  intros H. unfold scatter.
  rewrite (rsum_ext n _ (fun j => rsum nnz (fun inz => (if Z.eqb (col inz) (Z.of_nat j) then data inz else 0) * v j))) by (intros j _; rewrite rsum_scal_r; reflexivity).
  rewrite rsum_swap. apply rsum_ext. intros inz Hi. specialize (H inz Hi).
  rewrite (rsum_ext n _ (fun j => if Nat.eqb j (Z.to_nat (col inz)) then data inz * v j else 0)).
  - apply (rsum_single n (fun j => data inz * v j) (Z.to_nat (col inz))). lia.
  - intros j Hj. destruct (Nat.eqb_spec j (Z.to_nat (col inz))) as [E|E]; destruct (Z.eqb_spec (col inz) (Z.of_nat j)) as [Q|Q]; try ring; exfalso; lia.
Qed.

(** * the average over the quadrature points *)
Lemma rprod_INR : forall l, rprod (length l) (fun k => INR (nth k l 0%nat)) = INR (prodl l).
Proof.
  induction l as [|a l IH]; [reflexivity|]. cbn [length prodl fold_right]. rewrite rprod_S_l. cbn [nth]. rewrite IH. change (prodl (a :: l)) with (a * prodl l)%nat. rewrite mult_INR. reflexivity.
Qed.
Lemma rprod_div n (f g : nat -> R) : (forall k, (k < n)%nat -> g k <> 0) -> rprod n (fun k => f k / g k) = rprod n f / rprod n g.
Proof.
  intros H. induction n as [|n IH]; cbn [rprod]; [field|]. rewrite IH by (intros; apply H; lia). assert (rprod n g <> 0).
  { clear IH. induction n as [|n IHn]; cbn [rprod]; [lra|]. apply Rmult_integral_contrapositive_currified; [apply IHn; intros; apply H; lia|apply H; lia]. }
  field. split; [apply H; lia|assumption].
Qed.
Lemma vol_is_mean nelems width : (forall k, (k < length nelems)%nat -> 0 < width k) -> (forall k, (k < length nelems)%nat -> (0 < nth k nelems 0)%nat) ->
  vol_fraction nelems width = / INR (nquad nelems).
Proof.
  intros Hw He. unfold vol_fraction, nquad. rewrite rprod_div by (intros k Hk; apply not_0_INR; specialize (He k Hk); lia).
  rewrite <- (rprod_INR (map (fun m => 2 * m)%nat nelems)). rewrite map_length.
  rewrite (rprod_ext _ (fun k => INR (nth k (map (fun m => (2 * m)%nat) nelems) 0%nat)) (fun k => INR (2 * nth k nelems 0%nat))).
  2:{ intros k Hk. rewrite (nth_indep _ 0%nat (2 * 0)%nat) by (rewrite map_length; exact Hk). rewrite map_nth. reflexivity. }
  assert (A : 0 < rprod (length nelems) width) by (apply rprod_pos; exact Hw).
  assert (B : 0 < rprod (length nelems) (fun k => INR (2 * nth k nelems 0%nat))) by (apply rprod_pos; intros k Hk; apply lt_0_INR; specialize (He k Hk); lia).
  field. split; lra.
Qed.
Lemma energy_mean n nelems (D : nat -> mat) width sm sol : (forall k, (k < length nelems)%nat -> 0 < width k) -> (forall k, (k < length nelems)%nat -> (0 < nth k nelems 0)%nat) ->
  dot n sol (mv n (energy_hess (length nelems) (nquad nelems) D width sm (vol_fraction nelems width)) sol) =
  rsum (nquad nelems) (fun q => rsum (length nelems) (fun k => sm k * mv n (D k) sol q ^ 2)) / INR (nquad nelems).
Proof.
  intros Hw He. rewrite energy_form by (intros k Hk; apply Rgt_not_eq, Hw; exact Hk). rewrite vol_is_mean by assumption.
  unfold Rdiv. rewrite <- rsum_scal_r. rewrite (rsum_ext (nquad nelems) _ (fun q => rsum (length nelems) (fun k => sm k * mv n (D k) sol q ^ 2 * / INR (nquad nelems)))) by (intros q _; rewrite rsum_scal_r; reflexivity).
  rewrite (rsum_swap (nquad nelems)). apply rsum_ext. intros k _. unfold dot. rewrite <- rsum_scal_l. apply rsum_ext. intros q _. ring.
Qed.

(** * RMTB: second derivative rows *)
Section B.
Variables (orders ncps : list nat) (lo up : nat -> R) (coef : Z -> R).
Hypothesis Hdim : Forall2 (fun o n => (1 <= o <= n)%nat) orders ncps.
Let nx := length orders.
Hypothesis Hbox : forall k, (k < nx)%nat -> lo k < up k.
Notation par x := (fun k => to_param (lo k) (up k) (x k)).
Notation U := (rawsum (prodl orders) (raw_data orders ncps lo up) (raw_col orders ncps lo up) coef).
Notation wd := (wid lo up).
Lemma U_derive2 kx x : (kx < nx)%nat -> interior orders ncps lo up kx x ->
  is_derive (fun z => U (S kx) 0 (upd x kx z)) (x kx) (U (S kx) (S kx) x).
Proof.
  intros Hk (Hi & Hn). pose proof (Hbox kx Hk) as L.
  apply (is_derive_ext (fun z => grid_sum ncps (fac orders ncps (S kx) 0 (par (upd x kx z))) coef * wd (S kx))).
  { intros z. rewrite (U_eq orders ncps lo up coef Hdim). cbn [wid]. rewrite Rmult_1_r. reflexivity. }
  rewrite (U_eq orders ncps lo up coef Hdim). cbn [wid].
  set (D := fun i => fac2 orders ncps (par x) kx i * / (up kx - lo kx)).
  rewrite <- Rmult_assoc.
  rewrite <- (grid_scale ncps (fac orders ncps (S kx) (S kx) (par x)) (fun ix i => if Nat.eqb ix kx then D i else fac orders ncps (S kx) 0 (par x) ix i) (/ (up kx - lo kx)) kx coef).
  - apply (is_derive_scal_l (fun z => grid_sum ncps (fac orders ncps (S kx) 0 (par (upd x kx z))) coef) (x kx) _ (/ (up kx - lo kx))).
    apply (is_derive_grid ncps (fun z => fac orders ncps (S kx) 0 (par (upd x kx z))) (fac orders ncps (S kx) 0 (par x)) D kx (x kx) coef).
    + intros z ix i Hix. apply fac_indep. apply par_upd. exact Hix.
    + intros i. set (o := nth kx orders 0%nat). set (nc := nth kx ncps 0%nat).
      pose proof (dim_ok orders ncps Hdim kx Hk) as Ho. fold o nc in Ho.
      assert (T01 : 0 <= to_param (lo kx) (up kx) (x kx) < 1) by apply to_param_01.
      assert (Tn : forall j, to_param (lo kx) (up kx) (x kx) <> uniform_knots o nc j) by (intros j; rewrite to_param_inside by lra; apply Hn).
      apply (is_derive_ext_loc (fun z => dpiece o (knots_uniform o nc) (compute_i_start o nc (knots_uniform o nc) (to_param (lo kx) (up kx) (x kx))) (o - 1) (Z.of_nat i) (to_param (lo kx) (up kx) z))).
      { assert (CT : continuous (to_param (lo kx) (up kx)) (x kx)) by (apply (ex_derive_continuous (K := R_AbsRing) (V := R_NormedModule)); exists (/ (up kx - lo kx)); apply to_param_derive; [exact L|exact Hi]).
        pose proof (near o nc _ Ho T01 Tn) as Nr. specialize (CT _ Nr). unfold filtermap in CT. revert CT. apply filter_imp. intros z (Hz & Ez).
        unfold fac. rewrite Nat.eqb_refl. destruct (Nat.eqb_spec (S kx) 0); [discriminate|]. unfold fac1, start. rewrite upd_eq. fold o nc.
        cbn [fst compute_basis_0] in Ez. rewrite Ez. reflexivity. }
      unfold D. rewrite Rmult_comm. unfold fac2, start. fold o nc.
      apply (is_derive_comp (dpiece o (knots_uniform o nc) (compute_i_start o nc (knots_uniform o nc) (to_param (lo kx) (up kx) (x kx))) (o - 1) (Z.of_nat i)) (to_param (lo kx) (up kx))).
      * apply (dim_local o nc _ Ho T01 Tn (o - 1)%nat (Z.of_nat i)).
      * apply to_param_derive; [exact L|exact Hi].
    + rewrite (ncps_length orders ncps Hdim). exact Hk.
  - rewrite (ncps_length orders ncps Hdim). exact Hk.
  - intros ix i. destruct (Nat.eqb_spec ix kx) as [-> |Nx].
    + unfold D, fac. rewrite Nat.eqb_refl. reflexivity.
    + unfold fac. destruct (Nat.eqb_spec (S ix) 0); [discriminate|]. destruct (Nat.eqb_spec (S ix) (S kx)); [lia|reflexivity].
Qed.
Lemma rmtb_second kx x : (kx < nx)%nat -> interior orders ncps lo up kx x ->
  is_partial (rmtb_derivative orders ncps lo up false coef kx) x kx (U (S kx) (S kx) x).
Proof.
  intros Hk Hi. unfold is_partial. apply (is_derive_ext (fun z => U (S kx) 0 (upd x kx z))); [|apply U_derive2; assumption].
  intros z. rewrite deriv_eq by assumption. rewrite Rplus_0_r. reflexivity.
Qed.
End B.
Lemma quad_interior orders ncps lo up kx q : let nelems := map (fun on => (snd on - fst on + 1)%nat) (combine orders ncps) in
  Forall2 (fun o n => (1 <= o <= n)%nat) orders ncps -> (forall k, (k < length orders)%nat -> lo k < up k) ->
  (forall k, (k < length orders)%nat -> INR (nth k nelems 0%nat) <= 10 ^ 14) -> (kx < length orders)%nat -> (q < nquad nelems)%nat ->
  interior orders ncps lo up kx (quad_point lo up (map (fun m => 2 * m)%nat nelems) q).
Proof.
  intros nelems Hd Hb Hs Hk Hq. unfold interior. cbv zeta.
  assert (Ll : length nelems = length orders) by (unfold nelems; rewrite map_length, combine_length, <- (F2_length _ _ _ Hd); lia).
  assert (On : (1 <= nth kx orders 0 <= nth kx ncps 0)%nat) by (apply (dim_ok orders ncps Hd kx Hk)).
  assert (Em : nth kx nelems 0%nat = (nth kx ncps 0 - nth kx orders 0 + 1)%nat).
  { unfold nelems. rewrite (nth_indep _ 0%nat ((fun on : nat * nat => (snd on - fst on + 1)%nat) (0%nat, 0%nat))) by (fold nelems; rewrite Ll; exact Hk).
    rewrite (map_nth (fun on : nat * nat => (snd on - fst on + 1)%nat)). rewrite combine_nth by (apply (F2_length _ _ _ Hd)). reflexivity. }
  set (m := nth kx nelems 0%nat) in *. assert (M0 : (0 < m)%nat) by lia.
  unfold quad_point. rewrite quad_param by (apply Hb; exact Hk).
  rewrite (nth_indep (map _ nelems) 0%nat ((fun m => (2 * m)%nat) 0%nat)) by (rewrite map_length, Ll; exact Hk). rewrite (map_nth (fun m => (2 * m)%nat)). fold m.
  assert (Pp : (0 < prodl (map (fun m => 2 * m)%nat nelems))%nat) by (unfold nquad in Hq; lia).
  pose proof (expand_bounds (map (fun m => 2 * m)%nat nelems) q Hq) as EX.
  assert (Hi : (nth kx (expand_index (map (fun m => 2 * m)%nat nelems) q) 0 < 2 * m)%nat).
  { assert (G : forall a b : list nat, Forall2 lt a b -> forall k, (k < length b)%nat -> (nth k a 0 < nth k b 0)%nat).
    { clear. intros a b H. induction H as [|x y a b H _ IH]; intros k Hk; [cbn in Hk; lia|]. destruct k; [exact H|]. cbn. apply IH. cbn in Hk. lia. }
    specialize (G _ _ EX kx ltac:(rewrite map_length, Ll; exact Hk)). rewrite (nth_indep (map _ nelems) 0%nat ((fun m => (2 * m)%nat) 0%nat)) in G by (rewrite map_length, Ll; exact Hk). rewrite (map_nth (fun m => (2 * m)%nat)) in G. exact G. }
  set (i := nth kx (expand_index (map (fun m => (2 * m)%nat) nelems) q) 0%nat) in *.
  assert (Im : 0 < INR m) by (apply lt_0_INR; exact M0). assert (I2 : INR (2 * m) = 2 * INR m) by (rewrite mult_INR; reflexivity). rewrite I2.
  assert (Li : INR i + 1 <= 2 * INR m) by (rewrite <- I2, <- S_INR; apply le_INR; lia). pose proof (pos_INR i) as Pi.
  assert (Sm : INR m <= 10 ^ 14) by (apply (Hs kx Hk)).
  assert (E : (1 + 2 * INR i) / 2 / (2 * INR m) = (1 + 2 * INR i) / (4 * INR m)) by (field; lra). rewrite E.
  assert (B : eps * (4 * INR m) < 1). { unfold eps. apply Rle_lt_trans with (/ 10 ^ 15 * (4 * 10 ^ 14)); [apply Rmult_le_compat_l; [left; apply Rinv_0_lt_compat, pow_lt; lra|lra]|]. replace (10 ^ 15) with (10 * 10 ^ 14) by ring. assert (0 < 10 ^ 14) by (apply pow_lt; lra). set (t := 10 ^ 14) in *. replace (/ (10 * t) * (4 * t)) with (4 / 10) by (field; lra). lra. }
  split; [split|].
  - apply Rmult_lt_reg_r with (4 * INR m); [lra|]. replace ((1 + 2 * INR i) / (4 * INR m) * (4 * INR m)) with (1 + 2 * INR i) by (field; lra). lra.
  - apply Rmult_lt_reg_r with (4 * INR m); [lra|]. replace ((1 + 2 * INR i) / (4 * INR m) * (4 * INR m)) with (1 + 2 * INR i) by (field; lra). lra.
  - intros j H. rewrite <- knots_eq in H. unfold knots_uniform in H.
    assert (Ed : IZR (Z.of_nat (nth kx ncps 0%nat) - Z.of_nat (nth kx orders 0%nat) + 1) = INR m) by (rewrite INR_IZR_INZ, Em; f_equal; lia). rewrite Ed in H.
    assert (F : 1 + 2 * INR i = 4 * IZR (j - Z.of_nat (nth kx orders 0%nat) + 1)).
    { apply Rmult_eq_reg_r with (/ (4 * INR m)); [|apply Rinv_neq_0_compat; lra]. unfold Rdiv in H. rewrite H. field. lra. }
    rewrite INR_IZR_INZ in F. set (w := (j - Z.of_nat (nth kx orders 0%nat) + 1)%Z) in *. rewrite <- !mult_IZR, <- plus_IZR in F. apply eq_IZR in F. lia.
Qed.
Lemma rmtb_row orders ncps nelems lo up (sol : vec) kx q : Forall2 (fun o n => (1 <= o <= n)%nat) orders ncps ->
  mv (prodl ncps) (rmtb_energy_row orders ncps nelems lo up kx) sol q =
  rawsum (prodl orders) (raw_data orders ncps lo up) (raw_col orders ncps lo up) (fun z => sol (Z.to_nat z)) (S kx) (S kx) (quad_point lo up (map (fun m => 2 * m)%nat nelems) q).
Proof. intros Hd. unfold mv, rmtb_energy_row. rewrite scatter_dot by (intros inz Hi; apply columns_in_range; assumption). reflexivity. Qed.
