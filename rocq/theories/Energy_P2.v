From Coq Require Import Reals ZArith Arith Bool List Lia Lra Psatz.
From Coquelicot Require Import Coquelicot.
From Verif Require Import RSum Mat Index_M Index_P Rmtb_M Rmtb_S Rmtb_P Rmtb_P2 Rmtb_P3 Rmtb_P4 Rmtc_M Rmtc_S Rmtc_P Rmtc_P2 Rmtc_P3 Rmtc_P4 RmtsTrain_M RmtsTrain_P2 RmtsTrain_P4 Energy_P.
Import ListNotations.
Open Scope list_scope.
Open Scope R_scope.

(** * the element is locally constant strictly inside it *)
Section L.
Variables (a b : R) (num : nat).
Hypothesis Hab : a < b.
Hypothesis Hn : (0 < num)%nat.
Lemma fi_near z : a < z < b -> local a b num (Z.to_nat (fst (find_interval a b num z))) z < 1 ->
  locally z (fun y => fst (find_interval a b num y) = fst (find_interval a b num z) /\ snd (find_interval a b num y) = local a b num (Z.to_nat (fst (find_interval a b num z))) y).
Proof.
  intros Hz Hl. destruct (fi_local a b num Hab Hn z ltac:(lra)) as (He & _ & Hm). set (e := Z.to_nat (fst (find_interval a b num z))) in *.
  assert (C : continuous (local a b num e) z) by (apply (ex_derive_continuous (K := R_AbsRing) (V := R_NormedModule)); eexists; apply local_derive; assumption).
  assert (I : locally z (fun y => a < y < b)) by (apply (nhood (fun y => y) a b); [apply continuous_id|exact Hz|auto]).
  assert (J : locally z (fun y => -1 < local a b num e y < 1)) by (apply (nhood (local a b num e) (-1) 1); [exact C|lra|auto]).
  apply (filter_imp (fun y => a < y < b /\ -1 < local a b num e y < 1)); [|apply filter_and; assumption]. intros y (Hy & Hly).
  destruct (fi_local a b num Hab Hn y ltac:(lra)) as (He' & Es & Hm').
  assert (Ee : Z.to_nat (fst (find_interval a b num y)) = e).
  { unfold local in *. set (e' := Z.to_nat (fst (find_interval a b num y))) in *. destruct (Nat.lt_trichotomy e' e) as [L|[L|L]]; [exfalso|exact L|exfalso];
    apply le_INR in L; rewrite S_INR in L; lra. }
  rewrite Ee in Es. split; [|exact Es].
  destruct (fi_range a b num y Hab Hn) as ((A & _) & _). destruct (fi_range a b num z Hab Hn) as ((B & _) & _). unfold e in Ee. apply Z2Nat.inj in Ee; assumption.
Qed.
End L.

Section C.
Variables (nelems : list nat) (lo up : nat -> R) (inv : nat -> nat -> R) (dof : nat -> R).
Let nx := length nelems.
Notation nterms := (Rmtc_M.nterms nelems).
Notation nterm := (Rmtc_M.nterm nelems).
Hypothesis Hbox : forall k, (k < nx)%nat -> lo k < up k.
Hypothesis Hel : forall k, (k < nx)%nat -> (0 < nth k nelems 0)%nat.
Hypothesis Hinv : forall i j, (i < nterm)%nat -> (j < nterm)%nat -> rsum nterm (fun k => inv i k * coeff2nodal nelems k j) = if Nat.eqb i j then 1 else 0.
Notation E x := (elem_list nelems lo up x).
Notation U := (rawsum nterm (rmtc_data nelems lo up) (rmtc_col nelems lo up) (fun z => dof2coeff nelems inv dof (Z.to_nat z))).
Notation cc0 := (cc nelems lo up dof 0).
Lemma cc_upd x kx z e k : (kx < nx)%nat -> cc0 (upd x kx z) kx e k = cc0 x kx e k.
Proof.
  intros Hk. unfold cc. apply msum_ext. intros is _. f_equal.
  - apply lprod_ext. intros j _. cbn [Nat.add]. destruct (Nat.eqb_spec j kx); [reflexivity|]. apply hfac_loc. apply loc_upd. assumption.
  - f_equal. f_equal. rewrite E_upd by assumption. assert (G : forall (u v : nat) l k, lset k u (lset k v l) = lset k u l) by (intros u v; induction l as [|w l IH]; intros [|j]; cbn; [reflexivity|reflexivity|reflexivity|f_equal; apply IH]). apply G.
Qed.
Definition strictly_inside (kx : nat) (x : vec) : Prop :=
  lo kx < x kx < up kx /\ forall v : nat, x kx <> lo kx + (up kx - lo kx) * INR v / INR (nth kx nelems 0%nat).
Lemma strict_local kx x : (kx < nx)%nat -> strictly_inside kx x ->
  local (lo kx) (up kx) (nth kx nelems 0%nat) (Z.to_nat (fst (find_interval (lo kx) (up kx) (nth kx nelems 0%nat) (x kx)))) (x kx) < 1.
Proof.
  intros Hk (Hi & Hv). pose proof (Hbox kx Hk) as L. pose proof (num_pos _ (Hel kx Hk)) as Np. destruct (fi_local (lo kx) (up kx) (nth kx nelems 0%nat) L (Hel kx Hk) (x kx) ltac:(lra)) as (He & _ & Hm).
  set (e := Z.to_nat _) in *. destruct (Rle_lt_or_eq_dec _ _ (proj2 Hm)) as [X|X]; [exact X|exfalso]. apply (Hv (S e)). unfold local, scale in X. rewrite S_INR.
  set (m := INR (nth kx nelems 0%nat)) in *. set (d := up kx - lo kx) in *. assert (D : 0 < d) by (unfold d; lra).
  assert (Y : (x kx - lo kx) * (2 * m / d) = 2 * (INR e + 1)) by lra.
  assert (Z : x kx - lo kx = (x kx - lo kx) * (2 * m / d) * d / (2 * m)) by (field; split; lra). rewrite Y in Z.
  replace (2 * (INR e + 1) * d / (2 * m)) with (d * (INR e + 1) / m) in Z by (field; lra). lra.
Qed.
Lemma dd_scale kx : (kx < nx)%nat -> dxb_dx nelems lo up kx = scale (lo kx) (up kx) (nth kx nelems 0%nat).
Proof. intros Hk. unfold dxb_dx, scale. pose proof (num_pos _ (Hel kx Hk)). pose proof (Hbox kx Hk). field. split; lra. Qed.
Lemma d2U_1d x kx : (kx < nx)%nat ->
  U (S kx) (S kx) x = rsum 4 (fun k => d2herm k (snd (loc nelems lo up x kx)) * cc0 x kx (Z.to_nat (fst (loc nelems lo up x kx))) k) * scale (lo kx) (up kx) (nth kx nelems 0%nat) * scale (lo kx) (up kx) (nth kx nelems 0%nat).
Proof.
  intros Hk. rewrite Ueq by assumption. rewrite (msum_pull _ nterms 0 kx) by (rewrite nterms_length; exact Hk). rewrite nterms_nth by exact Hk. cbn [Nat.add].
  rewrite <- !rsum_scal_r. apply rsum_ext. intros k Hk4. rewrite hfac_2 by exact Hk4. rewrite dd_scale by exact Hk.
  match goal with |- _ * _ * ?m = _ => replace m with (cc0 x kx (Z.to_nat (fst (loc nelems lo up x kx))) k); [ring|] end.
  unfold cc. apply msum_ext. intros is His. f_equal.
  - apply lprod_ext. intros j Hj. cbn [Nat.add]. destruct (Nat.eqb_spec j kx); [reflexivity|].
    unfold hfac. apply rsum_ext. intros p _. f_equal. unfold mono_factor. destruct (Nat.eqb_spec (S j) (S kx)); [lia|]. cbn [Nat.eqb]. reflexivity.
  - f_equal. f_equal. rewrite <- (lset_same nelems lo up x kx) at 2. rewrite E_nth by exact Hk. reflexivity.
Qed.
Lemma U_derive2c kx x : (kx < nx)%nat -> strictly_inside kx x ->
  is_derive (fun z => U (S kx) 0 (upd x kx z)) (x kx) (U (S kx) (S kx) x).
Proof.
  intros Hk Hs. pose proof (strict_local kx x Hk Hs) as Hl. pose proof Hs as (Hi & _). pose proof (Hbox kx Hk) as L. pose proof (Hel kx Hk) as Hn.
  set (num := nth kx nelems 0%nat) in *. set (sc := scale (lo kx) (up kx) num).
  set (e := Z.to_nat (fst (find_interval (lo kx) (up kx) num (x kx)))) in *.
  apply (is_derive_ext_loc (fun z => rsum 4 (fun k => dherm k (local (lo kx) (up kx) num e z) * cc0 x kx e k) * sc)).
  { pose proof (fi_near (lo kx) (up kx) num L Hn (x kx) Hi Hl) as N. revert N. apply filter_imp. intros z (F & G). fold e in G.
    rewrite (dU_1d nelems lo up inv dof Hbox Hel Hinv 0 (upd x kx z) kx Hk) by discriminate. fold num. fold sc. f_equal. unfold dpw. rewrite upd_eq. apply rsum_ext. intros k _.
    rewrite F, G. fold e. rewrite cc_upd by exact Hk. reflexivity. }
  rewrite d2U_1d by exact Hk. unfold loc. fold num. fold e. fold sc.
  destruct (fi_local (lo kx) (up kx) num L Hn (x kx) ltac:(lra)) as (_ & Es & _). fold e in Es. rewrite Es.
  apply (is_derive_scal_l (fun z => rsum 4 (fun k => dherm k (local (lo kx) (up kx) num e z) * cc0 x kx e k)) (x kx) _ sc).
  rewrite <- rsum_scal_r. apply (is_derive_rsum 4 (fun k z => dherm k (local (lo kx) (up kx) num e z) * cc0 x kx e k)). intros k Hk4.
  set (l := local (lo kx) (up kx) num e). set (w := cc0 x kx e k).
  replace (d2herm k (l (x kx)) * w * sc) with ((sc * d2herm k (l (x kx))) * w) by ring.
  apply (is_derive_scal_l (fun z => dherm k (l z)) (x kx) (sc * d2herm k (l (x kx))) w).
  apply (is_derive_comp (dherm k) l); [apply dherm_derive|apply local_derive; assumption].
Qed.
Lemma rmtc_second kx x : (kx < nx)%nat -> strictly_inside kx x ->
  is_partial (rmtc_derivative nelems lo up false inv dof kx) x kx (U (S kx) (S kx) x).
Proof.
  intros Hk Hi. unfold is_partial. apply (is_derive_ext (fun z => U (S kx) 0 (upd x kx z))); [|apply U_derive2c; assumption].
  intros z. rewrite deriv_eq by assumption. unfold gen_deriv. rewrite Rplus_0_r. reflexivity.
Qed.
(** * dof2coeff as a matrix *)
Lemma dof2coeff_lin c : (c < nelem nelems * nterm)%nat -> mv (2 ^ nx * nuniq nelems) (dof2coeff_mat nelems inv) dof c = dof2coeff nelems inv dof c.
Proof.
  intros Hc. assert (T0 : (0 < nterm)%nat) by (destruct nterm; lia).
  assert (Hd : c = (c / nterm * nterm + c mod nterm)%nat) by (rewrite Nat.mul_comm; apply Nat.div_mod; lia).
  set (e := (c / nterm)%nat) in *. set (t := (c mod nterm)%nat) in *.
  assert (Ht : (t < nterm)%nat) by (apply Nat.mod_upper_bound; lia).
  assert (He : (e < nelem nelems)%nat) by (apply Nat.div_lt_upper_bound; lia).
  unfold mv, dof2coeff_mat. rewrite Hd.
  rewrite (rsum_ext _ _ (fun j => rsum nterm (fun t2 => inv t t2 * (if Nat.eqb (uniq_col nelems e t2) j then 1 else 0)) * dof j)) by (intros j _; rewrite dof2coeff_eq by assumption; reflexivity).
  rewrite dof2coeff_eq by assumption.
  rewrite (rsum_ext _ _ (fun j => rsum nterm (fun t2 => inv t t2 * (if Nat.eqb (uniq_col nelems e t2) j then 1 else 0) * dof j))) by (intros j _; rewrite rsum_scal_r; reflexivity).
  rewrite rsum_swap. apply rsum_ext. intros t2 Ht2.
  assert (R : (uniq_col nelems e t2 < 2 ^ nx * nuniq nelems)%nat).
  { apply uniq_range; [apply expand_bounds; exact He|rewrite expand_length; apply nterms_length]. }
  rewrite (rsum_ext _ _ (fun j => if Nat.eqb j (uniq_col nelems e t2) then inv t t2 * dof j else 0)).
  - apply (rsum_single _ (fun j => inv t t2 * dof j)). exact R.
  - intros j _. rewrite Nat.eqb_sym. destruct (Nat.eqb j _); ring.
Qed.
Lemma rmtc_row kx q : (kx < nx)%nat ->
  mv (2 ^ nx * nuniq nelems) (mm (nelem nelems * nterm) (rmtc_energy_row nelems lo up kx) (dof2coeff_mat nelems inv)) dof q =
  U (S kx) (S kx) (quad_point lo up (map (fun m => 2 * m)%nat nelems) q).
Proof.
  intros Hk. rewrite mv_mm. unfold mv at 1.
  rewrite (rsum_ext _ _ (fun j => rmtc_energy_row nelems lo up kx q j * dof2coeff nelems inv dof j)) by (intros j Hj; rewrite dof2coeff_lin by exact Hj; reflexivity).
  unfold rmtc_energy_row. rewrite scatter_dot by (intros t Ht; apply col_range; assumption). reflexivity.
Qed.
Lemma quad_strict kx q : (kx < nx)%nat -> (q < nquad nelems)%nat -> strictly_inside kx (quad_point lo up (map (fun m => 2 * m)%nat nelems) q).
Proof.
  intros Hk Hq. pose proof (Hbox kx Hk) as L. pose proof (Hel kx Hk) as Hn. unfold strictly_inside, quad_point, quad_coord.
  assert (En : nth kx (map (fun m => (2 * m)%nat) nelems) 0%nat = (2 * nth kx nelems 0)%nat) by (rewrite (nth_indep _ 0%nat (2 * 0)%nat) by (rewrite map_length; exact Hk); apply (map_nth (fun m => (2 * m)%nat))).
  rewrite En. set (m := nth kx nelems 0%nat) in *.
  pose proof (expand_bounds (map (fun m => 2 * m)%nat nelems) q Hq) as EX.
  assert (Hi : (nth kx (expand_index (map (fun m => 2 * m)%nat nelems) q) 0 < 2 * m)%nat).
  { assert (G : forall a b : list nat, Forall2 lt a b -> forall k, (k < length b)%nat -> (nth k a 0 < nth k b 0)%nat).
    { clear. intros a b H. induction H as [|x y a b H _ IH]; intros k Hk; [cbn in Hk; lia|]. destruct k; [exact H|]. cbn. apply IH. cbn in Hk. lia. }
    specialize (G _ _ EX kx ltac:(rewrite map_length; exact Hk)). rewrite En in G. exact G. }
  set (i := nth kx (expand_index (map (fun m => (2 * m)%nat) nelems) q) 0%nat) in *. assert (Im : 0 < INR m) by (apply lt_0_INR; exact Hn). assert (I2 : INR (2 * m) = 2 * INR m) by (rewrite mult_INR; reflexivity).
  assert (Li : INR i + 1 <= 2 * INR m) by (rewrite <- I2, <- S_INR; apply le_INR; lia). pose proof (pos_INR i) as Pi. rewrite I2.
  assert (F : (1 + 2 * INR i) / 2 / (2 * INR m) = (1 + 2 * INR i) / (4 * INR m)) by (field; lra). rewrite F.
  assert (F0 : 0 < (1 + 2 * INR i) / (4 * INR m)) by (apply Rdiv_lt_0_compat; lra).
  assert (F1 : (1 + 2 * INR i) / (4 * INR m) < 1) by (apply Rmult_lt_reg_r with (4 * INR m); [lra|]; replace ((1 + 2 * INR i) / (4 * INR m) * (4 * INR m)) with (1 + 2 * INR i) by (field; lra); lra).
  split; [split; nra|]. intros v H.
  assert (K : (1 + 2 * INR i) = 4 * INR v).
  { assert (H1 : (1 + 2 * INR i) / (4 * INR m) * (up kx - lo kx) = (up kx - lo kx) * INR v / INR m) by lra.
    assert (H2 : (1 + 2 * INR i) = (1 + 2 * INR i) / (4 * INR m) * (up kx - lo kx) * (4 * INR m / (up kx - lo kx))) by (field; split; lra). rewrite H1 in H2. rewrite H2. field. split; lra. }
  rewrite !INR_IZR_INZ in K. rewrite <- !mult_IZR, <- plus_IZR in K. apply eq_IZR in K. lia.
Qed.
End C.
