(** C105: the variance at inputs of the second level that the first does not have, and repeated inputs. *)
From Coq Require Import Reals Arith Bool List Lia Lra.
From Coquelicot Require Import Coquelicot.
From Verif Require Import RSum Mat Psd Psd2 Tri_M Tri_P Kernels_M Kernels_P Kernels_P2 Kernels_P3 Krg_M Krg_S Krg_P Krg_P2 Krg_P3 Krg_P8 Krg_Qr Mfk_M Mfk_S Mfk_P Mfk_P2 Mfk_P3 Mfk_P4 Mfk_P6 Rmtc_S.
Import ListNotations.
Open Scope list_scope.
Open Scope R_scope.

(** the mean squared error is positive away from the data *)
Lemma mse_strict c theta nx nt Z nugget noise x w : c <> ActExp -> (forall j, (j < nx)%nat -> 0 < theta j) ->
  (forall i j, (i < nt)%nat -> (j < nt)%nat -> i <> j -> ~ (forall k, (k < nx)%nat -> Z i k = Z j k)) ->
  (forall i, (i < nt)%nat -> ~ (forall k, (k < nx)%nat -> Z i k = x k)) -> (forall i, (i < nt)%nat -> 0 <= nugget + noise i) ->
  0 < mse nt (corr_matrix (KStd c theta) nx nt Z nugget noise) (gr nx (KStd c theta) Z x) w.
Proof.
  intros N T D Dx Nn. unfold mse. rewrite corr_matrix_form. set (s := KStd c theta).
  assert (P : 0 < rsum (S nt) (fun i => rsum (S nt) (fun j => (if Nat.ltb i nt then w i else -1) * (if Nat.ltb j nt then w j else -1) * kf s nx ((fun a => if Nat.ltb a nt then Z a else x) i) ((fun a => if Nat.ltb a nt then Z a else x) j)))).
  { apply (corr_pd_form c nx 0 theta (S nt) (fun a => if Nat.ltb a nt then Z a else x)).
    - intros _. exact T.
    - intros _ i j Hi Hj Nij. destruct (Nat.ltb_spec i nt) as [Li|Li]; destruct (Nat.ltb_spec j nt) as [Lj|Lj].
      + apply D; assumption.
      + apply Dx. exact Li.
      + intros Q. apply (Dx j Lj). intros k Hk. symmetry. apply Q. exact Hk.
      + lia.
    - intros Q. contradiction.
    - exists nt. split; [lia|]. rewrite Nat.ltb_irrefl. lra. }
  cbn [rsum] in P. rewrite Nat.ltb_irrefl in P. assert (L : forall a, (a < nt)%nat -> Nat.ltb a nt = true) by (intros; apply Nat.ltb_lt; assumption).
  rewrite (rsum_ext nt (fun j => -1 * (if Nat.ltb j nt then w j else -1) * kf s nx x (if Nat.ltb j nt then Z j else x)) (fun j => - (w j * gr nx s Z x j))) in P by (intros j Hj; rewrite L by exact Hj; unfold gr; ring).
  rewrite (rsum_ext nt (fun i => rsum nt _ + _) (fun i => rsum nt (fun j => w i * w j * kf s nx (Z i) (Z j)) - w i * gr nx s Z x i)) in P.
  2:{ intros i Hi. rewrite !L by exact Hi. rewrite (rsum_ext nt _ (fun j => w i * w j * kf s nx (Z i) (Z j))) by (intros j Hj; rewrite L by exact Hj; reflexivity). unfold gr. rewrite (kf_sym s nx x). ring. }
  rewrite rsum_minus, rsum_opp, kf_diag in P. fold (dot nt w (gr nx s Z x)) in P.
  assert (0 <= rsum nt (fun i => (nugget + noise i) * w i ^ 2)). { apply rsum_nonneg. intros i Hi. apply Rmult_le_pos; [apply Nn; exact Hi|apply pow2_ge_0]. }
  lra.
Qed.
Lemma inv_form_pos A B n v : mpd n A -> is_inverse n A B -> (exists i, (i < n)%nat /\ v i <> 0) -> 0 < rsum n (fun b => rsum n (fun a => v a * B a b) * v b).
Proof.
  intros PD I (i0 & Hi0 & Nz). set (z := mv n B v).
  assert (Ez : forall i, (i < n)%nat -> mv n A z i = v i).
  { intros i Hi. unfold z. rewrite <- mv_mm. rewrite (mv_ext n (mm n A B) idm v v i); [apply mv_id; exact Hi| |reflexivity]. intros j Hj. unfold mm, idm. apply (I i j Hi Hj). }
  assert (E : rsum n (fun b => rsum n (fun a => v a * B a b) * v b) = dot n z (mv n A z)).
  { transitivity (dot n v z).
    - unfold dot, z, mv. rewrite (rsum_ext n _ (fun b => rsum n (fun a => v a * B a b * v b))) by (intros; rewrite rsum_scal_r; reflexivity). rewrite rsum_swap. apply rsum_ext. intros a Ha. rewrite <- rsum_scal_l. apply rsum_ext. intros. ring.
    - rewrite (dot_ext n z (mv n A z) z v) by (first [reflexivity|exact Ez]). apply dot_sym. }
  rewrite E. apply PD. destruct (nonzero_dec n z) as [W|W]; [exact W|]. exfalso. apply Nz. rewrite <- (Ez i0 Hi0). apply mv_zero. exact W.
Qed.

Section T.
Variables (nx : nat) (po rho : poly) (qr : nat -> nat -> mat -> mat * mat) (rcond : nat -> mat -> R) (condF : nat -> nat -> mat -> R) (nugget : R) (all : list data) (lvls : list level).
Hypotheses (HQ : qr_contract qr) (HR : rcond_contract rcond) (E : mfk_train nx po rho qr rcond condF nugget all = Some lvls).
Notation get := (get nx po rho qr rcond condF nugget all lvls HQ HR E).
Lemma sr_pos done d lv inv x : inv_contract inv -> lvl_ok nx po rho nugget all done d lv -> done <> [] -> p_sigma2 (l_par lv) <> 0 -> 0 < sigma2_rho nx po rho inv (y_scale all) lv x.
Proof.
  intros HI K Nd S2. rewrite (sr_eq nx po rho nugget all done d lv K inv). apply Rplus_le_lt_0_compat; [apply pow2_ge_0|]. apply Rmult_lt_0_compat.
  - pose proof (ls2_nonneg nx po rho nugget all done d lv K) as P. destruct P as [P|P]; [exact P|]. exfalso. apply S2. rewrite <- (ls2_eq all lv), <- P. ring.
  - rewrite (sub_form (lq nx rho done + np nx po) (lq nx rho done)) by lia.
    apply (inv_form_pos (mm (lq nx rho done + np nx po) (tr (p_G (l_par lv))) (p_G (l_par lv)))); [apply (GG_pd nx po rho nugget all done d lv K)|apply (M_inv nx po rho nugget all done d lv K inv HI)|].
    exists 0%nat. assert (Q : (0 < lq nx rho done)%nat) by (destruct done; [congruence|]; cbn [lq]; unfold nq; apply n_regr_pos). split; [lia|]. cbv beta. destruct (Nat.ltb_spec 0 (lq nx rho done)); [|lia]. rewrite fvec_0. lra.
Qed.
Lemma sigma2_unique d k lv s2 : nth_error all k = Some d -> nth_error lvls k = Some lv -> lvl_ok nx po rho nugget all (firstn k lvls) d lv -> lv_sigma2 nx po rho nugget all lvls k d s2 -> s2 = p_sigma2 (l_par lv).
Proof.
  intros Hd Hl K (b & v & [G1 G2] & ->). pose proof (sigma2_k nx po rho qr rcond condF nugget all lvls E k d lv Hd Hl K) as (b' & v' & [G1' G2'] & ->).
  assert (v = v') as -> by (apply Rle_antisym; [apply (G2 b' v' G1')|apply (G2' b v G1)]). reflexivity.
Qed.
(** away from the inputs of the first level the second level's variance is positive, its own inputs included *)
Lemma hf_positive inv pls d0 d1 s0 s1 c theta x : inv_contract inv -> nth_error all 0 = Some d0 -> nth_error all 1 = Some d1 ->
  d_k d0 = KStd c theta -> c <> ActExp -> (forall j, (j < nx)%nat -> 0 < theta j) -> k_ok (d_k d1) nx ->
  (forall d i, In d all -> (i < d_nt d)%nat -> 0 <= nugget + d_noise d i) ->
  (forall i j, (i < d_nt d0)%nat -> (j < d_nt d0)%nat -> i <> j -> ~ (forall k, (k < nx)%nat -> d_X d0 i k = d_X d0 j k)) ->
  (forall i, (i < d_nt d0)%nat -> ~ (forall k, (k < nx)%nat -> d_X d0 i k = x k)) ->
  lv_sigma2 nx po rho nugget all lvls 0 d0 s0 -> s0 <> 0 -> lv_sigma2 nx po rho nugget all lvls 1 d1 s1 -> s1 <> 0 ->
  0 < nth 1 (mfk_variances nx po rho inv pls all lvls x) 0.
Proof.
  intros HI H0 H1 Ek Nc Tp K1 Nn Di Dx S0 N0 S1 N1.
  destruct (get 0 d0 H0) as (lv0 & L0 & O0). destruct (get 1 d1 H1) as (lv1 & L1 & O1).
  rewrite (sigma2_unique d0 0 lv0 s0 H0 L0 O0 S0) in N0. rewrite (sigma2_unique d1 1 lv1 s1 H1 L1 O1 S1) in N1.
  rewrite (vars_nth nx po rho all lvls inv pls). apply Rmult_lt_0_compat; [|apply pow2_gt_0, ys_nz].
  rewrite (ms_S nx po rho qr rcond condF nugget all lvls E inv pls 0 lv1 (stdx all x) lv0 L0 L1). rewrite (ms_0 nx po rho qr rcond condF nugget all lvls E inv pls lv0 (stdx all x) L0). cbn [Nat.eqb].
  set (mu := level_mean nx po rho None lv0 (stdx all x)). set (v := first_mse nx po (y_scale all) lv0 (stdx all x)).
  assert (V : 0 < v).
  { unfold v. rewrite (first_eq nx po rho nugget all [] d0 lv0 O0) by reflexivity. apply Rmult_lt_0_compat.
    - pose proof (ls2_nonneg nx po rho nugget all [] d0 lv0 O0) as P. destruct P as [P|P]; [exact P|]. exfalso. apply N0. rewrite <- (ls2_eq all lv0), <- P. ring.
    - rewrite Ek. apply (mse_strict c theta); try assumption.
      + apply (std_distinct nx all (d_X d0) (d_nt d0) Di).
      + intros i Hi Q. apply (Dx i Hi). intros k Hk. specialize (Q k Hk). unfold stdx in Q. assert (Sc : x_scale all k <> 0) by apply scale1_nz.
        apply (Rmult_eq_compat_r (x_scale all k)) in Q. unfold Rdiv in Q. rewrite !Rmult_assoc, Rinv_l, !Rmult_1_r in Q by exact Sc. lra.
      + intros i Hi. apply Nn; [apply (nth_error_In _ _ H0)|exact Hi]. }
  assert (Sp : next_mse nx po rho inv pls (y_scale all) mu v lv1 (stdx all x) = sigma2_rho nx po rho inv (y_scale all) lv1 (stdx all x) * v + next_mse nx po rho inv pls (y_scale all) mu 0 lv1 (stdx all x)) by (unfold next_mse; cbv zeta; destruct pls; ring).
  rewrite Sp. apply Rplus_lt_le_0_compat.
  - apply Rmult_lt_0_compat; [|exact V]. apply (sr_pos (firstn 1 lvls) d1); try assumption. destruct lvls; [discriminate L0|discriminate].
  - apply (next_nonneg nx po rho nugget all (firstn 1 lvls) d1 lv1 O1 inv HI K1); [|lra]. intros i Hi. apply Nn; [apply (nth_error_In _ _ H1)|exact Hi].
Qed.
(** a level with a repeated input and neither nugget nor noise there cannot be trained *)
Lemma repeated_fails k d i j : nth_error all k = Some d -> (i < d_nt d)%nat -> (j < d_nt d)%nat -> i <> j -> (forall c, (c < nx)%nat -> d_X d i c = d_X d j c) ->
  nugget + d_noise d i = 0 -> nugget + d_noise d j = 0 -> False.
Proof.
  intros Hd Hi Hj Nij Q Zi Zj. destruct (get k d Hd) as (lv & _ & O). pose proof (fo_C _ _ _ _ _ _ (lk_fit _ _ _ _ _ _ _ _ O)) as FC. pose proof (chol_pd _ _ _ (corr_matrix_sym _ _ _ _ _ _) FC) as PD. set (Rm := corr_matrix _ _ _ _ _ _) in *.
  set (w := fun a : nat => if Nat.eqb a i then 1 else if Nat.eqb a j then -1 else 0).
  assert (W : exists a, (a < d_nt d)%nat /\ w a <> 0) by (exists i; split; [exact Hi|]; unfold w; rewrite Nat.eqb_refl; lra).
  specialize (PD w W). unfold Rm in PD. rewrite corr_matrix_form in PD.
  assert (Sx : forall c, (c < nx)%nat -> stdx all (d_X d i) c = stdx all (d_X d j) c) by (intros c Hc; unfold stdx; rewrite (Q c Hc); reflexivity).
  assert (A : forall f : nat -> R, rsum (d_nt d) (fun a => w a * f a) = f i - f j).
  { intros f. rewrite (rsum_ext _ _ (fun a => (if Nat.eqb a i then f a else 0) - (if Nat.eqb a j then f a else 0))).
    - rewrite rsum_minus, (rsum_single (d_nt d) f i Hi), (rsum_single (d_nt d) f j Hj). reflexivity.
    - intros a _. unfold w. destruct (Nat.eqb_spec a i) as [-> | Na]; [destruct (Nat.eqb_spec i j); [contradiction|ring]|]. destruct (Nat.eqb a j); ring. }
  rewrite (rsum_ext _ (fun a => rsum (d_nt d) _) (fun a => w a * (kf (d_k d) nx (stdx all (d_X d a)) (stdx all (d_X d i)) - kf (d_k d) nx (stdx all (d_X d a)) (stdx all (d_X d j))))) in PD.
  2:{ intros a _. rewrite (rsum_ext _ _ (fun b => w b * (w a * kf (d_k d) nx (stdx all (d_X d a)) (stdx all (d_X d b))))) by (intros; ring). rewrite A. ring. }
  rewrite A in PD.
  assert (Ke : forall z, kf (d_k d) nx z (stdx all (d_X d i)) = kf (d_k d) nx z (stdx all (d_X d j))) by (intros z; apply kd_ext; intros c Hc; rewrite (Sx c Hc); reflexivity).
  rewrite !Ke in PD. rewrite (rsum_ext _ (fun a => (nugget + d_noise d a) * w a ^ 2) (fun a => w a * ((nugget + d_noise d a) * w a))) in PD by (intros; ring). rewrite A, Zi, Zj in PD. lra.
Qed.
End T.
