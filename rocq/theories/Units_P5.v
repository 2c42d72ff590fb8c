(** C112: change of units, RMTS training. *)
From Coq Require Import Reals ZArith Arith Bool List Lia Lra FunctionalExtensionality.
From Verif Require Import RSum Mat Index_M Rmtb_M Rmtc_M RmtsTrain_M RmtsTrain_P RmtsTrain_P2 RmtsMulti_P2 Units_P4.
Import ListNotations.
Open Scope list_scope.
Open Scope R_scope.

Lemma div1 (J : mat) : (fun t j : nat => J t j / 1) = J.
Proof. apply functional_extensionality. intros t. apply functional_extensionality. intros j. field. Qed.
Lemma energy_sm nx nq D w sm sm' v : (forall k, (k < nx)%nat -> sm k = sm' k) -> energy_hess nx nq D w sm v = energy_hess nx nq D w sm' v.
Proof. intros E. apply functional_extensionality. intros i. apply functional_extensionality. intros j. unfold energy_hess. apply rsum_ext. intros k Hk. rewrite E by exact Hk. reflexivity. Qed.
Lemma energy_sm_scale nx nq D w sm v a : energy_hess nx nq D w (fun k => sm k / a) v = fun i j => energy_hess nx nq D w sm v i j / a.
Proof. apply functional_extensionality. intros i. apply functional_extensionality. intros j. unfold energy_hess. unfold Rdiv at 3. rewrite <- rsum_scal_r. apply rsum_ext. intros k Hk. unfold Rdiv. ring. Qed.

Section Train.
Variables (nelems : list nat) (A B lo up sm : nat -> R).
Hypothesis HA : forall k, (k < length nelems)%nat -> 0 < A k.
Hypothesis Hb : forall k, (k < length nelems)%nat -> lo k < up k.
Hypothesis He : forall k, (k < length nelems)%nat -> (0 < nth k nelems 0)%nat.
Let mp (v : nat -> R) : nat -> R := fun k => A k * v k + B k.
Lemma sm_back : forall k, (k < length nelems)%nat -> A k ^ 4 * sm k / A k ^ 4 = sm k.
Proof. intros k Hk. pose proof (HA k Hk). field. lra. Qed.
Lemma rmtb_train_units orders ncps rw ew me c nt xt yt solve search p maxiter tol n : length orders = length nelems ->
  rmts_train n (full_hess rw ew me (energy_hess (length nelems) (nquad nelems) (rmtb_energy_row orders ncps nelems (mp lo) (mp up)) (fun k => mp up k - mp lo k)
       (fun k => A k ^ 4 * sm k) (vol_fraction nelems (fun k => mp up k - mp lo k))))
    [mkB 0 nt (rmtb_jac orders ncps (mp lo) (mp up) 0 (fun t => mp (xt t))) c] yt solve search p maxiter tol =
  rmts_train n (full_hess rw ew me (energy_hess (length nelems) (nquad nelems) (rmtb_energy_row orders ncps nelems lo up) (fun k => up k - lo k)
       sm (vol_fraction nelems (fun k => up k - lo k))))
    [mkB 0 nt (rmtb_jac orders ncps lo up 0 xt) c] yt solve search p maxiter tol.
Proof.
  intros L. unfold mp. rewrite (rmtb_energy_units nelems A B lo up HA Hb orders ncps _ L), (rmtb_jac_units orders ncps A B lo up); [|rewrite L; exact HA|rewrite L; exact Hb|lia].
  cbn [unit_of]. rewrite div1. rewrite (energy_sm _ _ _ _ _ sm _ sm_back). reflexivity.
Qed.
Lemma rmtc_train_units inv rw ew me c nt xt yt solve search p maxiter tol n :
  rmts_train n (full_hess rw ew me (energy_hess (length nelems) (nquad nelems) (fun k => mm (nelem nelems * nterm nelems) (rmtc_energy_row nelems (mp lo) (mp up) k) (dof2coeff_mat nelems inv)) (fun k => mp up k - mp lo k)
       (fun k => A k ^ 4 * sm k) (vol_fraction nelems (fun k => mp up k - mp lo k))))
    [mkB 0 nt (rmtc_jac nelems (mp lo) (mp up) inv 0 (fun t => mp (xt t))) c] yt solve search p maxiter tol =
  rmts_train n (full_hess rw ew me (energy_hess (length nelems) (nquad nelems) (fun k => mm (nelem nelems * nterm nelems) (rmtc_energy_row nelems lo up k) (dof2coeff_mat nelems inv)) (fun k => up k - lo k)
       sm (vol_fraction nelems (fun k => up k - lo k))))
    [mkB 0 nt (rmtc_jac nelems lo up inv 0 xt) c] yt solve search p maxiter tol.
Proof.
  unfold mp. rewrite (rmtc_energy_units nelems A B lo up HA Hb He), (rmtc_jac_units nelems A B lo up HA Hb He); [|lia].
  cbn [unit_of]. rewrite div1. rewrite (energy_sm _ _ _ _ _ sm _ sm_back). reflexivity.
Qed.
Lemma resid_units_b orders ncps n yt c nt xt kx sol t : length orders = length nelems -> (kx <= length nelems)%nat ->
  resid n (fun k i => yt k i / unit_of A k) (mkB kx nt (rmtb_jac orders ncps (mp lo) (mp up) kx (fun t => mp (xt t))) c) sol t =
  resid n yt (mkB kx nt (rmtb_jac orders ncps lo up kx xt) c) sol t / unit_of A kx.
Proof.
  intros L Hk. unfold resid. cbn [b_J b_kx]. unfold mp. rewrite (rmtb_jac_units orders ncps A B lo up); [|rewrite L; exact HA|rewrite L; exact Hb|lia].
  unfold mv. rewrite (rsum_ext n _ (fun j => rmtb_jac orders ncps lo up kx xt t j * sol j * / unit_of A kx)) by (intros; unfold Rdiv; ring). rewrite rsum_scal_r. unfold Rdiv. ring.
Qed.
Lemma resid_units_c inv n yt c nt xt kx sol t : (kx <= length nelems)%nat ->
  resid n (fun k i => yt k i / unit_of A k) (mkB kx nt (rmtc_jac nelems (mp lo) (mp up) inv kx (fun t => mp (xt t))) c) sol t =
  resid n yt (mkB kx nt (rmtc_jac nelems lo up inv kx xt) c) sol t / unit_of A kx.
Proof.
  intros Hk. unfold resid. cbn [b_J b_kx]. unfold mp. rewrite (rmtc_jac_units nelems A B lo up HA Hb He); [|lia].
  unfold mv. rewrite (rsum_ext n _ (fun j => rmtc_jac nelems lo up inv kx xt t j * sol j * / unit_of A kx)) by (intros; unfold Rdiv; ring). rewrite rsum_scal_r. unfold Rdiv. ring.
Qed.
End Train.
Lemma energy_uniform orders ncps nelems a (B lo up sm : nat -> R) : length orders = length nelems -> 0 < a -> (forall k, (k < length nelems)%nat -> lo k < up k) ->
  energy_hess (length nelems) (nquad nelems) (rmtb_energy_row orders ncps nelems (fun k => a * lo k + B k) (fun k => a * up k + B k)) (fun k => a * up k + B k - (a * lo k + B k))
       sm (vol_fraction nelems (fun k => a * up k + B k - (a * lo k + B k))) =
  fun i j => energy_hess (length nelems) (nquad nelems) (rmtb_energy_row orders ncps nelems lo up) (fun k => up k - lo k) sm (vol_fraction nelems (fun k => up k - lo k)) i j / a ^ 4.
Proof.
  intros L P Hb. rewrite (rmtb_energy_units nelems (fun _ => a) B lo up (fun _ _ => P) Hb orders ncps sm L). cbn beta. apply energy_sm_scale.
Qed.
Lemma energy_uniform_c nelems inv a (B lo up sm : nat -> R) : 0 < a -> (forall k, (k < length nelems)%nat -> lo k < up k) -> (forall k, (k < length nelems)%nat -> (0 < nth k nelems 0)%nat) ->
  energy_hess (length nelems) (nquad nelems) (fun k => mm (nelem nelems * nterm nelems) (rmtc_energy_row nelems (fun k => a * lo k + B k) (fun k => a * up k + B k) k) (dof2coeff_mat nelems inv)) (fun k => a * up k + B k - (a * lo k + B k))
       sm (vol_fraction nelems (fun k => a * up k + B k - (a * lo k + B k))) =
  fun i j => energy_hess (length nelems) (nquad nelems) (fun k => mm (nelem nelems * nterm nelems) (rmtc_energy_row nelems lo up k) (dof2coeff_mat nelems inv)) (fun k => up k - lo k) sm (vol_fraction nelems (fun k => up k - lo k)) i j / a ^ 4.
Proof.
  intros P Hb He. rewrite (rmtc_energy_units nelems (fun _ => a) B lo up (fun _ _ => P) Hb He (nelem nelems * nterm nelems) (dof2coeff_mat nelems inv) sm). cbn beta. apply energy_sm_scale.
Qed.

(** outputs *)
Lemma rmts_outputs n H blocks yt a sol sol' : msym n H -> mpd n H -> (forall b, In b blocks -> 0 <= b_c b) ->
  (forall k, (k < n)%nat -> opt_grad n H blocks 2 yt sol k = 0) -> (forall k, (k < n)%nat -> opt_grad n H blocks 2 (fun kx t => a * yt kx t) sol' k = 0) ->
  forall k, (k < n)%nat -> sol' k = a * sol k.
Proof.
  intros Sy Pd Hc G G' k Hk.
  assert (Ga : forall k, (k < n)%nat -> opt_grad n H blocks 2 (fun kx t => a * yt kx t) (fun i => a * sol i) k = 0).
  { intros i Hi. specialize (G i Hi). rewrite grad_eq in G. rewrite grad_eq.
    rewrite <- (Rmult_0_r a), <- G, Rmult_plus_distr_l. f_equal.
    - unfold mv. rewrite <- rsum_scal_l. apply rsum_ext. intros. ring.
    - rewrite <- lsum_scal. apply lsum_ext. intros b _. rewrite <- rsum_scal_l. apply rsum_ext. intros t _.
      replace (resid n (fun kx t0 => a * yt kx t0) b (fun i0 => a * sol i0) t) with (a * resid n yt b sol t); [cbn; ring|].
      unfold resid, mv. rewrite Rmult_minus_distr_l. f_equal. rewrite <- rsum_scal_l. apply rsum_ext. intros. ring. }
  destruct (Req_dec (sol' k) (a * sol k)) as [E|N]; [exact E|exfalso].
  pose proof (stationary_min n H blocks 2 (fun kx t => a * yt kx t) Sy Pd (le_n 2) eq_refl Hc _ Ga sol' (ex_intro _ k (conj Hk N))).
  pose proof (stationary_min n H blocks 2 (fun kx t => a * yt kx t) Sy Pd (le_n 2) eq_refl Hc _ G' (fun i => a * sol i) (ex_intro _ k (conj Hk (not_eq_sym N)))). lra.
Qed.
Lemma rmts_order4 : exists (H : mat) blocks (yt : nat -> nat -> R) (sol sol' : vec), msym 1 H /\ mpd 1 H /\ (forall b, In b blocks -> 0 <= b_c b) /\
  (forall k, (k < 1)%nat -> opt_grad 1 H blocks 4 yt sol k = 0) /\ (forall k, (k < 1)%nat -> opt_grad 1 H blocks 4 (fun kx t => 4 * yt kx t) sol' k = 0) /\ sol' 0%nat <> 4 * sol 0%nat.
Proof.
  exists (reg_hess 1), (bl 1), (ob (3 / 4)), (fun _ => 1 / 4), (fun _ => 2).
  split; [|split; [|split; [|split; [|split]]]].
  - apply (full_hess_sym 1 1 0 false (fun _ _ => 0)). intros i j Hi Hj. reflexivity.
  - apply (full_hess_pd 1 1 0 false (fun _ _ => 0)); [lra|lra|]. intros x. unfold dot, mv, rsum. lra.
  - intros b [<-|[]]. cbn. lra.
  - intros k Hk. assert (k = 0%nat) by lia. subst k. rewrite grad_val. cbn. field.
  - intros k Hk. assert (k = 0%nat) by lia. subst k. change (fun kx t : nat => 4 * ob (3 / 4) kx t) with (ob (4 * (3 / 4))). rewrite grad_val. cbn. field.
  - lra.
Qed.
