From Coq Require Import FunctionalExtensionality Reals ZArith Arith Bool List Lia Lra.
From Coquelicot Require Import Coquelicot.
From Verif Require Import RSum Mat LineSearch_M Index_M Index_P Rmtb_M Rmtb_S Rmtb_P Rmtb_P2 Rmtb_P3 Rmtb_P4 Rmtc_M RmtsTrain_M RmtsTrain_P RmtsTrain_P2 RmtsTrain_P3 RmtsTrain_P4 RmtsTrain_P5 Energy_P Energy_P2 Energy_P3 Repro_S Repro_P Repro_P2 Repro_P3.
Import ListNotations.
Open Scope list_scope.
Open Scope R_scope.

Lemma mp_ext n H s s' : (forall i, (i < n)%nat -> s i = s' i) -> forall t, mv n H s t = mv n H s' t.
Proof. intros E t. unfold mv. apply rsum_ext. intros j Hj. rewrite E by exact Hj. reflexivity. Qed.
Lemma func_ext n H blocks p yt s s' : (forall i, (i < n)%nat -> s i = s' i) -> opt_func n H blocks p yt s = opt_func n H blocks p yt s'.
Proof.
  intros E. unfold opt_func.
  assert (dot n s (mv n H s) = dot n s' (mv n H s')) as ->.
  { unfold dot. apply rsum_ext. intros i Hi. rewrite E by exact Hi. f_equal. apply mp_ext. exact E. }
  apply Rmtb_P2.fold_left_ext_in. intros a b _. f_equal. f_equal. apply rsum_ext. intros t _. unfold resid. rewrite (mp_ext n _ s s' E). reflexivity.
Qed.
(** quadratic training returns a global minimum *)
Lemma trained_min n H blocks yt solve bf maxiter tol sol mtx : msym n H -> mpd n H -> (forall b, In b blocks -> 0 <= b_c b) ->
  (forall M r, msym n M -> mpd n M -> forall k, (k < n)%nat -> mv n M (solve M r) k = r k) -> (1 <= bf)%nat -> 0 <= tol ->
  rmts_train n H blocks yt solve (backtracking_search n bf) 2 maxiter tol = Trained sol mtx ->
  forall s, opt_func n H blocks 2 yt sol <= opt_func n H blocks 2 yt s.
Proof.
  intros S P C K B T E s.
  assert (L : tol < opt_norm n H blocks 2 yt (fun _ => 0)).
  { destruct (Rlt_dec tol (opt_norm n H blocks 2 yt (fun _ => 0))) as [|N]; [assumption|exfalso].
    assert (rmts_train n H blocks yt solve (backtracking_search n bf) 2 maxiter tol = AttributeError) as A.
    { apply attribute_error_iff. split; [lra|right; lra]. }
    rewrite A in E. discriminate. }
  destruct (quadratic_training_min n H blocks yt solve S P C K bf maxiter tol B T L) as (sol' & mtx' & A & M).
  rewrite A in E. injection E as -> _.
  destruct (nonzero_dec n (fun i => s i - sol i)) as [(i & Hi & N)|Z].
  - left. apply M. exists i. split; [exact Hi|]. lra.
  - right. apply func_ext. intros i Hi. specialize (Z i Hi). lra.
Qed.

(** misfit of a model (values and slopes) to the training data *)
Definition misfit (data : list (nat * nat * (nat -> vec) * R)) (p : nat) (yt : nat -> nat -> R) (model : nat -> vec -> R) : R :=
  lsum (fun '(kx, nt, xt, c) => 1 / 2 * c * rsum nt (fun t => (model kx (xt t) - yt kx t) ^ p)) data.
Definition affine_model (f : pt -> R) (kx : nat) (x : vec) : R := match kx with O => f x | S k => slope f k x end.

Lemma misfit_ext data p yt m m' : (forall kx nt xt c, In (kx, nt, xt, c) data -> forall t, m kx (xt t) = m' kx (xt t)) -> misfit data p yt m = misfit data p yt m'.
Proof.
  intros H. unfold misfit. apply lsum_ext. intros [[[kx nt] xt] c] Hi. f_equal. apply rsum_ext. intros t _. rewrite (H kx nt xt c Hi). reflexivity.
Qed.
Lemma affine_second (g : R -> R) x a b d : locally x (fun z => g z = a + b * z) -> is_derive_n g 2 x d -> d = 0.
Proof.
  intros L D. apply is_derive_n_unique in D. rewrite <- D. apply is_derive_n_unique.
  apply (second_of g (fun _ => b)).
  - apply locally_locally in L. revert L. apply filter_imp. intros z Hz.
    apply (is_derive_ext_loc (fun z => a + b * z)); [revert Hz; apply filter_imp; intros y Hy; symmetry; exact Hy|]. auto_derive; [exact I|ring].
  - apply (is_derive_const b x).
Qed.
Lemma energy_nonneg (ew : R) (me : bool) nq nx (sm : nat -> R) (d2 : nat -> nat -> R) : 0 <= ew -> (forall k, (k < nx)%nat -> 0 <= sm k) ->
  0 <= (if me then 1 / 2 * ew * (rsum nq (fun q => rsum nx (fun k => sm k * d2 k q ^ 2)) / INR nq) else 0).
Proof.
  intros He Hs. destruct me; [|lra]. apply Rmult_le_pos; [lra|].
  assert (0 <= rsum nq (fun q => rsum nx (fun k => sm k * d2 k q ^ 2))) as N.
  { apply rsum_nonneg. intros q _. apply rsum_nonneg. intros k Hk. apply Rmult_le_pos; [apply Hs; exact Hk|]. apply pow2_ge_0. }
  destruct nq as [|nq]; [cbn [rsum]; unfold Rdiv; lra|]. apply Rdiv_le_0_compat; [exact N|]. apply lt_0_INR. lia.
Qed.
Lemma energy_zero (ew : R) (me : bool) nq nx (sm : nat -> R) (d2 : nat -> nat -> R) : (forall k q, (k < nx)%nat -> (q < nq)%nat -> d2 k q = 0) ->
  (if me then 1 / 2 * ew * (rsum nq (fun q => rsum nx (fun k => sm k * d2 k q ^ 2)) / INR nq) else 0) = 0.
Proof.
  intros Z. destruct me; [|reflexivity]. rewrite rsum_zero; [unfold Rdiv; ring|]. intros q Hq. apply rsum_zero. intros k Hk. rewrite Z by assumption. ring.
Qed.

Section B.
Variables (orders ncps : list nat) (lo up : nat -> R) (f : pt -> R).
Hypothesis Hdim : Forall2 (fun o n => (2 <= o <= n)%nat) orders ncps.
Let nx := length orders.
Let nelems := elems orders ncps.
Hypothesis Hbox : forall k, (k < nx)%nat -> lo k < up k.
Hypothesis Hsz : forall k, (k < nx)%nat -> INR (nth k nelems 0%nat) <= 10 ^ 14.
Hypothesis Hf : multi_affine nx f.
Variables (rw ew : R) (me : bool) (sm : nat -> R) (p : nat) (data : list (nat * nat * (nat -> vec) * R)) (yt : nat -> nat -> R).
Hypothesis Hew : 0 <= ew.
Hypothesis Hsm : forall k, (k < nx)%nat -> 0 <= sm k.
Hypothesis Hkx : forall kx nt xt c, In (kx, nt, xt, c) data -> (kx <= nx)%nat.
Let n := prodl ncps.
Let H := full_hess rw ew me (energy_hess nx (nquad nelems) (rmtb_energy_row orders ncps nelems lo up) (wide lo up) sm (vol_fraction nelems (wide lo up))).
Let blocks := map (fun '(kx, nt, xt, c) => mkB kx nt (rmtb_jac orders ncps lo up kx xt) c) data.
Definition rmtb_fit (sol : vec) (kx : nat) (x : vec) : R := match kx with
  | O => rmtb_value orders ncps lo up false (fun z => sol (Z.to_nat z)) x
  | S k => rmtb_derivative orders ncps lo up false (fun z => sol (Z.to_nat z)) k x end.
Let gv := greville_values orders ncps lo up f.
Let d1 := Hdim1 orders ncps Hdim.
Lemma rmtb_affine_energy d2 : (forall k q, (k < nx)%nat -> (q < nquad nelems)%nat ->
    is_derive_n (fun z => rmtb_fit gv 0 (upd (quad_point lo up (map (fun m => 2 * m)%nat nelems) q) k z)) 2 (quad_point lo up (map (fun m => 2 * m)%nat nelems) q k) (d2 k q)) ->
  forall k q, (k < nx)%nat -> (q < nquad nelems)%nat -> d2 k q = 0.
Proof.
  intros D k q Hk Hq. pose proof (D k q Hk Hq) as E. set (x := quad_point lo up (map (fun m => 2 * m)%nat nelems) q) in *.
  pose proof (quad_interior orders ncps lo up k q d1 Hbox Hsz Hk Hq) as (Hi0 & _).
  assert (Hi : eps < (x k - lo k) / (up k - lo k) < 1 - eps) by exact Hi0. clear Hi0.
  apply (fun L => affine_second _ (x k) (f (upd (clamp lo up x) k 0)) (slope f k (clamp lo up x)) (d2 k q) L E).
  apply (nhood (fun z => (z - lo k) / (up k - lo k)) eps (1 - eps)); [apply cont_affine; apply Hbox; exact Hk|exact Hi|].
  intros z Hz. unfold rmtb_fit, gv. rewrite (rmtb_reproduces orders ncps lo up f Hdim Hf).
  destruct Hf as (_ & A). rewrite <- (A k (clamp lo up x) z Hk). apply (f_ext nx f Hf). intros j Hj.
  unfold clamp. destruct (Nat.eq_dec j k) as [-> |N]; [rewrite !upd_eq|rewrite !upd_neq by exact N; reflexivity].
  rewrite to_param_inside by lra. pose proof (Hbox k Hk). field. lra.
Qed.
Lemma rmtb_gv_fit kx x : (kx <= nx)%nat -> rmtb_fit gv kx x = affine_model f kx (clamp lo up x).
Proof.
  intros Hk. unfold rmtb_fit, affine_model, gv. destruct kx; [apply (rmtb_reproduces orders ncps lo up f Hdim Hf)|].
  apply (rmtb_reproduces_slope orders ncps lo up f Hdim Hbox Hf). lia.
Qed.
Theorem rmtb_training_bound sol : (forall s, opt_func n H blocks p yt sol <= opt_func n H blocks p yt s) ->
  1 / 2 * rw * rsum n (fun j => sol j ^ 2) + misfit data p yt (rmtb_fit sol) <=
  1 / 2 * rw * rsum n (fun j => gv j ^ 2) + misfit data p yt (fun kx x => affine_model f kx (clamp lo up x)).
Proof.
  intros M. specialize (M gv).
  destruct (rmtb_objective orders ncps lo up d1 Hbox Hsz rw ew me sm p sol data yt) as (d2 & _ & E1).
  destruct (rmtb_objective orders ncps lo up d1 Hbox Hsz rw ew me sm p gv data yt) as (d2' & D' & E2).
  unfold n, H, blocks, nelems, nx in *. rewrite E1, E2 in M.
  rewrite (energy_zero ew me _ _ sm d2') in M by (apply rmtb_affine_energy; exact D').
  pose proof (energy_nonneg ew me (nquad (elems orders ncps)) (length orders) sm d2 Hew Hsm) as N.
  rewrite (misfit_ext data p yt (fun kx x => affine_model f kx (clamp lo up x)) (rmtb_fit gv)).
  - unfold misfit, rmtb_fit. lra.
  - intros kx nt xt c Hin t. symmetry. apply rmtb_gv_fit. apply (Hkx kx nt xt c Hin).
Qed.
Theorem rmtb_quadratic_bound solve bf maxiter tol sol mtx : p = 2%nat -> 0 < rw -> (forall kx nt xt c, In (kx, nt, xt, c) data -> 0 <= c) ->
  (forall M r, msym n M -> mpd n M -> forall k, (k < n)%nat -> mv n M (solve M r) k = r k) -> (1 <= bf)%nat -> 0 <= tol ->
  rmts_train n H blocks yt solve (backtracking_search n bf) p maxiter tol = Trained sol mtx ->
  1 / 2 * rw * rsum n (fun j => sol j ^ 2) + misfit data p yt (rmtb_fit sol) <=
  1 / 2 * rw * rsum n (fun j => gv j ^ 2) + misfit data p yt (fun kx x => affine_model f kx (clamp lo up x)).
Proof.
  intros P2 Hr Hc K B T E. apply rmtb_training_bound. rewrite P2 in *.
  assert (Ll : length nelems = nx) by (apply elems_length; apply (F2_length _ _ _ d1)).
  apply (trained_min n H blocks yt solve bf maxiter tol sol mtx).
  - apply full_hess_sym. apply energy_sym.
  - apply full_hess_pd; [exact Hr|exact Hew|]. apply energy_psd; [| exact Hsm |].
    + intros k Hk. unfold wide. pose proof (Hbox k Hk). lra.
    + left. apply vol_fraction_pos; intros k Hk; rewrite Ll in Hk; [unfold wide; pose proof (Hbox k Hk); lra|]. apply elems_pos. fold nelems. rewrite Ll. exact Hk.
  - intros b Hb. unfold blocks in Hb. apply in_map_iff in Hb. destruct Hb as ([[[kx nt] xt] c] & <- & Hin). cbn [b_c]. apply (Hc kx nt xt c Hin).
  - exact K.
  - exact B.
  - exact T.
  - exact E.
Qed.
End B.

Section C.
Variables (nelems : list nat) (lo up : nat -> R) (inv : nat -> nat -> R) (f : pt -> R).
Let nx := length nelems.
Notation nterm := (Rmtc_M.nterm nelems).
Hypothesis Hbox : forall k, (k < nx)%nat -> lo k < up k.
Hypothesis Hel : forall k, (k < nx)%nat -> (0 < nth k nelems 0)%nat.
Hypothesis Hinv : forall i j, (i < nterm)%nat -> (j < nterm)%nat -> rsum nterm (fun k => inv i k * coeff2nodal nelems k j) = if Nat.eqb i j then 1 else 0.
Hypothesis Hf : multi_affine nx f.
Variables (rw ew : R) (me : bool) (sm : nat -> R) (p : nat) (data : list (nat * nat * (nat -> vec) * R)) (yt : nat -> nat -> R).
Hypothesis Hew : 0 <= ew.
Hypothesis Hsm : forall k, (k < nx)%nat -> 0 <= sm k.
Hypothesis Hkx : forall kx nt xt c, In (kx, nt, xt, c) data -> (kx <= nx)%nat.
Let n := (2 ^ nx * nuniq nelems)%nat.
Let H := full_hess rw ew me (energy_hess nx (nquad nelems) (fun k => mm (nelem nelems * nterm) (rmtc_energy_row nelems lo up k) (dof2coeff_mat nelems inv)) (wide lo up) sm (vol_fraction nelems (wide lo up))).
Let blocks := map (fun '(kx, nt, xt, c) => mkB kx nt (rmtc_jac nelems lo up inv kx xt) c) data.
Definition rmtc_fit (sol : vec) (kx : nat) (x : vec) : R := match kx with
  | O => rmtc_value nelems lo up false inv sol x
  | S k => rmtc_derivative nelems lo up false inv sol k x end.
Let gv := vertex_values nelems lo up f.
Lemma rmtc_affine_energy d2 : (forall k q, (k < nx)%nat -> (q < nquad nelems)%nat ->
    is_derive_n (fun z => rmtc_fit gv 0 (upd (quad_point lo up (map (fun m => 2 * m)%nat nelems) q) k z)) 2 (quad_point lo up (map (fun m => 2 * m)%nat nelems) q k) (d2 k q)) ->
  forall k q, (k < nx)%nat -> (q < nquad nelems)%nat -> d2 k q = 0.
Proof.
  intros D k q Hk Hq. pose proof (D k q Hk Hq) as E. set (x := quad_point lo up (map (fun m => 2 * m)%nat nelems) q) in *.
  pose proof (quad_strict nelems lo up Hbox Hel k q Hk Hq) as (Hi & _). fold x in Hi.
  apply (fun L => affine_second _ (x k) (f (upd (clamp_c lo up x) k 0)) (slope f k (clamp_c lo up x)) (d2 k q) L E).
  apply (nhood (fun z => z) (lo k) (up k)); [apply continuous_id|exact Hi|].
  intros z Hz. unfold rmtc_fit, gv. rewrite (rmtc_reproduces nelems lo up inv f Hbox Hel Hinv Hf).
  destruct Hf as (_ & A). rewrite <- (A k (clamp_c lo up x) z Hk). apply (f_ext nx f Hf). intros j Hj.
  unfold clamp_c. destruct (Nat.eq_dec j k) as [-> |N]; [rewrite !upd_eq|rewrite !upd_neq by exact N; reflexivity].
  apply nearest_id. lra.
Qed.
Lemma rmtc_gv_fit kx x : (kx <= nx)%nat -> rmtc_fit gv kx x = affine_model f kx (clamp_c lo up x).
Proof.
  intros Hk. unfold rmtc_fit, affine_model, gv. destruct kx; [apply (rmtc_reproduces nelems lo up inv f Hbox Hel Hinv Hf)|].
  apply (rmtc_reproduces_slope nelems lo up inv f Hbox Hel Hinv Hf). lia.
Qed.
Theorem rmtc_training_bound sol : (forall s, opt_func n H blocks p yt sol <= opt_func n H blocks p yt s) ->
  1 / 2 * rw * rsum n (fun j => sol j ^ 2) + misfit data p yt (rmtc_fit sol) <=
  1 / 2 * rw * rsum n (fun j => gv j ^ 2) + misfit data p yt (fun kx x => affine_model f kx (clamp_c lo up x)).
Proof.
  intros M. specialize (M gv).
  destruct (rmtc_objective nelems lo up inv Hbox Hel Hinv rw ew me sm p sol data yt) as (d2 & _ & E1).
  destruct (rmtc_objective nelems lo up inv Hbox Hel Hinv rw ew me sm p gv data yt) as (d2' & D' & E2).
  unfold n, H, blocks, nx in *. rewrite E1, E2 in M.
  rewrite (energy_zero ew me _ _ sm d2') in M by (apply rmtc_affine_energy; exact D').
  pose proof (energy_nonneg ew me (nquad nelems) (length nelems) sm d2 Hew Hsm) as N.
  rewrite (misfit_ext data p yt (fun kx x => affine_model f kx (clamp_c lo up x)) (rmtc_fit gv)).
  - unfold misfit, rmtc_fit. lra.
  - intros kx nt xt c Hin t. symmetry. apply rmtc_gv_fit. apply (Hkx kx nt xt c Hin).
Qed.
Theorem rmtc_quadratic_bound solve bf maxiter tol sol mtx : p = 2%nat -> 0 < rw -> (forall kx nt xt c, In (kx, nt, xt, c) data -> 0 <= c) ->
  (forall M r, msym n M -> mpd n M -> forall k, (k < n)%nat -> mv n M (solve M r) k = r k) -> (1 <= bf)%nat -> 0 <= tol ->
  rmts_train n H blocks yt solve (backtracking_search n bf) p maxiter tol = Trained sol mtx ->
  1 / 2 * rw * rsum n (fun j => sol j ^ 2) + misfit data p yt (rmtc_fit sol) <=
  1 / 2 * rw * rsum n (fun j => gv j ^ 2) + misfit data p yt (fun kx x => affine_model f kx (clamp_c lo up x)).
Proof.
  intros P2 Hr Hc K B T E. apply rmtc_training_bound. rewrite P2 in *.
  apply (trained_min n H blocks yt solve bf maxiter tol sol mtx).
  - apply full_hess_sym. apply energy_sym.
  - apply full_hess_pd; [exact Hr|exact Hew|]. apply energy_psd; [| exact Hsm |].
    + intros k Hk. unfold wide. pose proof (Hbox k Hk). lra.
    + left. apply vol_fraction_pos; intros k Hk; [unfold wide; pose proof (Hbox k Hk); lra|]. apply Hel. exact Hk.
  - intros b Hb. unfold blocks in Hb. apply in_map_iff in Hb. destruct Hb as ([[[kx nt] xt] c] & <- & Hin). cbn [b_c]. apply (Hc kx nt xt c Hin).
  - exact K.
  - exact B.
  - exact T.
  - exact E.
Qed.
End C.
