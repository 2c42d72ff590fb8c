From Coq Require Import Reals ZArith Arith Bool List Lia Lra.
From Coquelicot Require Import Coquelicot.
From Verif Require Import RSum Mat LineSearch_M LineSearch_P Index_M Rmtb_M Rmtc_M RmtsTrain_M RmtsTrain_P.
Import ListNotations.
Open Scope list_scope.
Open Scope R_scope.

(** derivative with respect to the training outputs *)
Definition yt_set (yt : nat -> nat -> R) (kx t : nat) (s : R) : nat -> nat -> R :=
  fun kx' t' => if Nat.eqb kx' kx && Nat.eqb t' t then s else yt kx' t'.
Lemma lsum_key_single (f : block -> R) : forall blocks b, NoDup (map b_kx blocks) -> In b blocks ->
  lsum (fun b' => if Nat.eqb (b_kx b') (b_kx b) then f b' else 0) blocks = f b.
Proof.
  induction blocks as [|a l IH]; intros b N I; [destruct I|]. cbn in *. inversion N as [|? ? Na N']; subst.
  destruct I as [->|I].
  - rewrite Nat.eqb_refl. rewrite lsum_zero; [ring|]. intros c Hc. destruct (Nat.eqb_spec (b_kx c) (b_kx b)) as [E|]; [|reflexivity].
    exfalso. apply Na. rewrite <- E. apply in_map. exact Hc.
  - rewrite IH by assumption. destruct (Nat.eqb_spec (b_kx a) (b_kx b)) as [E|]; [|ring]. exfalso. apply Na. rewrite E. apply in_map. exact I.
Qed.
Lemma dgrad_dyt_correct n H blocks p yt sol b k t : (2 <= p)%nat -> NoDup (map b_kx blocks) -> In b blocks -> (t < b_nt b)%nat ->
  is_derive (fun s => opt_grad n H blocks p (yt_set yt (b_kx b) t s) sol k) (yt (b_kx b) t) (opt_dgrad_dyt n p yt sol b k t).
Proof.
  intros Hp N I Ht.
  apply (is_derive_ext (fun s => mv n H sol k + lsum (fun b' => rsum (b_nt b') (fun r => 1 / 2 * b_c b' * b_J b' r k * INR p * resid n (yt_set yt (b_kx b) t s) b' sol r ^ (p - 1))) blocks)); [intros s; symmetry; apply grad_eq|].
  replace (opt_dgrad_dyt n p yt sol b k t) with (plus 0 (lsum (fun b' => if Nat.eqb (b_kx b') (b_kx b) then opt_dgrad_dyt n p yt sol b' k t else 0) blocks))
    by (rewrite lsum_key_single by assumption; cbn; apply Rplus_0_l).
  apply (is_derive_plus (fun _ => mv n H sol k)); [apply (is_derive_const (mv n H sol k))|].
  apply (is_derive_lsum (fun b' s => rsum (b_nt b') (fun r => 1 / 2 * b_c b' * b_J b' r k * INR p * resid n (yt_set yt (b_kx b) t s) b' sol r ^ (p - 1)))).
  intros b' I'. destruct (Nat.eqb_spec (b_kx b') (b_kx b)) as [E|E].
  - assert (b' = b).
    { clear - N I I' E. induction blocks as [|a l IH]; [destruct I|]. cbn in *. inversion N as [|? ? Na N']; subst.
      destruct I as [->|I], I' as [->|I']; [reflexivity|exfalso; apply Na; rewrite <- E; apply in_map; exact I'|exfalso; apply Na; rewrite E; apply in_map; exact I|apply IH; assumption]. }
    subst b'.
    assert (S1 : opt_dgrad_dyt n p yt sol b k t = rsum (b_nt b) (fun r => if Nat.eqb r t then opt_dgrad_dyt n p yt sol b k r else 0)) by (rewrite rsum_single by exact Ht; reflexivity).
    rewrite S1. apply (is_derive_rsum (b_nt b) (fun r s => 1 / 2 * b_c b * b_J b r k * INR p * resid n (yt_set yt (b_kx b) t s) b sol r ^ (p - 1))).
    intros r Hr. unfold resid, yt_set. rewrite Nat.eqb_refl. cbn [andb]. destruct (Nat.eqb_spec r t) as [->|Nr].
    + unfold opt_dgrad_dyt, resid, tr. set (m := mv n (b_J b) sol t). set (y := yt (b_kx b) t).
      replace (- (1 / 2 * b_c b * b_J b t k * (INR p * (INR p - 1) * (m - y) ^ (p - 2))))
        with (1 / 2 * b_c b * b_J b t k * INR p * (INR (p - 1) * -1 * (m - y) ^ pred (p - 1))) by (replace (pred (p - 1)) with (p - 2)%nat by lia; rewrite minus_INR by lia; cbn [INR]; ring).
      apply (is_derive_scal (fun s => (m - s) ^ (p - 1))). apply (is_derive_pow (fun s : R => m - s) (p - 1) y (-1)). auto_derive; [trivial|ring].
    + apply (is_derive_const (1 / 2 * b_c b * b_J b r k * INR p * (mv n (b_J b) sol r - yt (b_kx b) r) ^ (p - 1))).
  - apply (is_derive_ext (fun _ => rsum (b_nt b') (fun r => 1 / 2 * b_c b' * b_J b' r k * INR p * resid n yt b' sol r ^ (p - 1)))).
    + intros s. unfold resid, yt_set. destruct (Nat.eqb_spec (b_kx b') (b_kx b)); [contradiction|reflexivity].
    + apply (is_derive_const (rsum (b_nt b') (fun r => 1 / 2 * b_c b' * b_J b' r k * INR p * resid n yt b' sol r ^ (p - 1)))).
Qed.

(** the assembled matrix *)
Lemma reg_mv n w x i : (i < n)%nat -> mv n (reg_hess w) x i = w * x i.
Proof.
  intros Hi. rewrite <- (mv_id n x i Hi), <- mv_mat_scal. apply mv_ext; [|reflexivity]. intros j Hj. unfold reg_hess, idm. ring.
Qed.
Lemma energy_form n nx nq D width sm vf x : (forall k, (k < nx)%nat -> width k <> 0) ->
  dot n x (mv n (energy_hess nx nq D width sm vf) x) = rsum nx (fun k => vf * sm k * dot nq (mv n (D k) x) (mv n (D k) x)).
Proof.
  intros Hw.
  rewrite (dot_ext n x _ x (fun i => rsum nx (fun k => (vf * sm k) * mv n (mm nq (tr (D k)) (D k)) x i))); [|reflexivity|].
  - rewrite (dot_rsum_r n nx x (fun k i => (vf * sm k) * mv n (mm nq (tr (D k)) (D k)) x i)). apply rsum_ext. intros k Hk.
    rewrite dot_scal_r, gram_form. reflexivity.
  - intros i Hi. unfold mv at 1, energy_hess, sq_mtx.
    rewrite (rsum_ext n _ (fun j => rsum nx (fun k => (vf * sm k) * (mm nq (tr (D k)) (D k) i j * x j)))).
    + rewrite rsum_swap. apply rsum_ext. intros k Hk. rewrite rsum_scal_l. reflexivity.
    + intros j Hj. rewrite <- rsum_scal_r. apply rsum_ext. intros k Hk. field. apply Hw. exact Hk.
Qed.
Lemma energy_sym n nx nq D width sm vf : msym n (energy_hess nx nq D width sm vf).
Proof.
  intros i j Hi Hj. unfold energy_hess, sq_mtx. apply rsum_ext. intros k Hk. f_equal. f_equal. unfold mm, tr. apply rsum_ext. intros. ring.
Qed.
Lemma full_hess_sym n rw ew me E : msym n E -> msym n (full_hess rw ew me E).
Proof.
  intros S i j Hi Hj. assert (R0 : reg_hess rw i j = reg_hess rw j i) by (unfold reg_hess; rewrite Nat.eqb_sym; reflexivity).
  unfold full_hess. destruct me; [|exact R0]. rewrite R0, (S i j Hi Hj). reflexivity.
Qed.
Lemma full_hess_pd n rw ew me E : 0 < rw -> 0 <= ew -> mpsd n E -> mpd n (full_hess rw ew me E).
Proof.
  intros Hr He P x (i & Hi & Nx).
  assert (Q : 0 < dot n x (mv n (reg_hess rw) x)).
  { rewrite (dot_ext n x _ x (fun i => rw * x i)); [|reflexivity|intros; apply reg_mv; assumption]. rewrite dot_scal_r.
    apply Rmult_lt_0_compat; [exact Hr|apply (dot_self_pos n x i); assumption]. }
  unfold full_hess. destruct me; [|exact Q].
  rewrite (dot_ext n x _ x (fun i => mv n (reg_hess rw) x i + ew * mv n E x i)); [|reflexivity|].
  - rewrite dot_plus_r, dot_scal_r. apply Rplus_lt_le_0_compat; [exact Q|apply Rmult_le_pos; [exact He|apply P]].
  - intros j Hj. rewrite mv_mat_plus. f_equal. rewrite <- mv_mat_scal. apply mv_ext; [intros; ring|reflexivity].
Qed.
Lemma energy_psd n nx nq D width sm vf : (forall k, (k < nx)%nat -> width k <> 0) -> (forall k, (k < nx)%nat -> 0 <= sm k) -> 0 <= vf ->
  mpsd n (energy_hess nx nq D width sm vf).
Proof.
  intros Hw Hs Hv x. rewrite energy_form by exact Hw. apply rsum_nonneg. intros k Hk. apply Rmult_le_pos; [apply Rmult_le_pos; auto|apply dot_self_nonneg].
Qed.
Lemma vol_fraction_pos nelems width : (forall k, (k < length nelems)%nat -> 0 < width k) -> (forall k, (k < length nelems)%nat -> (0 < nth k nelems 0)%nat) ->
  0 < vol_fraction nelems width.
Proof.
  intros Hw Hn. unfold vol_fraction. apply Rdiv_lt_0_compat; apply rprod_pos; intros k Hk; [|apply Hw; exact Hk].
  apply Rdiv_lt_0_compat; [apply Hw; exact Hk|]. apply lt_0_INR. specialize (Hn k Hk). lia.
Qed.

(** tangent inequality of even powers *)
Lemma even_tangent_unit m x : 0 <= x ^ (2 * S m) - INR (2 * S m) * x + (INR (2 * S m) - 1).
Proof.
  induction m as [|m IH].
  - cbn. pose proof (Rle_0_sqr (x - 1)) as Q. unfold Rsqr in Q. lra.
  - replace (2 * S (S m))%nat with (S (S (2 * S m))) by lia. rewrite !S_INR. set (k := INR (2 * S m)) in *.
    assert (K : 2 <= k). { unfold k. replace 2 with (INR 2) by reflexivity. apply le_INR. lia. }
    cbn [pow]. set (q := x ^ (2 * S m)) in *. destruct (Rle_lt_dec 0 x) as [P|P].
    + assert (0 <= x * x * (q - k * x + (k - 1))) by (apply Rmult_le_pos; [apply Rle_0_sqr|exact IH]).
      assert (0 <= (x - 1) * (x - 1) * (k * x + k + 1)) by (apply Rmult_le_pos; [apply Rle_0_sqr|nra]).
      nra.
    + assert (0 <= q) by (unfold q; apply pow_even_nonneg; rewrite Nat.even_mul; reflexivity).
      assert (0 <= x * x * q) by (apply Rmult_le_pos; [apply Rle_0_sqr|assumption]). nra.
Qed.
Lemma even_tangent p a b : (2 <= p)%nat -> Nat.even p = true -> b ^ p + INR p * b ^ (p - 1) * (a - b) <= a ^ p.
Proof.
  intros Hp E. destruct (Req_dec b 0) as [->|Nb].
  - rewrite (pow_i p) by lia. rewrite (pow_i (p - 1)) by lia. pose proof (pow_even_nonneg a p E). lra.
  - pose proof E as E'. apply Nat.even_spec in E'. destruct E' as (k & Hk). destruct k as [|m]; [lia|].
    pose proof (even_tangent_unit m (a / b)) as T. rewrite <- Hk in T.
    assert (Q : 0 < b ^ p). { pose proof (pow_even_nonneg b p E). pose proof (pow_nonzero b p Nb). lra. }
    assert (D : (a / b) ^ p * b ^ p = a ^ p) by (rewrite <- Rpow_mult_distr; f_equal; field; exact Nb).
    assert (B : b ^ p = b * b ^ (p - 1)) by (replace p with (S (p - 1)) at 1 by lia; reflexivity).
    apply (Rmult_le_compat_r (b ^ p)) in T; [|lra]. rewrite Rmult_0_l in T.
    replace (((a / b) ^ p - INR p * (a / b) + (INR p - 1)) * b ^ p) with ((a / b) ^ p * b ^ p - INR p * (a / b * b) * b ^ (p - 1) + (INR p - 1) * b ^ p) in T by (rewrite B; ring).
    rewrite D in T. replace (a / b * b) with a in T by (field; exact Nb). rewrite B in *. nra.
Qed.
Section Min.
Variables (n : nat) (H : mat) (blocks : list block) (p : nat) (yt : nat -> nat -> R).
Hypothesis Hsym : msym n H. Hypothesis Hpd : mpd n H. Hypothesis Hp : (2 <= p)%nat. Hypothesis He : Nat.even p = true.
Hypothesis Hc : forall b, In b blocks -> 0 <= b_c b.
Notation F := (opt_func n H blocks p yt). Notation G := (opt_grad n H blocks p yt). Notation Hs := (opt_hess n H blocks p yt).
Lemma quad_expand s h : dot n (fun i => s i + h i) (mv n H (fun i => s i + h i)) = dot n s (mv n H s) + 2 * dot n h (mv n H s) + dot n h (mv n H h).
Proof.
  rewrite (dot_ext n _ (mv n H (fun i => s i + h i)) (fun i => s i + h i) (fun i => mv n H s i + mv n H h i)); [|reflexivity|intros; apply mv_plus].
  rewrite dot_plus_l, !dot_plus_r. rewrite (dot_mv_sym n H s h Hsym). ring.
Qed.
Lemma grad_dot s h : dot n h (G s) = dot n h (mv n H s) + lsum (fun b => 1 / 2 * b_c b * rsum (b_nt b) (fun t => INR p * resid n yt b s t ^ (p - 1) * mv n (b_J b) h t)) blocks.
Proof.
  rewrite (dot_ext n h (G s) h (fun k => mv n H s k + lsum (fun b => rsum (b_nt b) (fun t => 1 / 2 * b_c b * b_J b t k * INR p * resid n yt b s t ^ (p - 1))) blocks)); [|reflexivity|intros; apply grad_eq].
  rewrite dot_plus_r. f_equal. rewrite (dot_lsum n h (fun b k => rsum (b_nt b) (fun t => 1 / 2 * b_c b * b_J b t k * INR p * resid n yt b s t ^ (p - 1)))).
  apply lsum_ext. intros b _. rewrite (dot_rsum_r n (b_nt b) h (fun t k => 1 / 2 * b_c b * b_J b t k * INR p * resid n yt b s t ^ (p - 1))).
  rewrite <- rsum_scal_l. apply rsum_ext. intros t Ht. unfold dot, mv. 
  rewrite (rsum_ext n _ (fun k => (1 / 2 * b_c b * INR p * resid n yt b s t ^ (p - 1)) * (b_J b t k * h k))) by (intros; ring).
  rewrite rsum_scal_l. ring.
Qed.
Lemma resid_plus b s h t : resid n yt b (fun i => s i + h i) t = resid n yt b s t + mv n (b_J b) h t.
Proof. unfold resid. rewrite mv_plus. ring. Qed.
Lemma convex_lower s h : F s + dot n h (G s) + 1 / 2 * dot n h (mv n H h) <= F (fun i => s i + h i).
Proof.
  rewrite !func_eq, grad_dot, quad_expand.
  enough (lsum (fun b => 1 / 2 * b_c b * rsum (b_nt b) (fun t => resid n yt b s t ^ p)) blocks +
          lsum (fun b => 1 / 2 * b_c b * rsum (b_nt b) (fun t => INR p * resid n yt b s t ^ (p - 1) * mv n (b_J b) h t)) blocks <=
          lsum (fun b => 1 / 2 * b_c b * rsum (b_nt b) (fun t => resid n yt b (fun i => s i + h i) t ^ p)) blocks) by lra.
  rewrite <- lsum_plus. assert (forall l, (forall b, In b l -> In b blocks) ->
    lsum (fun b => 1 / 2 * b_c b * rsum (b_nt b) (fun t => resid n yt b s t ^ p) + 1 / 2 * b_c b * rsum (b_nt b) (fun t => INR p * resid n yt b s t ^ (p - 1) * mv n (b_J b) h t)) l
    <= lsum (fun b => 1 / 2 * b_c b * rsum (b_nt b) (fun t => resid n yt b (fun i => s i + h i) t ^ p)) l); [|auto].
  induction l as [|b l IH]; intros I; cbn [lsum]; [lra|]. apply Rplus_le_compat; [|apply IH; intros; apply I; right; assumption].
  rewrite <- Rmult_plus_distr_l, <- rsum_plus. apply Rmult_le_compat_l; [pose proof (Hc b (I b (or_introl eq_refl))); lra|].
  apply rsum_le. intros t Ht. rewrite resid_plus.
  pose proof (even_tangent p (resid n yt b s t + mv n (b_J b) h t) (resid n yt b s t) Hp He) as T.
  replace (resid n yt b s t + mv n (b_J b) h t - resid n yt b s t) with (mv n (b_J b) h t) in T by ring. exact T.
Qed.
Lemma func_ext s s' : (forall i, (i < n)%nat -> s i = s' i) -> F s = F s'.
Proof.
  intros E. rewrite !func_eq. f_equal.
  - f_equal. apply dot_ext; [exact E|]. intros. apply mv_ext; [reflexivity|exact E].
  - apply lsum_ext. intros b _. f_equal. apply rsum_ext. intros t Ht. f_equal. unfold resid. f_equal. apply mv_ext; [reflexivity|exact E].
Qed.
Lemma stationary_min s : (forall k, (k < n)%nat -> G s k = 0) -> forall s', (exists i, (i < n)%nat /\ s' i <> s i) -> F s < F s'.
Proof.
  intros Z s' (i & Hi & N). pose proof (convex_lower s (fun i => s' i - s i)) as L.
  rewrite (dot_zero_r n _ (G s) Z) in L.
  assert (Q : 0 < dot n (fun i => s' i - s i) (mv n H (fun i => s' i - s i))) by (apply Hpd; exists i; split; [exact Hi|lra]).
  rewrite (func_ext (fun i => s i + (s' i - s i)) s') in L by (intros; ring). lra.
Qed.
(** Newton direction descends *)
Lemma newton_descent s d : (forall k, (k < n)%nat -> mv n (Hs s) d k = - G s k) -> dot n (G s) d = - dot n d (mv n (Hs s) d).
Proof.
  intros E. rewrite dot_sym. rewrite (dot_ext n d (G s) d (fun k => - mv n (Hs s) d k)); [apply dot_opp_r|reflexivity|]. intros k Hk. rewrite E by exact Hk. ring.
Qed.
(** derivative of the objective along a line *)
Lemma line_derive s d : is_derive (fun a => F (ls_point s d a)) 0 (dot n (G (ls_point s d 0)) d).
Proof.
  assert (Ge : dot n (G (ls_point s d 0)) d = dot n d (G s)).
  { rewrite dot_sym. apply dot_ext; [reflexivity|]. intros k Hk. rewrite !grad_eq. f_equal.
    - apply mv_ext; [reflexivity|]. intros. unfold ls_point. ring.
    - apply lsum_ext. intros b _. apply rsum_ext. intros t Ht. f_equal. f_equal. unfold resid. f_equal. apply mv_ext; [reflexivity|]. intros. unfold ls_point. ring. }
  rewrite Ge, grad_dot.
  apply (is_derive_ext (fun a : R => (1 / 2 * (dot n s (mv n H s) + 2 * a * dot n d (mv n H s) + a * a * dot n d (mv n H d)))
     + lsum (fun b => 1 / 2 * b_c b * rsum (b_nt b) (fun t => (resid n yt b s t + a * mv n (b_J b) d t) ^ p)) blocks)).
  - intros a. rewrite func_eq. f_equal.
    + unfold ls_point. rewrite (quad_expand s (fun i => a * d i)).
      rewrite (dot_ext n (fun i => a * d i) (mv n H (fun i => a * d i)) (fun i => a * d i) (fun i => a * mv n H d i)); [|reflexivity|intros; apply mv_scal].
      rewrite !dot_scal_l, dot_scal_r. match goal with |- ?x = ?y => change (@eq R x y) end. ring.
    + apply lsum_ext. intros b _. f_equal. apply rsum_ext. intros t Ht. f_equal. unfold ls_point. rewrite (resid_plus b s (fun i => a * d i)). f_equal. rewrite mv_scal. ring.
  - apply (is_derive_plus (fun a : R => 1 / 2 * (dot n s (mv n H s) + 2 * a * dot n d (mv n H s) + a * a * dot n d (mv n H d)))).
    + generalize (dot n s (mv n H s)) (dot n d (mv n H s)) (dot n d (mv n H d)). intros u v w. auto_derive; [exact I|]. field.
    + apply (is_derive_lsum (fun b a => 1 / 2 * b_c b * rsum (b_nt b) (fun t => (resid n yt b s t + a * mv n (b_J b) d t) ^ p))). intros b _.
      apply (is_derive_scal (fun a => rsum (b_nt b) (fun t => (resid n yt b s t + a * mv n (b_J b) d t) ^ p))).
      apply (is_derive_rsum (b_nt b) (fun t a => (resid n yt b s t + a * mv n (b_J b) d t) ^ p)). intros t Ht.
      generalize (resid n yt b s t) (mv n (b_J b) d t). intros r m.
      replace (INR p * r ^ (p - 1) * m) with (INR p * m * (r + 0 * m) ^ pred p) by (replace (pred p) with (p - 1)%nat by lia; rewrite Rmult_0_l, Rplus_0_r; ring).
      apply (is_derive_pow (fun a : R => r + a * m) p 0 m). auto_derive; [exact I|ring].
Qed.
End Min.
