From Coq Require Import Reals ZArith Arith Bool List Lia Lra.
From Coquelicot Require Import Coquelicot.
From Verif Require Import RSum Mat LineSearch_M LineSearch_P Index_M Rmtb_M Rmtc_M RmtsTrain_M.
Import ListNotations.
Open Scope list_scope.
Open Scope R_scope.

Lemma weights_none gw nx r : forall kx, kx <> 0%nat -> approx_weights gw nx None (kx :: r) = None.
Proof. intros kx H. cbn. destruct (Nat.eqb_spec kx 0); [contradiction|reflexivity]. Qed.
Lemma weights_some gw nx : forall keys, approx_weights gw nx (Some 1) keys = Some (map (fun kx => (kx, 1)) keys).
Proof.
  induction keys as [|kx r IH]; cbn; [reflexivity|].
  destruct (Nat.eqb kx 0); rewrite IH; reflexivity.
Qed.

Section Obj.
Variables (n : nat) (H : mat) (blocks : list block) (p : nat) (yt : nat -> nat -> R).
Notation F := (opt_func n H blocks p yt). Notation G := (opt_grad n H blocks p yt). Notation Hs := (opt_hess n H blocks p yt).
Lemma func_eq sol : F sol = 1 / 2 * dot n sol (mv n H sol) + lsum (fun b => 1 / 2 * b_c b * rsum (b_nt b) (fun t => resid n yt b sol t ^ p)) blocks.
Proof. unfold opt_func. apply fold_left_lsum. Qed.
Lemma grad_eq sol k : G sol k = mv n H sol k + lsum (fun b => rsum (b_nt b) (fun t => 1 / 2 * b_c b * b_J b t k * INR p * resid n yt b sol t ^ (p - 1))) blocks.
Proof. unfold opt_grad. apply (fold_left_lsum (fun b => rsum (b_nt b) (fun t => 1 / 2 * b_c b * tr (b_J b) k t * INR p * resid n yt b sol t ^ (p - 1)))). Qed.
Lemma hess_eq sol i j : Hs sol i j = H i j + lsum (fun b => rsum (b_nt b) (fun t => 1 / 2 * b_c b * b_J b t i * (INR p * (INR p - 1) * resid n yt b sol t ^ (p - 2)) * b_J b t j)) blocks.
Proof. unfold opt_hess. apply (fold_left_lsum (fun b => rsum (b_nt b) (fun t => 1 / 2 * b_c b * tr (b_J b) i t * (INR p * (INR p - 1) * resid n yt b sol t ^ (p - 2)) * b_J b t j))). Qed.
Lemma resid_upd b sol k s t : (k < n)%nat -> resid n yt b (upd sol k s) t = resid n yt b sol t + b_J b t k * (s - sol k).
Proof. intros Hk. unfold resid. rewrite mv_upd by exact Hk. ring. Qed.
Lemma quad_derive sol k : msym n H -> (k < n)%nat ->
  is_derive (fun t : R => 1 / 2 * dot n (upd sol k t) (mv n H (upd sol k t))) (sol k) (mv n H sol k).
Proof.
  intros Hs Hk.
  apply (is_derive_ext (fun t : R => 1 / 2 * (dot n sol (mv n H sol) + 2 * mv n H sol k * (t - sol k) + H k k * (t - sol k) * (t - sol k)))).
  - intros t. rewrite dot_upd by exact Hk. rewrite (mv_upd n H sol k t k Hk).
    rewrite (dot_ext n sol (mv n H (upd sol k t)) sol (fun i => mv n H sol i + (t - sol k) * H i k)); [|reflexivity|intros i Hi; rewrite mv_upd by exact Hk; ring].
    rewrite dot_plus_r, dot_scal_r.
    assert (E : dot n sol (fun i => H i k) = mv n H sol k).
    { unfold dot, mv. apply rsum_ext. intros i Hi. rewrite (Hs i k Hi Hk). ring. }
    rewrite E. match goal with |- ?a = ?b => change (@eq R a b) end. ring.
  - generalize (dot n sol (mv n H sol)) (mv n H sol k) (H k k) (sol k). intros c m h s. auto_derive; [exact I|]. unfold Rsqr. field.
Qed.
Lemma grad_correct sol k : msym n H -> (1 <= p)%nat -> (k < n)%nat -> is_partial F sol k (G sol k).
Proof.
  intros Hs Hp Hk. unfold is_partial. rewrite grad_eq.
  apply (is_derive_ext (fun t => 1 / 2 * dot n (upd sol k t) (mv n H (upd sol k t)) +
     lsum (fun b => 1 / 2 * b_c b * rsum (b_nt b) (fun i => resid n yt b (upd sol k t) i ^ p)) blocks)); [intros t; symmetry; apply func_eq|].
  apply (is_derive_plus (fun t => 1 / 2 * dot n (upd sol k t) (mv n H (upd sol k t)))); [apply quad_derive; assumption|].
  apply (is_derive_lsum (fun b t => 1 / 2 * b_c b * rsum (b_nt b) (fun i => resid n yt b (upd sol k t) i ^ p))). intros b _.
  rewrite (rsum_ext (b_nt b) _ (fun i => 1 / 2 * b_c b * (INR p * b_J b i k * resid n yt b sol i ^ (p - 1)))) by (intros; ring).
  rewrite rsum_scal_l. apply (is_derive_scal (fun t => rsum (b_nt b) (fun i => resid n yt b (upd sol k t) i ^ p))).
  apply (is_derive_rsum (b_nt b) (fun i t => resid n yt b (upd sol k t) i ^ p)). intros i Hi.
  apply (is_derive_ext (fun t : R => (resid n yt b sol i + b_J b i k * (t - sol k)) ^ p)); [intros t; rewrite resid_upd by exact Hk; reflexivity|].
  replace (resid n yt b sol i ^ (p - 1)) with ((resid n yt b sol i + b_J b i k * (sol k - sol k)) ^ pred p).
  - apply (is_derive_pow (fun t : R => resid n yt b sol i + b_J b i k * (t - sol k)) p (sol k) (b_J b i k)). auto_derive; [exact I|ring].
  - replace (pred p) with (p - 1)%nat by lia. f_equal. ring.
Qed.
Lemma hess_correct sol i j : (2 <= p)%nat -> (j < n)%nat -> is_partial (fun s => G s i) sol j (Hs sol i j).
Proof.
  intros Hp Hj. unfold is_partial. rewrite hess_eq.
  apply (is_derive_ext (fun t => mv n H (upd sol j t) i + lsum (fun b => rsum (b_nt b) (fun r => 1 / 2 * b_c b * b_J b r i * INR p * resid n yt b (upd sol j t) r ^ (p - 1))) blocks)); [intros t; symmetry; apply grad_eq|].
  apply (is_derive_plus (fun t => mv n H (upd sol j t) i)).
  - apply (is_derive_ext (fun t : R => mv n H sol i + H i j * (t - sol j))); [intros t; rewrite mv_upd by exact Hj; reflexivity|]. auto_derive; [exact I|ring].
  - apply (is_derive_lsum (fun b t => rsum (b_nt b) (fun r => 1 / 2 * b_c b * b_J b r i * INR p * resid n yt b (upd sol j t) r ^ (p - 1)))). intros b _.
    apply (is_derive_rsum (b_nt b) (fun r t => 1 / 2 * b_c b * b_J b r i * INR p * resid n yt b (upd sol j t) r ^ (p - 1))). intros r Hr.
    rewrite (Rmult_assoc (1 / 2 * b_c b * b_J b r i)).
    replace (1 / 2 * b_c b * b_J b r i * (INR p * (INR p - 1) * resid n yt b sol r ^ (p - 2) * b_J b r j))
      with (1 / 2 * b_c b * b_J b r i * INR p * (INR (p - 1) * b_J b r j * resid n yt b sol r ^ (p - 2))) by (rewrite minus_INR by lia; cbn [INR]; ring).
    apply (is_derive_scal (fun t => resid n yt b (upd sol j t) r ^ (p - 1))).
    apply (is_derive_ext (fun t : R => (resid n yt b sol r + b_J b r j * (t - sol j)) ^ (p - 1))); [intros t; rewrite resid_upd by exact Hj; reflexivity|].
    replace (resid n yt b sol r ^ (p - 2)) with ((resid n yt b sol r + b_J b r j * (sol j - sol j)) ^ pred (p - 1)).
    + apply (is_derive_pow (fun t : R => resid n yt b sol r + b_J b r j * (t - sol j)) (p - 1) (sol j) (b_J b r j)). auto_derive; [exact I|ring].
    + replace (pred (p - 1)) with (p - 2)%nat by lia. f_equal. ring.
Qed.
Lemma hess_sym sol : msym n H -> msym n (Hs sol).
Proof.
  intros S i j Hi Hj. rewrite !hess_eq. rewrite (S i j Hi Hj). f_equal. apply lsum_ext. intros b _. apply rsum_ext. intros. ring.
Qed.
Lemma hess_mv sol x i : mv n (Hs sol) x i = mv n H x i +
  lsum (fun b => rsum (b_nt b) (fun t => b_J b t i * (1 / 2 * b_c b * (INR p * (INR p - 1) * resid n yt b sol t ^ (p - 2)) * mv n (b_J b) x t))) blocks.
Proof.
  rewrite (mv_ext n (Hs sol) (fun i j => H i j + lsum (fun b => rsum (b_nt b) (fun t => 1 / 2 * b_c b * b_J b t i * (INR p * (INR p - 1) * resid n yt b sol t ^ (p - 2)) * b_J b t j)) blocks) x x i); [|intros; apply hess_eq|reflexivity].
  rewrite mv_mat_plus. f_equal.
  rewrite (mv_mat_lsum n (fun b i j => rsum (b_nt b) (fun t => 1 / 2 * b_c b * b_J b t i * (INR p * (INR p - 1) * resid n yt b sol t ^ (p - 2)) * b_J b t j))).
  apply lsum_ext. intros b _. unfold mv.
  rewrite (rsum_ext n _ (fun j => rsum (b_nt b) (fun t => b_J b t i * (1 / 2 * b_c b * (INR p * (INR p - 1) * resid n yt b sol t ^ (p - 2))) * (b_J b t j * x j)))).
  - rewrite rsum_swap. apply rsum_ext. intros t Ht. rewrite rsum_scal_l. ring.
  - intros j Hj. rewrite <- rsum_scal_r. apply rsum_ext. intros. ring.
Qed.
Lemma hess_form sol x : dot n x (mv n (Hs sol) x) = dot n x (mv n H x) +
  lsum (fun b => rsum (b_nt b) (fun t => 1 / 2 * b_c b * (INR p * (INR p - 1) * resid n yt b sol t ^ (p - 2)) * (mv n (b_J b) x t * mv n (b_J b) x t))) blocks.
Proof.
  rewrite (dot_ext n x (mv n (Hs sol) x) x (fun i => mv n H x i + lsum (fun b => rsum (b_nt b) (fun t => b_J b t i * (1 / 2 * b_c b * (INR p * (INR p - 1) * resid n yt b sol t ^ (p - 2)) * mv n (b_J b) x t))) blocks)); [|reflexivity|intros; apply hess_mv].
  rewrite dot_plus_r. f_equal.
  rewrite (dot_lsum n x (fun b i => rsum (b_nt b) (fun t => b_J b t i * (1 / 2 * b_c b * (INR p * (INR p - 1) * resid n yt b sol t ^ (p - 2)) * mv n (b_J b) x t)))).
  apply lsum_ext. intros b _. rewrite (dot_rsum_r n (b_nt b) x (fun t i => b_J b t i * (1 / 2 * b_c b * (INR p * (INR p - 1) * resid n yt b sol t ^ (p - 2)) * mv n (b_J b) x t))).
  apply rsum_ext. intros t Ht. unfold dot at 1.
  rewrite (rsum_ext n _ (fun i => (1 / 2 * b_c b * (INR p * (INR p - 1) * resid n yt b sol t ^ (p - 2)) * mv n (b_J b) x t) * (b_J b t i * x i))) by (intros; ring).
  rewrite rsum_scal_l. unfold mv. ring.
Qed.
Lemma pow_even_nonneg r m : Nat.even m = true -> 0 <= r ^ m.
Proof. intros E. apply Nat.even_spec in E. destruct E as (k & ->). rewrite pow_mult. apply pow_le. cbn. rewrite Rmult_1_r. apply Rle_0_sqr. Qed.
Lemma hess_pd sol : mpd n H -> (2 <= p)%nat -> Nat.even p = true -> (forall b, In b blocks -> 0 <= b_c b) -> mpd n (Hs sol).
Proof.
  intros P Hp He Hc x Hx. rewrite hess_form. apply Rplus_lt_le_0_compat; [apply P; exact Hx|].
  apply lsum_nonneg. intros b Hb. apply rsum_nonneg. intros t Ht.
  apply Rmult_le_pos; [|apply Rle_0_sqr]. apply Rmult_le_pos.
  - apply Rmult_le_pos; [lra|apply Hc; exact Hb].
  - apply Rmult_le_pos; [apply Rmult_le_pos; [apply pos_INR|]|].
    + apply (le_INR 2) in Hp. cbn in Hp. lra.
    + apply pow_even_nonneg. replace p with (S (S (p - 2))) in He by lia. exact He.
Qed.
End Obj.
