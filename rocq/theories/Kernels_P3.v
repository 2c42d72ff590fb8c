From Coq Require Import Reals Arith Bool List Lia Lra.
From Coquelicot Require Import Coquelicot.
From Verif Require Import RSum Mat Psd Psd2 Matern Kernels_M Kernels_S Kernels_P Kernels_P2 Idw_P2 Rbf_P Poly_P.
Open Scope R_scope.

Lemma corr_textbook c nc ns theta x y : corr_of c nc ns theta x y = textbook c nc ns theta x y.
Proof.
  destruct c; try (rewrite corr_prod by congruence; apply rprod_ext; intros j Hj; unfold textbook1, comp_dist; cbn [kap]; try reflexivity).
  - unfold corr_of, kernel, k_act, textbook, comp_dist, act_dA. f_equal. match goal with |- - (1 / 2) * ?a = - (?b / 2) => replace a with b; [field|] end.
    apply rsum_ext. intros s _. f_equal. apply rsum_ext. intros j _. ring.
  - f_equal; [|f_equal; ring]. rewrite <- (pow2_abs (x j - y j)). ring.
  - f_equal; [ring|f_equal; ring].
Qed.
Lemma pls_textbook c nx ncomp co theta x y : c = AbsExp \/ c = SquarExp ->
  corr_of_pls c nx ncomp co theta x y =
  textbook c nx 0 (fun j => rsum ncomp (fun l => theta l * (match c with SquarExp => co j l ^ 2 | _ => Rabs (co j l) end))) x y.
Proof. intros H. rewrite pls_corr by exact H. apply corr_textbook. Qed.

(** symmetric cusp: no derivative *)
Lemma cusp (f : R -> R) (x P th l : R) : 0 < P -> 0 < th -> (forall t, f t = P * exp (- (th * Rabs (t - x)))) -> ~ is_derive f x l.
Proof.
  intros HP Ht Hf D. apply is_derive_Reals in D. destruct (D (P * th / 2)) as [del Hd]; [apply Rdiv_lt_0_compat; nra|].
  set (h := Rmin (del / 2) (/ (2 * th))). assert (Hdel := cond_pos del). assert (I : 0 < / (2 * th)) by (apply Rinv_0_lt_compat; lra).
  assert (Hh : 0 < h) by (unfold h; apply Rmin_glb_lt; lra). assert (h <= del / 2) by apply Rmin_l. assert (h <= / (2 * th)) by apply Rmin_r.
  assert (Hth : th * h <= 1 / 2). { apply (Rmult_le_compat_l th) in H0; [|lra]. replace (th * / (2 * th)) with (1 / 2) in H0 by (field; lra). exact H0. }
  pose proof (Hd h ltac:(lra) ltac:(rewrite Rabs_right by lra; lra)) as A. pose proof (Hd (- h) ltac:(lra) ltac:(rewrite Rabs_left by lra; lra)) as B.
  rewrite !Hf in A, B. replace (x - x) with 0 in * by ring. rewrite Rabs_R0, Rmult_0_r, Ropp_0, exp_0 in A, B. replace (x + h - x) with h in A by ring. replace (x + - h - x) with (- h) in B by ring.
  rewrite Rabs_Ropp in B. rewrite (Rabs_right h) in A, B by lra. set (e := exp (- (th * h))) in *.
  assert (E : e <= / (1 + th * h)). { unfold e. rewrite exp_Ropp. apply Rinv_le_contravar; [nra|]. apply exp_ineq1_le. }
  assert (E1 : 1 - e >= th * h / (1 + th * h)). { replace (th * h / (1 + th * h)) with (1 - / (1 + th * h)) by (field; nra). lra. }
  assert (E2 : th * h / (1 + th * h) >= th * h / 2 + th * h / 6). { replace (th * h / 2 + th * h / 6) with (th * h * (2 / 3)) by field. unfold Rdiv. apply Rle_ge. apply Rmult_le_compat_l; [nra|]. rewrite <- (Rinv_involutive 2) at 1 by lra. rewrite <- Rinv_mult_distr by lra. apply Rinv_le_contravar; nra. }
  set (q := (P * e - P * 1) / h) in *. replace ((P * e - P * 1) / - h) with (- q) in B by (unfold q; field; lra).
  assert (Q : - q * h = P * (1 - e)) by (unfold q; field; lra). apply Rabs_def2 in A. apply Rabs_def2 in B.
  assert (q > - (P * th / 2)) by lra. assert (- q * h >= P * (th * h / 2 + th * h / 6)) by (rewrite Q; apply Rmult_ge_compat_l; lra).
  assert (0 < P * (th * h)) by (apply Rmult_lt_0_compat; nra). assert (- q * h < P * th / 2 * h) by (apply Rmult_lt_compat_r; lra). nra.
Qed.
Lemma abs_exp_kink nc ns theta x y k v : (k < nc)%nat -> 0 < theta k -> x k = y k -> ~ is_partial (fun x => corr_of AbsExp nc ns theta x y) x k v.
Proof.
  intros Hk Ht E D. unfold is_partial in D. refine (cusp _ (x k) (rprod nc (fun j => if Nat.eqb j k then 1 else fac1 AbsExp (theta j) (y j) (x j))) (theta k) v _ Ht _ D).
  - apply rprod_pos. intros j Hj. destruct (Nat.eqb j k); [lra|]. apply exp_pos.
  - intros t. rewrite corr_fac by congruence. rewrite (rprod_split nc _ k Hk), Rmult_comm. f_equal.
    + apply rprod_ext. intros j Hj. destruct (Nat.eqb_spec j k); [reflexivity|]. rewrite upd_neq by assumption. reflexivity.
    + rewrite upd_eq. unfold fac1, comp_dist. cbn [kap]. rewrite E. reflexivity.
Qed.
Lemma corr_psd_form c nc ns theta n (p : nat -> vec) : (c <> ActExp -> forall j, (j < nc)%nat -> 0 <= theta j) ->
  forall w : vec, 0 <= rsum n (fun i => rsum n (fun j => w i * w j * corr_of c nc ns theta (p i) (p j))).
Proof. intros H. apply mpsd_form. apply smul_psd. apply corr_smul. exact H. Qed.
Lemma form_dot n A (w : vec) : dot n w (mv n A w) = rsum n (fun i => rsum n (fun j => w i * w j * A i j)).
Proof. unfold dot, mv. apply rsum_ext. intros i Hi. rewrite <- rsum_scal_l. apply rsum_ext. intros. ring. Qed.
Lemma corr_pd_form c nc ns theta n (p : nat -> vec) :
  (c <> ActExp -> forall j, (j < nc)%nat -> 0 < theta j) ->
  (c <> ActExp -> forall i j, (i < n)%nat -> (j < n)%nat -> i <> j -> ~ (forall k, (k < nc)%nat -> p i k = p j k)) ->
  (c = ActExp -> forall i j, (i < n)%nat -> (j < n)%nat -> i <> j -> ~ (forall s, (s < ns)%nat -> rsum nc (fun k => theta (s * nc + k)%nat * (p i k - p j k)) = 0)) ->
  forall w : vec, (exists i, (i < n)%nat /\ w i <> 0) -> 0 < rsum n (fun i => rsum n (fun j => w i * w j * corr_of c nc ns theta (p i) (p j))).
Proof.
  intros H1 H2 H3 w W. rewrite <- form_dot. 
  assert (G : c <> ActExp -> mpd n (fun i j => corr_of c nc ns theta (p i) (p j))).
  { intros N. apply corr_pd; [exact N|exact (H1 N)|exact (H2 N)]. }
  destruct c; try (apply G; [congruence|exact W]).
  apply corr_act_pd; [|exact W]. intros i j Hi Hj Ne E. apply (H3 eq_refl i j Hi Hj Ne). intros s Hs. specialize (E s Hs). unfold proj in E.
  rewrite (rsum_ext nc _ (fun k => p i k * theta (s * nc + k)%nat - p j k * theta (s * nc + k)%nat)) by (intros; ring). rewrite rsum_minus. lra.
Qed.
Lemma theta_grad_ok c nc ns theta d g :
  (g < match c with ActExp => nc * ns | _ => nc end)%nat -> (c <> ActExp -> forall j, (j < nc)%nat -> 0 <= d j /\ 0 <= theta j) ->
  is_partial (fun th => kernel c nc ns th d None None) theta g (kernel c nc ns theta d (Some g) None).
Proof.
  intros Hg H. destruct c; try (apply grad_ok; [congruence|exact Hg|apply H; congruence]). cbn [kernel]. apply act_grad_ok. exact Hg.
Qed.
Lemma theta_hess_ok c nc ns theta d g h :
  (g < match c with ActExp => nc * ns | _ => nc end)%nat -> (h < match c with ActExp => nc * ns | _ => nc end)%nat -> (c <> ActExp -> forall j, (j < nc)%nat -> 0 <= d j /\ 0 <= theta j) ->
  is_partial (fun th => kernel c nc ns th d (Some g) None) theta h (kernel c nc ns theta d (Some g) (Some h)).
Proof.
  intros Hg Hh H. destruct c; try (apply hess_ok; [congruence|exact Hg|exact Hh|apply H; congruence]). cbn [kernel]. apply act_hess_ok; assumption.
Qed.
