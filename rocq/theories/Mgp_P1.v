From Coq Require Import Reals Arith Bool List Lia Lra FunctionalExtensionality.
From Coquelicot Require Import Coquelicot.
From Verif Require Import RSum Mat Psd Psd2 Tri_M Tri_P Kernels_M Kernels_P Kernels_P2 Kernels_P3 Krg_M Krg_S Krg_P Krg_P2 Rbf_P Poly_P LikGrad_M LikGrad_S LikGrad_P1 LikGrad_P2 LikGrad_P3 LikGrad_P4 Mgp_M.
Import ListNotations.
Open Scope list_scope.
Open Scope R_scope.

(** ** the prior *)
Lemma sig_mv pv nb z i : (i < nb)%nat -> mv nb (sig_inv pv) z i = z i / pv.
Proof.
  intros Hi. unfold mv, sig_inv. rewrite (rsum_ext nb _ (fun j => if Nat.eqb j i then z j / pv else 0)); [apply (rsum_single nb (fun j => z j / pv) i Hi)|].
  intros j Hj. rewrite (Nat.eqb_sym i j). destruct (Nat.eqb j i); unfold Rdiv; ring.
Qed.
Lemma sig_m pv nb i : (i < nb)%nat -> sig_inv_m pv nb i = / pv.
Proof.
  intros Hi. unfold sig_inv_m, sig_inv. rewrite (rsum_ext nb _ (fun a => if Nat.eqb a i then / pv else 0)); [apply (rsum_single nb (fun _ => / pv) i Hi)|].
  intros j Hj. destruct (Nat.eqb j i); unfold Rdiv; ring.
Qed.
Lemma prior_value pm pv nb theta : log_prior pm pv nb theta = - (rsum nb (fun j => (theta j - pm) ^ 2) / pv).
Proof.
  unfold log_prior. cbv zeta. f_equal. unfold Rdiv. rewrite <- rsum_scal_r. unfold dot. apply rsum_ext. intros j Hj. rewrite sig_mv by exact Hj. unfold Rdiv. ring.
Qed.
Lemma upd_at (x : vec) k t j : upd x k t j = if Nat.eqb j k then t else x j.
Proof. reflexivity. Qed.
Lemma prior_grad_ok pm pv nb theta k : (k < nb)%nat -> is_partial (log_prior pm pv nb) theta k (log_prior_grad pm pv nb theta k).
Proof.
  intros Hk. unfold is_partial, log_prior_grad. rewrite sig_m by exact Hk.
  apply (is_derive_ext (fun t => (- / pv) * rsum nb (fun j => (upd theta k t j - pm) * (upd theta k t j - pm)))).
  { intros t. rewrite prior_value. match goal with |- ?a = ?b => change (@eq R a b) end. rewrite (rsum_ext nb (fun j => (upd theta k t j - pm) ^ 2) (fun j => (upd theta k t j - pm) * (upd theta k t j - pm))) by (intros; ring). unfold Rdiv. ring. }
  eapply derive_eq.
  - apply is_derive_scal. apply (is_derive_rsum nb (fun j t => (upd theta k t j - pm) * (upd theta k t j - pm))). intros j Hj.
    assert (D : is_derive (fun t => upd theta k t j - pm) (theta k) (if Nat.eqb j k then 1 else 0)).
    { eapply derive_eq; [apply derive_sub; [|apply derive_cst]|match goal with |- ?a = ?b => change (@eq R a b) end; apply Rminus_0_r]. apply (Poly_P.derive_x theta k j). }
    apply (derive_mul (fun t => upd theta k t j - pm) (fun t => upd theta k t j - pm)); exact D.
  - cbv beta. match goal with |- ?a = ?b => change (@eq R a b) end.
    rewrite (rsum_ext nb _ (fun j => if Nat.eqb j k then 2 * (theta j - pm) else 0)); [|intros j Hj; rewrite upd_same; destruct (Nat.eqb j k); ring]. rewrite (rsum_single nb (fun j => 2 * (theta j - pm)) k Hk). ring.
Qed.
Lemma prior_hess_ok pm pv nb theta om eta : (om < nb)%nat -> is_partial (fun th => log_prior_grad pm pv nb th om) theta eta (if Nat.eqb eta om then log_prior_hess pv nb eta else 0).
Proof.
  intros Ho. unfold is_partial, log_prior_grad, log_prior_hess. destruct (Nat.eqb_spec eta om) as [-> | N].
  - apply (is_derive_ext (fun t => - 2 * sig_inv_m pv nb om * (t - pm))).
    { intros t. rewrite upd_at, Nat.eqb_refl. match goal with |- ?a = ?b => change (@eq R a b) end. ring. }
    eapply derive_eq; [apply is_derive_scal; apply derive_sub; [apply (is_derive_id (K := R_AbsRing))|apply derive_cst]|]. unfold one. cbn. match goal with |- ?a = ?b => change (@eq R a b) end. ring.
  - apply (is_derive_ext (fun t => - 2 * (theta om - pm) * sig_inv_m pv nb om)); [|apply derive_cst]. intros t. rewrite upd_at. destruct (Nat.eqb_spec om eta); [congruence|reflexivity].
Qed.

Section C97.
Variables (qr : nat -> nat -> mat -> mat * mat) (rcond : nat -> mat -> R) (condF : nat -> nat -> mat -> R).
Variables (nx nt nc : nat) (po : poly) (pm pv nugget : R) (noise : vec) (X : nat -> vec) (y : vec).
Notation p := (n_regr po nx).
Notation Xn := (Xnorm nt X).
Notation F := (fun i j => fvec po nx (Xnorm nt X i) j).
Notation yn := (ynorm nt y).
Notation g := (GStd ActExp nc).
Notation lik := (mgp_lik qr rcond condF nx nt nc po pm pv nugget noise X y).
Notation grd := (mgp_grad qr rcond condF nx nt nc po pm pv nugget noise X y).
Notation hes := (mgp_hess qr rcond condF nx nt nc po pv nugget noise X y).
Lemma th_ok th : theta_ok g nx th.
Proof. intros N. cbn in N. congruence. Qed.
Section Hyp.
Hypotheses (HQ : qr_contract qr) (HR : rcond_contract rcond) (Hn : (1 <= nt)%nat) (Hp : (p <= nt)%nat) (NT : not_trend nt p F yn).
Lemma INRpos : 0 < INR nt.
Proof. apply lt_0_INR. lia. Qed.
Lemma mgp_grad_ok theta k (v : vec -> R) : (k < nx * nc)%nat ->
  locally (theta k) (fun t => lik (upd theta k t) = Some (v (upd theta k t))) -> exists gr, grd theta k = Some gr /\ is_partial v theta k gr.
Proof.
  intros Hk L. set (w := fun th => v th - log_prior pm pv (nx * nc) th).
  destruct (gradient_thm qr rcond condF g nx nt p Xn F yn (scale1 nt y) nugget noise (INR nt) HQ HR Hn Hp INRpos (scale1_nz nt y) NT theta k w (th_ok theta) Hk) as (gr & E & D).
  - generalize L. apply filter_imp. intros t Et. unfold mgp_lik in Et. destruct (rl _ _ _ _ _ _ _ _ _ _ _ _ _ _ (upd theta k t)) as [v0 pr| |]; [|discriminate|discriminate]. injection Et as Et. exists pr. f_equal. unfold w. rewrite <- Et. ring.
  - exists (gr + log_prior_grad pm pv (nx * nc) theta k). unfold mgp_grad. rewrite E. split; [reflexivity|]. unfold is_partial.
    apply (is_derive_ext (fun t => w (upd theta k t) + log_prior pm pv (nx * nc) (upd theta k t))); [intros t; unfold w; match goal with |- ?a = ?b => change (@eq R a b) end; ring|].
    apply derive_sum; [exact D|apply prior_grad_ok; exact Hk].
Qed.
Lemma mgp_hess_ok theta om eta (v : vec -> R) : (om < nx * nc)%nat -> (eta < nx * nc)%nat ->
  locally (theta eta) (fun t => grd (upd theta eta t) om = Some (v (upd theta eta t))) -> exists h, hes theta om eta = Some h /\ is_partial v theta eta h.
Proof.
  intros Ho Hk L. set (w := fun th => v th - log_prior_grad pm pv (nx * nc) th om).
  destruct (hessian_thm qr rcond condF g nx nt p Xn F yn (scale1 nt y) nugget noise (INR nt) HQ HR Hn Hp INRpos (scale1_nz nt y) NT theta om eta w eq_refl (th_ok theta) Ho Hk) as (h & E & D).
  - generalize L. apply filter_imp. intros t Et. unfold mgp_grad in Et. destruct (rl_gradient _ _ _ _ _ _ _ _ _ _ _ _ _ _ (upd theta eta t) om) as [v0|]; [|discriminate]. injection Et as Et. f_equal. unfold w. rewrite <- Et. ring.
  - exists (if Nat.eqb eta om then h + log_prior_hess pv (nx * nc) eta else h). unfold mgp_hess. rewrite E. split; [reflexivity|]. unfold is_partial.
    apply (is_derive_ext (fun t => w (upd theta eta t) + log_prior_grad pm pv (nx * nc) (upd theta eta t) om)); [intros t; unfold w; match goal with |- ?a = ?b => change (@eq R a b) end; ring|].
    eapply derive_eq; [apply derive_sum; [exact D|apply (prior_hess_ok pm pv (nx * nc) theta om eta Ho)]|]. match goal with |- ?a = ?b => change (@eq R a b) end. destruct (Nat.eqb eta om); ring.
Qed.
Lemma mgp_hess_sym theta om eta : hes theta om eta = hes theta eta om.
Proof.
  unfold mgp_hess. rewrite (hessian_sym qr rcond condF g nx nt p Xn F yn (scale1 nt y) nugget noise (INR nt) HQ HR Hp theta om eta). rewrite (Nat.eqb_sym om eta). destruct (Nat.eqb_spec eta om) as [-> | N]; reflexivity.
Qed.
End Hyp.
End C97.

(** ** inv_sigma_R: assignments of a symmetric table *)
Lemma assign_hit rows (idx : nat -> nat * nat) r A a b : (forall k, (k < rows)%nat -> idx k = (a, b) -> forall k', (k' < rows)%nat -> idx k' = (a, b) -> r k = r k') ->
  forall k, (k < rows)%nat -> idx k = (a, b) -> assign rows idx r A a b = r k.
Proof.
  unfold assign. induction rows as [|n IH]; intros H k Hk E; [lia|]. rewrite seq_S, fold_left_app. cbn [fold_left]. cbn [Nat.add].
  destruct (andb (Nat.eqb a (fst (idx n))) (Nat.eqb b (snd (idx n)))) eqn:B.
  - apply andb_prop in B. destruct B as [B1 B2]. apply Nat.eqb_eq in B1, B2. apply (H n); [lia| |exact Hk|exact E]. destruct (idx n); cbn in *; congruence.
  - assert (k <> n). { intros ->. rewrite E in B. cbn in B. rewrite !Nat.eqb_refl in B. discriminate. } apply IH; [|lia|exact E]. intros; apply H; try lia; assumption.
Qed.
Lemma assign_miss rows (idx : nat -> nat * nat) r A a b : (forall k, (k < rows)%nat -> idx k <> (a, b)) -> assign rows idx r A a b = A a b.
Proof.
  unfold assign. induction rows as [|n IH]; intros H; [reflexivity|]. rewrite seq_S, fold_left_app. cbn [fold_left Nat.add].
  destruct (andb (Nat.eqb a (fst (idx n))) (Nat.eqb b (snd (idx n)))) eqn:B; [|apply IH; intros; apply H; lia].
  exfalso. apply andb_prop in B. destruct B as [B1 B2]. apply Nat.eqb_eq in B1, B2. apply (H n); [lia|]. destruct (idx n); cbn in *; congruence.
Qed.
Section Isr.
Variables (qr : nat -> nat -> mat -> mat * mat) (rcond : nat -> mat -> R) (condF : nat -> nat -> mat -> R).
Variables (nx nt nc : nat) (po : poly) (pv nugget : R) (noise : vec) (X : nat -> vec) (y : vec).
Hypotheses (HQ : qr_contract qr) (HR : rcond_contract rcond) (Hp : (n_regr po nx <= nt)%nat).
Notation hes := (mgp_hess qr rcond condF nx nt nc po pv nugget noise X y).
Lemma isr_ok theta a b : (a < nx * nc)%nat -> (b < nx * nc)%nat ->
  inv_sigma_R qr rcond condF nx nt nc po pv nugget noise X y theta a b = - match hes theta a b with Some h => h | None => 0 end.
Proof.
  intros Ha Hb. unfold inv_sigma_R. destruct (hess_ij_ok (nx * nc)) as (E1 & E2 & E3). destruct (hess_ij (nx * nc)) as [ij rows]. cbn [fst snd] in *. subst rows. f_equal.
  set (rows := (nx * nc * (nx * nc + 1) / 2)%nat) in *. set (r := fun k => match hes theta (fst (ij k)) (snd (ij k)) with Some h => h | None => 0 end).
  destruct (le_lt_dec a b) as [L|L].
  - destruct (E3 a b ltac:(lia)) as (q & Hq & Eq & U). destruct (Nat.eq_dec a b) as [-> | N].
    + rewrite (assign_hit rows (fun k => (snd (ij k), fst (ij k))) r _ b b) with (k := q); [unfold r; rewrite Eq; reflexivity| |exact Hq|rewrite Eq; reflexivity].
      intros k Hk Ek k' Hk' Ek'. f_equal. transitivity q; [|symmetry]; apply U; try assumption; destruct (ij k), (ij k'); cbn in *; congruence.
    + rewrite assign_miss.
      * rewrite (assign_hit rows ij r _ a b) with (k := q); [unfold r; rewrite Eq; reflexivity| |exact Hq|exact Eq]. intros k Hk Ek k' Hk' Ek'. f_equal. transitivity q; [|symmetry]; apply U; assumption.
      * intros k Hk Ek. specialize (E2 k Hk). destruct (ij k); cbn in *. injection Ek as -> ->. lia.
  - destruct (E3 b a ltac:(lia)) as (q & Hq & Eq & U).
    rewrite (assign_hit rows (fun k => (snd (ij k), fst (ij k))) r _ a b) with (k := q); [unfold r; rewrite Eq; cbn; rewrite (mgp_hess_sym qr rcond condF nx nt nc po pv nugget noise X y HQ HR Hp); reflexivity| |exact Hq|rewrite Eq; reflexivity].
    intros k Hk Ek k' Hk' Ek'. f_equal. transitivity q; [|symmetry]; apply U; try assumption; destruct (ij k), (ij k'); cbn in *; congruence.
Qed.
End Isr.
