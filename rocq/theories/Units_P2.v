(** C112: change of units, RBF. *)
From Coq Require Import Reals Arith Bool List Lia Lra FunctionalExtensionality.
From Coquelicot Require Import Coquelicot.
From Verif Require Import RSum Mat Rbf_M Rbf_S Rbf_P Psd2.
Open Scope R_scope.

(** from equal values to equal derivatives *)
Lemma partial_affine (f g : vec -> R) a b (A B : vec) x k d d' : (forall y, g (fun c => A c * y c + B c) = a * f y + b) -> A k <> 0 ->
  is_partial f x k d -> is_partial g (fun c => A c * x c + B c) k d' -> d' = a * d / A k.
Proof.
  intros E HA Pf Pg. unfold is_partial in *.
  assert (is_derive (fun t => g (upd (fun c => A c * x c + B c) k (A k * t + B k))) (x k) (A k * d')) as D1.
  { apply (is_derive_comp (fun u => g (upd (fun c => A c * x c + B c) k u)) (fun t => A k * t + B k) (x k) d' (A k)); [exact Pg|]. auto_derive; [exact I|ring]. }
  assert (is_derive (fun t => a * f (upd x k t) + b) (x k) (a * d)) as D2.
  { evar_last; [apply (is_derive_plus (K := R_AbsRing) (V := R_NormedModule)); [apply is_derive_scal; exact Pf|apply derive_cst]|]. unfold plus. cbn. ring. }
  assert (is_derive (fun t => g (upd (fun c => A c * x c + B c) k (A k * t + B k))) (x k) (a * d)) as D3.
  { revert D2. apply is_derive_ext. intros t. rewrite <- E. f_equal. apply functional_extensionality. intros c. unfold upd. destruct (Nat.eqb_spec c k) as [-> | N]; reflexivity. }
  apply is_derive_unique in D1, D3. rewrite D1 in D3. rewrite <- D3. field. exact HA.
Qed.

Section RbfUnits.
Variables (nx nt : nat) (deg : degree) (d0 : vec) (xt : nat -> vec) (reg : R).
Notation solves := (rbf_solves nx nt deg d0 xt reg).
Notation val := (rbf_value nx nt deg d0 xt).
Hypothesis Hd : forall k, (k < nx)%nat -> d0 k <> 0.
Hypothesis Hr : 0 <= reg.
Hypothesis Hdist : reg = 0 -> distinct nx nt xt.
Hypothesis Hfull : trend_full_rank nx nt deg xt.

Lemma val_lin s1 s2 a x : val (fun j => s2 j - a * s1 j) x = val s2 x - a * val s1 x.
Proof. unfold rbf_value, dot. rewrite <- rsum_scal_l, <- rsum_minus. apply rsum_ext. intros. ring. Qed.
Lemma solves_lin y1 y2 s1 s2 a : solves y1 s1 -> solves y2 s2 -> solves (fun i => y2 i - a * y1 i) (fun j => s2 j - a * s1 j).
Proof.
  intros S1 S2 i Hi. transitivity (rbf_rhs nt y2 i - a * rbf_rhs nt y1 i).
  - rewrite <- (S1 i Hi), <- (S2 i Hi). unfold mv. rewrite <- rsum_scal_l, <- rsum_minus. apply rsum_ext. intros. ring.
  - unfold rbf_rhs. destruct (Nat.ltb i nt); ring.
Qed.
Lemma rbf_outputs yt a b sol sol' : (deg = NoPoly -> b = 0) -> solves yt sol -> solves (fun i => a * yt i + b) sol' ->
  forall x, val sol' x = a * val sol x + b /\ forall kx, (kx < nx)%nat -> rbf_derivative nx nt deg d0 xt sol' kx x = a * rbf_derivative nx nt deg d0 xt sol kx x.
Proof.
  intros Hb S S'. assert (V : forall x, val sol' x = a * val sol x + b).
  { intros x. pose proof (solves_lin _ _ _ _ a S S') as SD. assert (val (fun j => sol' j - a * sol j) x = b) as E.
    - destruct (match deg with NoPoly => true | _ => false end) eqn:D.
      + assert (deg = NoPoly) as D' by (destruct deg; congruence). rewrite (Hb D') in *.
        unfold rbf_value, dot. apply rsum_zero. intros i Hi.
        rewrite (kernel_zero nx nt deg d0 xt reg (fun j => sol' j - a * sol j) Hd Hr Hdist Hfull); [ring| |exact Hi].
        intros j Hj. rewrite (SD j Hj). unfold rbf_rhs. destruct (Nat.ltb j nt); ring.
      + apply (reproduces_const nx nt deg d0 xt reg b (fun i => a * yt i + b - a * yt i)); auto; [destruct deg; congruence|intros; ring].
    - rewrite val_lin in E. lra. }
  intros x. split; [apply V|]. intros kx Hk.
  rewrite (partial_affine (val sol) (val sol') a b (fun _ => 1) (fun _ => 0) x kx (rbf_derivative nx nt deg d0 xt sol kx x) (rbf_derivative nx nt deg d0 xt sol' kx x)).
  - field.
  - intros y. rewrite <- V. f_equal. apply functional_extensionality. intros c. ring.
  - lra.
  - apply derivative; assumption.
  - replace (fun c => 1 * x c + 0) with x by (apply functional_extensionality; intros; ring). apply derivative; assumption.
Qed.

Variables (A B : vec).
Hypothesis HA : forall k, (k < nx)%nat -> A k <> 0.
Notation xt' := (fun i k => A k * xt i k + B k).
Notation d0' := (fun k => A k * d0 k).
Notation solves' := (rbf_solves nx nt deg d0' xt' reg).
Notation val' := (rbf_value nx nt deg d0' xt').
Notation tf x := (fun k => A k * x k + B k).
Lemma gauss_units x i : gauss nx (fun k => / d0' k ^ 2) (tf x) (xt' i) = gauss nx (fun k => / d0 k ^ 2) x (xt i).
Proof. unfold gauss. do 2 f_equal. apply rsum_ext. intros k Hk. pose proof (HA k Hk). pose proof (Hd k Hk). field. split; assumption. Qed.
(** the trend in the old units *)
Definition back (s : vec) : vec := fun j => if Nat.ltb j nt then s j else match deg with Linear => if Nat.eqb j nt then s nt + rsum nx (fun k => s (nt + 1 + k)%nat * B k) else s j * A (j - (nt + 1))%nat | _ => s j end.
Lemma back_low s j : (j < nt)%nat -> back s j = s j.
Proof. intros H. unfold back. apply Nat.ltb_lt in H. rewrite H. reflexivity. Qed.
Lemma val_back s x : val (back s) x = val' s (tf x).
Proof.
  rewrite !val_split. f_equal.
  - apply rsum_ext. intros j Hj. rewrite (back_low s j Hj). f_equal. symmetry. apply gauss_units.
  - unfold back. rewrite Nat.ltb_irrefl, Nat.eqb_refl. destruct deg; [reflexivity|reflexivity|].
    rewrite Rplus_assoc. f_equal. rewrite <- rsum_plus. apply rsum_ext. intros k Hk.
    replace (Nat.ltb (nt + 1 + k) nt) with false by (symmetry; apply Nat.ltb_ge; lia). replace (Nat.eqb (nt + 1 + k) nt) with false by (symmetry; apply Nat.eqb_neq; lia).
    replace (nt + 1 + k - (nt + 1))%nat with k by lia. ring.
Qed.
Lemma solves_back yt s : solves' yt s -> solves yt (back s).
Proof.
  intros S i Hi. unfold rbf_rhs. destruct (Nat.ltb_spec i nt) as [L|L].
  - rewrite mv_row by exact L. rewrite val_back, (back_low s i L). rewrite (interpolates nx nt deg d0' xt' reg yt s S i L). ring.
  - rewrite mv_low by exact L. rewrite (rsum_ext nt _ (fun j => rbf_jac nx nt deg d0 xt (xt j) i * s j)) by (intros j Hj; rewrite (back_low s j Hj); reflexivity).
    unfold num_dof, num_poly in Hi. unfold rbf_jac. replace (Nat.ltb i nt) with false by (symmetry; apply Nat.ltb_ge; exact L).
    destruct (match deg with NoPoly => true | _ => false end) eqn:D0; [destruct deg; try discriminate; lia|].
    pose proof (side_const nx nt deg d0' xt' reg yt s ltac:(destruct deg; congruence) S) as SC.
    destruct deg eqn:D; [discriminate|rewrite (rsum_ext nt _ s) by (intros; ring); exact SC|].
    destruct (Nat.eqb_spec i nt) as [-> | N]; [rewrite (rsum_ext nt _ s) by (intros; ring); exact SC|].
    set (k := (i - (nt + 1))%nat). assert (k < nx)%nat as Hk by (unfold k; lia).
    pose proof (side_linear nx nt Linear d0' xt' reg yt s k eq_refl Hk S) as SL. cbv beta in SL.
    rewrite (rsum_ext nt _ (fun i => A k * (xt i k * s i) + B k * s i)) in SL by (intros; ring). rewrite rsum_plus, !rsum_scal_l, SC in SL.
    pose proof (HA k Hk). apply (Rmult_eq_reg_l (A k)); [lra|assumption].
Qed.
Lemma rbf_inputs yt sol sol' : solves yt sol -> solves' yt sol' ->
  forall x, val' sol' (tf x) = val sol x /\ forall kx, (kx < nx)%nat -> rbf_derivative nx nt deg d0' xt' sol' kx (tf x) = rbf_derivative nx nt deg d0 xt sol kx x / A kx.
Proof.
  intros S S'. assert (V : forall x, val' sol' (tf x) = val sol x).
  { intros x. rewrite <- val_back. unfold rbf_value. apply dot_ext; [reflexivity|]. intros i Hi. apply (unique nx nt deg d0 xt reg yt); auto. apply solves_back. exact S'. }
  intros x. split; [apply V|]. intros kx Hk.
  rewrite (partial_affine (val sol) (val' sol') 1 0 A B x kx (rbf_derivative nx nt deg d0 xt sol kx x) (rbf_derivative nx nt deg d0' xt' sol' kx (tf x))).
  - field. apply HA. exact Hk.
  - intros y. rewrite V. ring.
  - apply HA. exact Hk.
  - apply derivative; assumption.
  - apply derivative; [exact Hk|]. intros k Hk'. apply Rmult_integral_contrapositive_currified; auto.
Qed.
End RbfUnits.
(** without a trend, adding a constant to the outputs does not add it to the predictions *)
Lemma rbf_shift_wrong : exists sol sol', rbf_solves 1 1 NoPoly (fun _ => 1) (fun _ _ => 0) 0 (fun _ => 0) sol /\ rbf_solves 1 1 NoPoly (fun _ => 1) (fun _ _ => 0) 0 (fun _ => 0 + 1) sol' /\
  rbf_value 1 1 NoPoly (fun _ => 1) (fun _ _ => 0) sol (fun _ => 1) = 0 /\ rbf_value 1 1 NoPoly (fun _ => 1) (fun _ _ => 0) sol' (fun _ => 1) <> 1.
Proof.
  exists (fun _ => 0), (fun _ => 1).
  assert (S : forall c, rbf_solves 1 1 NoPoly (fun _ => 1) (fun _ _ => 0) 0 (fun _ => c) (fun _ => c)).
  { intros c i Hi. assert (i = 0%nat) by (cbn in Hi; lia). subst i. unfold mv, rbf_rhs, num_dof, rbf_mtx, rbf_jac, rbf_radial. cbn. replace (- (0 + (0 - 0) / 1 * ((0 - 0) / 1 * 1))) with 0 by field. rewrite exp_0. ring. }
  split; [apply S|]. split; [replace (0 + 1) with 1 by ring; apply S|].
  unfold rbf_value, dot, num_dof, rbf_jac, rbf_radial. cbn. split; [ring|].
  replace (- (0 + (1 - 0) / 1 * ((1 - 0) / 1 * 1))) with (- (1)) by field. intros E.
  pose proof (exp_increasing (- (1)) 0 ltac:(lra)) as Q. rewrite exp_0 in Q. lra.
Qed.
