(** C124: change of coordinates, IDW and RBF. *)
From Coq Require Import Reals Arith Bool List Lia Lra FunctionalExtensionality.
From Coquelicot Require Import Coquelicot.
From Verif Require Import RSum Mat Idw_M Rbf_M Rbf_S Rbf_P Psd2 Units_P2 Rot_M.
Open Scope R_scope.

Lemma ortho_inv n Q : orthonormal n Q -> invertible_by n (tr Q) Q.
Proof. intros H. exact H. Qed.
Lemma place_diff n Q t x y k : place n Q t x k - place n Q t y k = rsum n (fun l => Q k l * (x l - y l)).
Proof. unfold place. replace (rsum n (fun l => Q k l * (x l - y l))) with (rsum n (fun l => Q k l * x l) - rsum n (fun l => Q k l * y l)); [ring|]. rewrite <- rsum_minus. apply rsum_ext. intros. ring. Qed.
(** Q^T (Q v) = v *)
Lemma inv_mul n P Q v j : invertible_by n P Q -> (j < n)%nat -> rsum n (fun k => P j k * rsum n (fun l => Q k l * v l)) = v j.
Proof.
  intros H Hj. rewrite (rsum_ext n _ (fun k => rsum n (fun l => P j k * Q k l * v l))) by (intros; rewrite <- rsum_scal_l; apply rsum_ext; intros; ring).
  rewrite rsum_swap. rewrite (rsum_ext n _ (fun l => if Nat.eqb l j then v l else 0)); [apply (rsum_single n v j Hj)|].
  intros l Hl. rewrite rsum_scal_r, (H j l Hj Hl). rewrite (Nat.eqb_sym l j). destruct (Nat.eqb j l); ring.
Qed.
Lemma inv_mul_o n Q v j : orthonormal n Q -> (j < n)%nat -> rsum n (fun k => Q k j * rsum n (fun l => Q k l * v l)) = v j.
Proof. exact (inv_mul n (tr Q) Q v j). Qed.
Lemma norm_rot n Q v : orthonormal n Q -> rsum n (fun k => (rsum n (fun l => Q k l * v l)) ^ 2) = rsum n (fun k => v k ^ 2).
Proof.
  intros H. rewrite (rsum_ext n _ (fun k => rsum n (fun l => v l * (Q k l * rsum n (fun m => Q k m * v m))))).
  - rewrite rsum_swap. apply rsum_ext. intros l Hl. rewrite rsum_scal_l, (inv_mul_o n Q v l H Hl). ring.
  - intros k Hk. replace ((rsum n (fun l => Q k l * v l)) ^ 2) with (rsum n (fun l => Q k l * v l) * rsum n (fun m => Q k m * v m)) by ring.
    rewrite <- rsum_scal_r. apply rsum_ext. intros. ring.
Qed.

Section Idw.
Variables (nx nt : nat) (p : R) (xt : nat -> vec) (Q : mat) (t : vec).
Hypothesis HQ : orthonormal nx Q.
Notation xt' := (fun i => place nx Q t (xt i)).
Lemma r2_rot x : idw_r2 nx xt' (place nx Q t x) = idw_r2 nx xt x.
Proof. apply functional_extensionality. intros i. unfold idw_r2. rewrite <- (norm_rot nx Q (fun l => x l - xt i l) HQ). apply rsum_ext. intros k Hk. rewrite place_diff. reflexivity. Qed.
Lemma min_rot x : idw_min nx nt xt' (place nx Q t x) = idw_min nx nt xt x.
Proof. unfold idw_min. rewrite r2_rot. reflexivity. Qed.
Lemma w_rot x : idw_w nx p xt' (place nx Q t x) = idw_w nx p xt x.
Proof. apply functional_extensionality. intros i. unfold idw_w. rewrite r2_rot. reflexivity. Qed.
Lemma jac_rot x i : idw_jac nx nt p xt' (place nx Q t x) i = idw_jac nx nt p xt x i.
Proof. unfold idw_jac. rewrite min_rot, w_rot. reflexivity. Qed.
Lemma dw_rot x j i : (j < nx)%nat -> rsum nx (fun k => Q k j * idw_dw nx p xt' (place nx Q t x) k i) = idw_dw nx p xt x j i.
Proof.
  intros Hj. unfold idw_dw. cbv zeta. rewrite r2_rot. rewrite <- (inv_mul_o nx Q (fun l => x l - xt i l) j HQ Hj).
  rewrite <- !rsum_scal_l. apply rsum_ext. intros k Hk. rewrite place_diff. ring.
Qed.
Lemma idw_rot yt x : idw_value nx nt p xt' yt (place nx Q t x) = idw_value nx nt p xt yt x /\
  (forall j, (j < nx)%nat -> rsum nx (fun k => Q k j * idw_derivative nx nt p xt' yt k (place nx Q t x)) = idw_derivative nx nt p xt yt j x) /\
  forall i, idw_output_derivative nx nt p xt' (place nx Q t x) i = idw_output_derivative nx nt p xt x i.
Proof.
  split; [|split].
  - unfold idw_value. apply rsum_ext. intros. rewrite jac_rot. reflexivity.
  - intros j Hj. unfold idw_derivative.
    rewrite (rsum_ext nx _ (fun k => rsum nt (fun i => Q k j * idw_djac nx nt p xt' (place nx Q t x) k i * yt i))) by (intros; rewrite <- rsum_scal_l; apply rsum_ext; intros; ring).
    rewrite rsum_swap. apply rsum_ext. intros i Hi. rewrite rsum_scal_r. f_equal. unfold idw_djac. rewrite min_rot, w_rot.
    destruct (Req_EM_T _ 0) as [Z|Z]; [apply rsum_zero; intros; ring|].
    rewrite <- (dw_rot x j i Hj). rewrite (rsum_ext nt (idw_dw nx p xt x j) (fun i => rsum nx (fun k => Q k j * idw_dw nx p xt' (place nx Q t x) k i))) by (intros; rewrite dw_rot by exact Hj; reflexivity).
    rewrite rsum_swap. rewrite (rsum_ext nx (fun b => rsum nt (fun a => Q b j * idw_dw nx p xt' (place nx Q t x) b a)) (fun k => Q k j * rsum nt (idw_dw nx p xt' (place nx Q t x) k))) by (intros; rewrite rsum_scal_l; reflexivity).
    unfold Rdiv. rewrite <- rsum_scal_r, <- rsum_scal_l, <- rsum_minus, <- rsum_scal_r. apply rsum_ext. intros k Hk. ring.
  - intros i. apply jac_rot.
Qed.
End Idw.

Section Rbf.
Variables (nx nt : nat) (deg : degree) (c : R) (xt : nat -> vec) (reg : R) (Q : mat) (t : vec).
Notation d0 := (fun _ : nat => c).
Notation xt' := (fun i => place nx Q t (xt i)).
Notation solves := (rbf_solves nx nt deg d0 xt reg).
Notation solves' := (rbf_solves nx nt deg d0 xt' reg).
Notation val := (rbf_value nx nt deg d0 xt).
Notation val' := (rbf_value nx nt deg d0 xt').
Notation pl := (place nx Q t).
Hypothesis HQ : orthonormal nx Q.
Hypothesis Hc : c <> 0.
Hypothesis Hr : 0 <= reg.
Hypothesis Hdist : reg = 0 -> distinct nx nt xt.
Hypothesis Hfull : trend_full_rank nx nt deg xt.

Lemma gauss_rot x i : gauss nx (fun k => / d0 k ^ 2) (pl x) (xt' i) = gauss nx (fun k => / d0 k ^ 2) x (xt i).
Proof.
  unfold gauss. do 2 f_equal. rewrite (rsum_ext nx _ (fun k => / c ^ 2 * (rsum nx (fun l => Q k l * (x l - xt i l))) ^ 2)) by (intros; rewrite place_diff; ring).
  rewrite rsum_scal_l, (norm_rot nx Q (fun l => x l - xt i l) HQ), <- rsum_scal_l. apply rsum_ext. intros. ring.
Qed.
Definition backr (s : vec) : vec := fun j => if Nat.ltb j nt then s j else match deg with Linear => if Nat.eqb j nt then s nt + rsum nx (fun k => s (nt + 1 + k)%nat * t k) else rsum nx (fun k => s (nt + 1 + k)%nat * Q k (j - (nt + 1))%nat) | _ => s j end.
Lemma backr_low s j : (j < nt)%nat -> backr s j = s j.
Proof. intros H. unfold backr. apply Nat.ltb_lt in H. rewrite H. reflexivity. Qed.
Lemma backr_trend s k : deg = Linear -> backr s (nt + 1 + k)%nat = rsum nx (fun m => s (nt + 1 + m)%nat * Q m k).
Proof.
  intros D. unfold backr. rewrite D. replace (Nat.ltb (nt + 1 + k) nt) with false by (symmetry; apply Nat.ltb_ge; lia). replace (Nat.eqb (nt + 1 + k) nt) with false by (symmetry; apply Nat.eqb_neq; lia).
  replace (nt + 1 + k - (nt + 1))%nat with k by lia. reflexivity.
Qed.
Lemma val_backr s x : val (backr s) x = val' s (pl x).
Proof.
  rewrite !val_split. f_equal.
  - apply rsum_ext. intros j Hj. rewrite (backr_low s j Hj). f_equal. symmetry. apply gauss_rot.
  - destruct deg eqn:D; [reflexivity|unfold backr; rewrite Nat.ltb_irrefl, D; reflexivity|]. rewrite <- D in *.
    rewrite (rsum_ext nx _ (fun k => rsum nx (fun m => s (nt + 1 + m)%nat * Q m k * x k))) by (intros k Hk; rewrite backr_trend by exact D; rewrite <- rsum_scal_r; reflexivity).
    rewrite rsum_swap. unfold backr at 1. rewrite Nat.ltb_irrefl, Nat.eqb_refl, D.
    rewrite Rplus_assoc. f_equal. rewrite <- rsum_plus. apply rsum_ext. intros k Hk. unfold place.
    rewrite Rmult_plus_distr_l, <- rsum_scal_l, Rplus_comm. f_equal. apply rsum_ext. intros. ring.
Qed.
Lemma solves_backr yt s : solves' yt s -> solves yt (backr s).
Proof.
  intros S i Hi. unfold rbf_rhs. destruct (Nat.ltb_spec i nt) as [L|L].
  - rewrite mv_row by exact L. rewrite val_backr, (backr_low s i L). rewrite (interpolates nx nt deg d0 xt' reg yt s S i L). ring.
  - rewrite mv_low by exact L. rewrite (rsum_ext nt _ (fun j => rbf_jac nx nt deg d0 xt (xt j) i * s j)) by (intros j Hj; rewrite (backr_low s j Hj); reflexivity).
    unfold num_dof, num_poly in Hi. unfold rbf_jac. replace (Nat.ltb i nt) with false by (symmetry; apply Nat.ltb_ge; exact L).
    destruct (match deg with NoPoly => true | _ => false end) eqn:D0; [destruct deg; try discriminate; lia|].
    pose proof (side_const nx nt deg d0 xt' reg yt s ltac:(destruct deg; congruence) S) as SC.
    destruct deg eqn:D; [discriminate|rewrite (rsum_ext nt _ s) by (intros; ring); exact SC|].
    destruct (Nat.eqb_spec i nt) as [-> | N]; [rewrite (rsum_ext nt _ s) by (intros; ring); exact SC|].
    set (k := (i - (nt + 1))%nat). assert (k < nx)%nat as Hk by (unfold k; lia).
    (* sum_i s_i xt_i = Q^T (sum_i s_i (xt'_i - t)) *)
    assert (Z : forall m, (m < nx)%nat -> rsum nx (fun l => Q m l * rsum nt (fun j => xt j l * s j)) = 0).
    { intros m Hm. pose proof (side_linear nx nt Linear d0 xt' reg yt s m eq_refl Hm S) as SL. cbv beta in SL. unfold place in SL.
      rewrite (rsum_ext nt _ (fun i => rsum nx (fun l => Q m l * (xt i l * s i)) + t m * s i)) in SL
        by (intros; rewrite Rmult_plus_distr_l, <- rsum_scal_l; f_equal; [apply rsum_ext; intros; ring|ring]).
      rewrite rsum_plus, rsum_scal_l, SC, rsum_swap in SL. rewrite (rsum_ext nx _ (fun l => Q m l * rsum nt (fun j => xt j l * s j))) in SL by (intros; rewrite rsum_scal_l; reflexivity). lra. }
    rewrite <- (inv_mul_o nx Q (fun l => rsum nt (fun j => xt j l * s j)) k HQ Hk). apply rsum_zero. intros m Hm. rewrite (Z m Hm). ring.
Qed.
Lemma backr_eq yt sol sol' : solves yt sol -> solves' yt sol' -> forall i, (i < num_dof nx nt deg)%nat -> sol i = backr sol' i.
Proof. intros S S'. apply (unique nx nt deg d0 xt reg yt); auto. apply solves_backr. exact S'. Qed.
(** the derivative, split like the value *)
Lemma der_split s e (x' : vec) (xs : nat -> vec) kx : (kx < nx)%nat -> rbf_derivative nx nt deg (fun _ => e) xs s kx x' =
  rsum nt (fun j => - gauss nx (fun k => / e ^ 2) x' (xs j) * (2 * (x' kx - xs j kx) / e ^ 2) * s j) + match deg with Linear => s (nt + 1 + kx)%nat | _ => 0 end.
Proof.
  intros Hk. unfold rbf_derivative, dot, num_dof. rewrite rsum_app. f_equal.
  - apply rsum_ext. intros j Hj. unfold rbf_djac, gauss. apply Nat.ltb_lt in Hj. rewrite Hj. cbv zeta. do 5 f_equal. apply rsum_ext. intros k _. unfold Rdiv. rewrite Rpow_mult_distr, pow_inv. ring.
  - unfold rbf_djac. rewrite (rsum_ext _ _ (fun a => match deg with Linear => if Nat.eqb a (1 + kx) then s (nt + a)%nat else 0 | _ => 0 end)).
    + unfold num_poly. destruct deg; [reflexivity|cbn; ring|]. rewrite (rsum_single _ (fun a => s (nt + a)%nat) (1 + kx)%nat) by lia. f_equal. lia.
    + intros a Ha. replace (Nat.ltb (nt + a) nt) with false by (symmetry; apply Nat.ltb_ge; lia). destruct deg; [ring|ring|].
      destruct (Nat.eqb_spec a (1 + kx)) as [-> | N].
      * replace (Nat.eqb (nt + (1 + kx)) (nt + 1 + kx)) with true by (symmetry; apply Nat.eqb_eq; lia). ring.
      * replace (Nat.eqb (nt + a) (nt + 1 + kx)) with false by (symmetry; apply Nat.eqb_neq; lia). ring.
Qed.
Lemma rbf_rot yt sol sol' : solves yt sol -> solves' yt sol' ->
  forall x, val' sol' (pl x) = val sol x /\ forall j, (j < nx)%nat -> rsum nx (fun k => Q k j * rbf_derivative nx nt deg d0 xt' sol' k (pl x)) = rbf_derivative nx nt deg d0 xt sol j x.
Proof.
  intros S S' x. pose proof (backr_eq yt sol sol' S S') as B. split.
  - rewrite <- val_backr. unfold rbf_value. apply dot_ext; [reflexivity|]. intros i Hi. symmetry. apply B. exact Hi.
  - intros j Hj. transitivity (rbf_derivative nx nt deg d0 xt (backr sol') j x).
    2:{ unfold rbf_derivative. apply dot_ext; [reflexivity|]. intros i Hi. symmetry. apply B. exact Hi. }
    rewrite (der_split (backr sol') c x xt j Hj).
    rewrite (rsum_ext nx _ (fun k => rsum nt (fun i => Q k j * (- gauss nx (fun k => / c ^ 2) x (xt i) * (2 * (pl x k - pl (xt i) k) / c ^ 2) * sol' i))
      + match deg with Linear => sol' (nt + 1 + k)%nat * Q k j | _ => 0 end)).
    2:{ intros k Hk. rewrite (der_split sol' c (pl x) xt' k Hk), Rmult_plus_distr_l, <- rsum_scal_l. f_equal; [|destruct deg; ring].
        apply rsum_ext. intros i Hi. rewrite <- (gauss_rot x i). reflexivity. }
    rewrite rsum_plus. f_equal.
    + rewrite rsum_swap. apply rsum_ext. intros i Hi. rewrite (backr_low sol' i Hi).
      rewrite <- (inv_mul_o nx Q (fun l => x l - xt i l) j HQ Hj). unfold Rdiv.
      rewrite (rsum_ext nx _ (fun k => (- gauss nx (fun _ : nat => / c ^ 2) x (xt i) * 2 * / c ^ 2 * sol' i) * (Q k j * rsum nx (fun l => Q k l * (x l - xt i l))))).
      * rewrite rsum_scal_l. ring.
      * intros k Hk. rewrite place_diff. ring.
    + destruct deg eqn:D; [apply rsum_0 || (apply rsum_zero; reflexivity)|apply rsum_0 || (apply rsum_zero; reflexivity)|]. symmetry. apply backr_trend. exact D.
Qed.
End Rbf.
(** with different length scales per input, turning the axes changes the predictions *)
Definition quarter : mat := fun i j => if andb (Nat.eqb i 0) (Nat.eqb j 1) then -1 else if andb (Nat.eqb i 1) (Nat.eqb j 0) then 1 else 0.
Lemma quarter_ortho : orthonormal 2 quarter.
Proof. intros i j Hi Hj. destruct i as [|[|i]], j as [|[|j]]; try lia; unfold quarter; cbn; ring. Qed.
Lemma rbf_scales_wrong : exists d0 sol, (forall k, (k < 2)%nat -> d0 k <> 0) /\ rbf_solves 2 1 NoPoly d0 (fun _ _ => 0) 0 (fun _ => 1) sol /\
  rbf_solves 2 1 NoPoly d0 (fun _ => place 2 quarter (fun _ => 0) (fun _ => 0)) 0 (fun _ => 1) sol /\
  rbf_value 2 1 NoPoly d0 (fun _ => place 2 quarter (fun _ => 0) (fun _ => 0)) sol (place 2 quarter (fun _ => 0) (fun k => if Nat.eqb k 0 then 1 else 0)) <>
  rbf_value 2 1 NoPoly d0 (fun _ _ => 0) sol (fun k => if Nat.eqb k 0 then 1 else 0).
Proof.
  exists (fun k => if Nat.eqb k 0 then 1 else 2), (fun _ => 1). split; [intros k _; destruct (Nat.eqb k 0); lra|].
  split; [|split].
  - intros i Hi. assert (i = 0%nat) by (cbn in Hi; lia). subst i. unfold mv, rbf_rhs, num_dof, rbf_mtx, rbf_jac, rbf_radial. cbn.
    match goal with |- context [exp ?e] => replace e with 0 by field end. rewrite exp_0. ring.
  - intros i Hi. assert (i = 0%nat) by (cbn in Hi; lia). subst i. unfold mv, rbf_rhs, num_dof, rbf_mtx, rbf_jac, rbf_radial, place. cbn.
    match goal with |- context [exp ?e] => replace e with 0 by field end. rewrite exp_0. ring.
  - unfold rbf_value, dot, num_dof, rbf_jac, rbf_radial, place, quarter. cbn.
    match goal with |- 0 + exp ?a * 1 <> 0 + exp ?b * 1 => replace a with (- (1 / 4)) by field; replace b with (- (1)) by field end.
    intros E. pose proof (exp_increasing (- (1)) (- (1/4)) ltac:(lra)). lra.
Qed.
