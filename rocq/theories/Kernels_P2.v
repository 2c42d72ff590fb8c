From Coq Require Import Reals Arith Bool List Lia Lra.
From Coquelicot Require Import Coquelicot.
From Verif Require Import RSum Mat Psd Psd2 Matern Kernels_M Kernels_P Idw_P2 Rbf_P Poly_P.
Import ListNotations.
Open Scope R_scope.

Definition den (c : corr) (dg t : R) : R :=
  match c with Matern52 => 1 + sqrt 5 * t * dg + 5 / 3 * t ^ 2 * dg ^ 2 | Matern32 => 1 + sqrt 3 * t * dg | _ => 1 end.
Definition Gf (c : corr) (dg t : R) : R :=
  match c with
  | Matern52 => (sqrt 5 * dg + 10 / 3 * t * dg ^ 2) / (1 + sqrt 5 * t * dg + 5 / 3 * t ^ 2 * dg ^ 2) - sqrt 5 * dg
  | Matern32 => (1 / (1 + sqrt 3 * t * dg) - 1) * sqrt 3 * dg
  | _ => - dg
  end.
Definition dGf (c : corr) (dg t : R) : R :=
  match c with
  | Matern52 => let f2 := 1 + sqrt 5 * t * dg + 5 / 3 * t ^ 2 * dg ^ 2 in let f1 := sqrt 5 * dg + 10 / 3 * t * dg ^ 2 in (10 / 3 * dg ^ 2 * f2 - f1 ^ 2) / f2 ^ 2
  | Matern32 => - ((3 * dg ^ 2) / (1 + sqrt 3 * t * dg) ^ 2)
  | _ => 0
  end.
Lemma den_pos c dg t : 0 <= dg -> 0 <= t -> 0 < den c dg t.
Proof.
  intros H1 H2. pose proof sqrt3_pos. pose proof sqrt5_pos. assert (0 <= t * dg) by nra. destruct c; cbn [den]; try lra.
  - replace (5 / 3 * t ^ 2 * dg ^ 2) with (5 / 3 * ((t * dg) * (t * dg))) by ring. rewrite Rmult_assoc. nra.
  - rewrite Rmult_assoc. nra.
Qed.
Lemma kap_derive c dg t : den c dg t <> 0 -> is_derive (fun t : R => kap c (t * dg)) t (Gf c dg t * kap c (t * dg)).
Proof.
  intros H. destruct c; cbn [kap Gf den] in *.
  - auto_derive; [exact I|]. ring.
  - auto_derive; [exact I|]. ring.
  - auto_derive; [exact I|]. ring.
  - pose proof sqrt5_sq as Q. set (s := sqrt 5) in *. clearbody s. auto_derive; [exact I|].
    replace (1 + s * (t * dg) + 5 / 3 * (t * dg) ^ 2) with (1 + s * t * dg + 5 / 3 * t ^ 2 * dg ^ 2) by ring. set (e := exp _). field. intros Z. apply H. lra.
  - pose proof sqrt3_sq as Q. set (s := sqrt 3) in *. clearbody s. auto_derive; [exact I|].
    set (e := exp _). field. exact H.
Qed.
Lemma Gf_derive c dg t : den c dg t <> 0 -> is_derive (fun t : R => Gf c dg t) t (dGf c dg t).
Proof.
  intros H. destruct c; cbn [Gf den dGf] in *; try apply derive_cst.
  - set (s := sqrt 5) in *. clearbody s. auto_derive; [repeat split; exact H|]. field. intros Z. apply H. lra.
  - pose proof sqrt3_sq as Q. set (s := sqrt 3) in *. clearbody s. auto_derive; [repeat split; exact H|].
    rewrite <- Q. field. exact H.
Qed.
(** value, gradient and Hessian of the product kernels in terms of the logarithmic derivative *)
Lemma kernel_grad_eq c nc ns theta d g : c <> ActExp -> kernel c nc ns theta d (Some g) None = Gf c (d g) (theta g) * kernel c nc ns theta d None None.
Proof.
  intros N. destruct c; try congruence; cbn [kernel Gf]; unfold k_exp, k_m52, k_m32, m52_fact1, m52_fact2, m52_fact3, m32_fact; try ring.
Qed.
Lemma kernel_hess_eq c nc ns theta d g h : c <> ActExp -> kernel c nc ns theta d (Some g) (Some h) =
  (Gf c (d g) (theta g) * Gf c (d h) (theta h) + (if Nat.eqb g h then dGf c (d h) (theta h) else 0)) * kernel c nc ns theta d None None.
Proof.
  intros N. destruct c; try congruence; cbn [kernel Gf dGf]; unfold k_exp, k_m52, k_m32, m52_fact1, m52_fact2, m52_fact3, m32_fact; try rewrite (Nat.eqb_sym h g); destruct (Nat.eqb g h); try ring.
Qed.
Lemma kernel_partial c nc ns theta d g : c <> ActExp -> (g < nc)%nat -> den c (d g) (theta g) <> 0 ->
  is_partial (fun th => kernel c nc ns th d None None) theta g (Gf c (d g) (theta g) * kernel c nc ns theta d None None).
Proof.
  intros N Hg Hd. unfold is_partial.
  apply (is_derive_ext (fun t => rprod nc (fun j => kap c (upd theta g t j * d j)))); [intros t; rewrite kernel_prod by exact N; reflexivity|].
  rewrite kernel_prod by exact N. rewrite (rprod_split nc _ g Hg), <- Rmult_assoc.
  replace (rprod nc (fun i => if Nat.eqb i g then 1 else kap c (theta i * d i))) with (rprod nc (fun i => if Nat.eqb i g then 1 else kap c (upd theta g (theta g) i * d i))) by (apply rprod_ext; intros i Hi; rewrite upd_same; reflexivity).
  apply (is_derive_rprod_one nc (fun j t => kap c (upd theta g t j * d j)) g _ (theta g) Hg).
  - intros i Hi Ni t. rewrite !upd_neq by exact Ni. reflexivity.
  - apply (is_derive_ext (fun t : R => kap c (t * d g))); [intros t; rewrite upd_eq; reflexivity|]. apply kap_derive. exact Hd.
Qed.
Lemma grad_ok c nc ns theta d g : c <> ActExp -> (g < nc)%nat -> (forall j, (j < nc)%nat -> 0 <= d j /\ 0 <= theta j) ->
  is_partial (fun th => kernel c nc ns th d None None) theta g (kernel c nc ns theta d (Some g) None).
Proof.
  intros N Hg H. rewrite kernel_grad_eq by exact N. apply kernel_partial; try assumption. apply Rgt_not_eq, den_pos; apply H; exact Hg.
Qed.
Lemma hess_ok c nc ns theta d g h : c <> ActExp -> (g < nc)%nat -> (h < nc)%nat -> (forall j, (j < nc)%nat -> 0 <= d j /\ 0 <= theta j) ->
  is_partial (fun th => kernel c nc ns th d (Some g) None) theta h (kernel c nc ns theta d (Some g) (Some h)).
Proof.
  intros N Hg Hh H. rewrite kernel_hess_eq by exact N. unfold is_partial.
  apply (is_derive_ext (fun t => Gf c (d g) (upd theta h t g) * kernel c nc ns (upd theta h t) d None None)); [intros t; rewrite kernel_grad_eq by exact N; reflexivity|].
  assert (Dg : den c (d g) (theta g) <> 0) by (apply Rgt_not_eq, den_pos; apply H; exact Hg).
  assert (Dh : den c (d h) (theta h) <> 0) by (apply Rgt_not_eq, den_pos; apply H; exact Hh).
  pose proof (kernel_partial c nc ns theta d h N Hh Dh) as K. unfold is_partial in K.
  assert (G : is_derive (fun t => Gf c (d g) (upd theta h t g)) (theta h) (if Nat.eqb g h then dGf c (d h) (theta h) else 0)).
  { destruct (Nat.eqb_spec g h) as [-> | Ngh].
    - apply (is_derive_ext (fun t : R => Gf c (d h) t)); [intros t; rewrite upd_eq; reflexivity|]. apply Gf_derive. exact Dh.
    - apply (is_derive_ext (fun t : R => Gf c (d g) (theta g))); [intros t; rewrite upd_neq by congruence; reflexivity|]. apply derive_cst. }
  pose proof (derive_mul _ _ (theta h) _ _ G K) as M.
  assert (U : kernel c nc ns (upd theta h (theta h)) d None None = kernel c nc ns theta d None None).
  { rewrite !kernel_prod by exact N. apply rprod_ext. intros j Hj. rewrite upd_same. reflexivity. }
  cbn beta in M. rewrite U, upd_same in M.
  match type of M with is_derive _ _ ?v => replace ((Gf c (d g) (theta g) * Gf c (d h) (theta h) + (if Nat.eqb g h then dGf c (d h) (theta h) else 0)) * kernel c nc ns theta d None None) with v by (set (q := if Nat.eqb g h then _ else _); ring) end. exact M.
Qed.
(** act_exp *)
Lemma dA_partial nc theta d s g : (0 < nc)%nat ->
  is_partial (fun th => act_dA nc th d s) theta g (if Nat.eqb (g / nc) s then d (g mod nc)%nat else 0).
Proof.
  intros Hn. unfold is_partial, act_dA.
  assert (E : (if Nat.eqb (g / nc) s then d (g mod nc)%nat else 0) = rsum nc (fun j => d j * (if Nat.eqb (s * nc + j) g then 1 else 0))).
  { assert (DM := Nat.div_mod g nc ltac:(lia)). assert (ML := Nat.mod_upper_bound g nc ltac:(lia)). destruct (Nat.eqb_spec (g / nc) s) as [E|NE].
    - rewrite (rsum_ext nc _ (fun j => if Nat.eqb j (g mod nc) then d j else 0)); [rewrite (rsum_single nc d (g mod nc) ML); reflexivity|].
      intros j Hj. destruct (Nat.eqb_spec (s * nc + j) g); destruct (Nat.eqb_spec j (g mod nc)); try ring; nia.
    - symmetry. apply rsum_zero. intros j Hj. destruct (Nat.eqb_spec (s * nc + j) g) as [E|]; [|ring]. exfalso. apply NE. symmetry. apply (Nat.div_unique g nc s j Hj). lia. }
  rewrite E. apply (is_derive_rsum nc (fun j t => d j * upd theta g t (s * nc + j)%nat)). intros j Hj. apply is_derive_scal. apply derive_x.
Qed.
Lemma act_grad_ok nc ns theta d g : (g < nc * ns)%nat ->
  is_partial (fun th => k_act nc ns th d None None) theta g (k_act nc ns theta d (Some g) None).
Proof.
  intros Hg. assert (Hn : (0 < nc)%nat) by nia. assert (Hs : (g / nc < ns)%nat) by (apply Nat.div_lt_upper_bound; lia).
  unfold is_partial, k_act.
  assert (Q : is_derive (fun t => - (1 / 2) * rsum ns (fun s => act_dA nc (upd theta g t) d s ^ 2)) (theta g) (- d (g mod nc)%nat * act_dA nc theta d (g / nc))).
  { replace (- d (g mod nc)%nat * act_dA nc theta d (g / nc)) with (- (1 / 2) * rsum ns (fun s => if Nat.eqb s (g / nc) then 2 * (d (g mod nc)%nat * act_dA nc theta d s) else 0)).
    2:{ rewrite (rsum_single ns (fun s => 2 * (d (g mod nc)%nat * act_dA nc theta d s)) (g / nc)%nat Hs). field. }
    apply (is_derive_scal (fun t => rsum ns (fun s => act_dA nc (upd theta g t) d s ^ 2))).
    apply (is_derive_rsum ns (fun s t => act_dA nc (upd theta g t) d s ^ 2)). intros s Hs'.
    apply (is_derive_ext (fun t => act_dA nc (upd theta g t) d s * act_dA nc (upd theta g t) d s)); [intros t; match goal with |- ?a = ?b => change (@eq R a b) end; ring|].
    pose proof (dA_partial nc theta d s g Hn) as P. unfold is_partial in P.
    pose proof (derive_mul _ _ _ _ _ P P) as M. cbn beta in M.
    assert (U : act_dA nc (upd theta g (theta g)) d s = act_dA nc theta d s) by (unfold act_dA; apply rsum_ext; intros; rewrite upd_same; reflexivity). rewrite U in M.
    match type of M with is_derive _ _ ?v => replace (if Nat.eqb s (g / nc) then 2 * (d (g mod nc)%nat * act_dA nc theta d s) else 0) with v end; [exact M|].
    rewrite (Nat.eqb_sym s). destruct (Nat.eqb (g / nc) s); ring. }
  pose proof (is_derive_comp exp _ (theta g) _ _ (is_derive_exp _) Q) as C. cbn beta in C.
  assert (U : rsum ns (fun s => act_dA nc (upd theta g (theta g)) d s ^ 2) = rsum ns (fun s => act_dA nc theta d s ^ 2)).
  { apply rsum_ext. intros s _. f_equal. unfold act_dA. apply rsum_ext. intros. rewrite upd_same. reflexivity. }
  rewrite U in C. exact C.
Qed.
Lemma act_hess_ok nc ns theta d g h : (g < nc * ns)%nat -> (h < nc * ns)%nat ->
  is_partial (fun th => k_act nc ns th d (Some g) None) theta h (k_act nc ns theta d (Some g) (Some h)).
Proof.
  intros Hg Hh. assert (Hn : (0 < nc)%nat) by nia. unfold is_partial.
  pose proof (act_grad_ok nc ns theta d h Hh) as K. unfold is_partial in K.
  pose proof (dA_partial nc theta d (g / nc)%nat h Hn) as P. unfold is_partial in P.
  pose proof (derive_mul _ _ _ _ _ P K) as M. cbn beta in M.
  pose proof (is_derive_scal _ _ (- d (g mod nc)%nat) _ M) as S. cbn beta in S.
  apply (is_derive_ext (fun t => - d (g mod nc)%nat * (act_dA nc (upd theta h t) d (g / nc) * k_act nc ns (upd theta h t) d None None))).
  - intros t. unfold k_act. match goal with |- ?a = ?b => change (@eq R a b) end. ring.
  - assert (U : forall s, act_dA nc (upd theta h (theta h)) d s = act_dA nc theta d s) by (intros s; unfold act_dA; apply rsum_ext; intros; rewrite upd_same; reflexivity).
    assert (U2 : k_act nc ns (upd theta h (theta h)) d None None = k_act nc ns theta d None None) by (unfold k_act; do 2 f_equal; apply rsum_ext; intros; rewrite U; reflexivity).
    rewrite U, U2 in S. match type of S with is_derive _ _ ?v => replace (k_act nc ns theta d (Some g) (Some h)) with v end; [exact S|].
    unfold k_act. destruct (Nat.eqb (h / nc) (g / nc)); ring.
Qed.
(** with respect to the point *)
Lemma der_abs (D : vec) k : D k = der D k * Rabs (D k).
Proof. unfold der. destruct (Rlt_dec (D k) 0); [rewrite Rabs_left by assumption|rewrite Rabs_right by lra]; ring. Qed.
Lemma derive_zero_quad (f : R -> R) x C : (forall t, Rabs (f t - f x) <= C * (t - x) ^ 2) -> is_derive f x 0.
Proof.
  intros H. apply (derive_zero_of_bound f x C 1); [lra|]. apply filter_forall. intros t N. rewrite Rpower_1 by (apply Rabs_pos_lt; lra).
  replace (Rabs (t - x) * Rabs (t - x)) with ((t - x) ^ 2); [apply H|]. rewrite <- (pow2_abs (t - x)). ring.
Qed.
Lemma kap_quad c z : (c = Matern52 \/ c = Matern32) -> 0 <= z -> Rabs (kap c z - 1) <= 5 * z ^ 2.
Proof.
  intros Hc Hz. pose proof (kap_bounds c z Hz) as [_ U]. rewrite Rabs_minus_sym, Rabs_right by lra.
  pose proof sqrt3_pos. pose proof sqrt5_pos. pose proof sqrt3_sq as Q3. pose proof sqrt5_sq as Q5.
  destruct Hc as [-> | ->]; cbn [kap] in *.
  - set (s := sqrt 5) in *. pose proof (exp_ineq1_le (- s * z)) as E. assert (0 <= s * z) by nra. assert (0 <= 5 / 3 * z ^ 2) by nra. set (e := exp (- s * z)) in *.
    assert (e > 0) by apply exp_pos. assert ((1 + s * z) * e >= (1 + s * z) * (1 + - s * z)) by nra. assert ((s * z) * (s * z) = 5 * z ^ 2) by (replace (s * z * (s * z)) with ((s * s) * z ^ 2) by ring; rewrite Q5; ring). nra.
  - set (s := sqrt 3) in *. pose proof (exp_ineq1_le (- s * z)) as E. assert (0 <= s * z) by nra. set (e := exp (- s * z)) in *.
    assert ((1 + s * z) * e >= (1 + s * z) * (1 + - s * z)) by nra. assert ((s * z) * (s * z) = 3 * z ^ 2) by (replace (s * z * (s * z)) with ((s * s) * z ^ 2) by ring; rewrite Q3; ring). assert (0 <= z ^ 2) by apply pow2_ge_0. nra.
Qed.
(** derivative of t |-> kap c (th * dist(t - y)) *)
Definition fac1 (c : corr) (th y t : R) : R := kap c (th * comp_dist c (fun _ => t - y) 0%nat).
Definition dfac1 (c : corr) (th y t : R) : R :=
  let D := t - y in let dr := if Rlt_dec D 0 then -1 else 1 in
  match c with
  | SquarExp => - (fac1 c th y t * (2 * (th * D)))
  | Matern52 => - sqrt 5 * th * dr * fac1 c th y t + exp (- sqrt 5 * (Rabs D * th)) * (sqrt 5 * th * dr + 2 * (5 / 3) * dr * Rabs D * th ^ 2)
  | Matern32 => - sqrt 3 * th * dr * fac1 c th y t + exp (- sqrt 3 * (Rabs D * th)) * (sqrt 3 * th * dr)
  | _ => - (fac1 c th y t * (th * dr))
  end.
Lemma fac1_derive c th y t : c <> ActExp -> 0 <= th -> (c = AbsExp -> t <> y) -> is_derive (fac1 c th y) t (dfac1 c th y t).
Proof.
  intros N Hth Hne. unfold dfac1, fac1, comp_dist. cbv zeta. destruct c; try congruence.
  - specialize (Hne eq_refl). cbn [kap]. destruct (Rlt_dec (t - y) 0) as [L|L].
    + apply (is_derive_ext_loc (fun t : R => exp (- (th * - (t - y))))).
      * pose proof (open_lt y t ltac:(lra)) as O. refine (filter_imp _ _ _ O). intros s Hs. rewrite Rabs_left by lra. reflexivity.
      * rewrite (Rabs_left (t - y)) by lra. auto_derive; [exact I|]. unfold Rminus. ring.
    + apply (is_derive_ext_loc (fun t : R => exp (- (th * (t - y))))).
      * pose proof (open_gt y t ltac:(lra)) as O. refine (filter_imp _ _ _ O). intros s Hs. rewrite Rabs_right by lra. reflexivity.
      * rewrite (Rabs_right (t - y)) by lra. auto_derive; [exact I|]. unfold Rminus. ring.
  - cbn [kap]. auto_derive; [exact I|]. unfold Rminus. cbn [pow]. ring.
  - destruct (Rtotal_order t y) as [L|[E|G]].
    + destruct (Rlt_dec (t - y) 0) as [_|C]; [|lra]. cbn [kap]. apply (is_derive_ext_loc (fun t : R => (1 + sqrt 5 * (th * - (t - y)) + 5 / 3 * (th * - (t - y)) ^ 2) * exp (- sqrt 5 * (th * - (t - y))))).
      * pose proof (open_lt y t ltac:(lra)) as O. refine (filter_imp _ _ _ O). intros s Hs. rewrite Rabs_left by lra. reflexivity.
      * rewrite (Rabs_left (t - y)) by lra. set (s := sqrt 5). clearbody s. auto_derive; [exact I|]. replace (- s * (- (t - y) * th)) with (- s * (th * - (t - y))) by ring.
        replace (exp (- s * (th * - (t + - y)))) with (exp (- s * (th * - (t - y)))) by (f_equal; ring). field.
    + subst y. destruct (Rlt_dec (t - t) 0) as [C|_]; [lra|]. replace (t - t) with 0 by ring. rewrite Rabs_R0, Rmult_0_r, kap_0. rewrite !Rmult_0_l, Rmult_0_r, exp_0.
      replace (- sqrt 5 * th * 1 * 1 + 1 * (sqrt 5 * th * 1 + 2 * (5 / 3) * 1 * 0 * th ^ 2)) with 0 by ring.
      apply (derive_zero_quad (fun t0 => kap Matern52 (th * Rabs (t0 - t))) t (5 * th ^ 2)). intros s. rewrite Rminus_eq_0, Rabs_R0, Rmult_0_r, kap_0.
      eapply Rle_trans; [apply kap_quad; [left; reflexivity|apply Rmult_le_pos; [exact Hth|apply Rabs_pos]]|]. rewrite Rpow_mult_distr, pow2_abs. right. ring.
    + destruct (Rlt_dec (t - y) 0) as [C|_]; [lra|]. cbn [kap]. apply (is_derive_ext_loc (fun t : R => (1 + sqrt 5 * (th * (t - y)) + 5 / 3 * (th * (t - y)) ^ 2) * exp (- sqrt 5 * (th * (t - y))))).
      * pose proof (open_gt y t ltac:(lra)) as O. refine (filter_imp _ _ _ O). intros s Hs. rewrite Rabs_right by lra. reflexivity.
      * rewrite (Rabs_right (t - y)) by lra. set (s := sqrt 5). clearbody s. auto_derive; [exact I|]. replace (- s * ((t - y) * th)) with (- s * (th * (t - y))) by ring.
        replace (exp (- s * (th * (t + - y)))) with (exp (- s * (th * (t - y)))) by (f_equal; ring). field.
  - destruct (Rtotal_order t y) as [L|[E|G]].
    + destruct (Rlt_dec (t - y) 0) as [_|C]; [|lra]. cbn [kap]. apply (is_derive_ext_loc (fun t : R => (1 + sqrt 3 * (th * - (t - y))) * exp (- sqrt 3 * (th * - (t - y))))).
      * pose proof (open_lt y t ltac:(lra)) as O. refine (filter_imp _ _ _ O). intros s Hs. rewrite Rabs_left by lra. reflexivity.
      * rewrite (Rabs_left (t - y)) by lra. set (s := sqrt 3). clearbody s. auto_derive; [exact I|]. replace (- s * (- (t - y) * th)) with (- s * (th * - (t - y))) by ring.
        replace (exp (- s * (th * - (t + - y)))) with (exp (- s * (th * - (t - y)))) by (f_equal; ring). ring.
    + subst y. destruct (Rlt_dec (t - t) 0) as [C|_]; [lra|]. replace (t - t) with 0 by ring. rewrite Rabs_R0, Rmult_0_r, kap_0. rewrite !Rmult_0_l, Rmult_0_r, exp_0.
      replace (- sqrt 3 * th * 1 * 1 + 1 * (sqrt 3 * th * 1)) with 0 by ring.
      apply (derive_zero_quad (fun t0 => kap Matern32 (th * Rabs (t0 - t))) t (5 * th ^ 2)). intros s. rewrite Rminus_eq_0, Rabs_R0, Rmult_0_r, kap_0.
      eapply Rle_trans; [apply kap_quad; [right; reflexivity|apply Rmult_le_pos; [exact Hth|apply Rabs_pos]]|]. rewrite Rpow_mult_distr, pow2_abs. right. ring.
    + destruct (Rlt_dec (t - y) 0) as [C|_]; [lra|]. cbn [kap]. apply (is_derive_ext_loc (fun t : R => (1 + sqrt 3 * (th * (t - y))) * exp (- sqrt 3 * (th * (t - y))))).
      * pose proof (open_gt y t ltac:(lra)) as O. refine (filter_imp _ _ _ O). intros s Hs. rewrite Rabs_right by lra. reflexivity.
      * rewrite (Rabs_right (t - y)) by lra. set (s := sqrt 3). clearbody s. auto_derive; [exact I|]. replace (- s * ((t - y) * th)) with (- s * (th * (t - y))) by ring.
        replace (exp (- s * (th * (t + - y)))) with (exp (- s * (th * (t - y)))) by (f_equal; ring). ring.
Qed.
Lemma corr_fac c nc ns theta x y : c <> ActExp -> corr_of c nc ns theta x y = rprod nc (fun j => fac1 c (theta j) (y j) (x j)).
Proof. intros N. rewrite corr_prod by exact N. apply rprod_ext. intros j Hj. unfold fac1. destruct c; reflexivity. Qed.
Lemma kernel_dx_eq c nc ns theta x y k : c <> ActExp -> (k < nc)%nat ->
  kernel_dx c nc theta (fun j => x j - y j) (corr_of c nc ns theta x y) k = Some (dfac1 c (theta k) (y k) (x k) * rprod nc (fun j => if Nat.eqb j k then 1 else fac1 c (theta j) (y j) (x j))).
Proof.
  intros N Hk. rewrite (corr_fac c) by exact N. rewrite (rprod_split nc _ k Hk). set (P := rprod nc (fun j => if Nat.eqb j k then 1 else fac1 c (theta j) (y j) (x j))).
  destruct c; try congruence; unfold kernel_dx; cbn [comp_dist_dx]; unfold dfac1, der; cbv zeta; f_equal.
  - ring.
  - ring.
  - set (s := sqrt 5). set (dr := if Rlt_dec (x k - y k) 0 then -1 else 1). set (th := theta k).
    assert (E : exp (- s * rsum nc (fun j => Rabs (x j - y j) * theta j)) * rprod nc (fun l => if Nat.eqb l k then 1 else 1 + s * Rabs (x l - y l) * theta l + 5 / 3 * (x l - y l) ^ 2 * theta l ^ 2) = exp (- s * (Rabs (x k - y k) * th)) * P).
    { rewrite <- rsum_scal_l, <- rprod_exp. rewrite (rprod_split nc (fun i => exp (- s * (Rabs (x i - y i) * theta i))) k Hk). rewrite Rmult_assoc. f_equal. unfold P. rewrite <- rprod_mult. apply rprod_ext. intros j Hj.
      destruct (Nat.eqb j k); [ring|]. unfold fac1, comp_dist. cbn [kap]. fold s. rewrite Rmult_comm. f_equal; [|f_equal; ring]. rewrite <- (pow2_abs (x j - y j)). ring. }
    match goal with |- _ + ?A * (?B * ?C) = _ => transitivity (- s * th * dr * (fac1 Matern52 th (y k) (x k) * P) + (A * C) * B); [ring|] end. rewrite E. ring.
  - set (s := sqrt 3). set (dr := if Rlt_dec (x k - y k) 0 then -1 else 1). set (th := theta k).
    assert (E : exp (- s * rsum nc (fun j => Rabs (x j - y j) * theta j)) * rprod nc (fun l => if Nat.eqb l k then 1 else 1 + s * Rabs (x l - y l) * theta l) = exp (- s * (Rabs (x k - y k) * th)) * P).
    { rewrite <- rsum_scal_l, <- rprod_exp. rewrite (rprod_split nc (fun i => exp (- s * (Rabs (x i - y i) * theta i))) k Hk). rewrite Rmult_assoc. f_equal. unfold P. rewrite <- rprod_mult. apply rprod_ext. intros j Hj.
      destruct (Nat.eqb j k); [ring|]. unfold fac1, comp_dist. cbn [kap]. fold s. rewrite Rmult_comm. f_equal; [|f_equal; ring]. ring. }
    match goal with |- _ + ?A * (?B * ?C) = _ => transitivity (- s * th * dr * (fac1 Matern32 th (y k) (x k) * P) + (A * C) * B); [ring|] end. rewrite E. ring.
Qed.
Lemma dx_ok c nc ns theta x y k : c <> ActExp -> (k < nc)%nat -> (forall j, (j < nc)%nat -> 0 <= theta j) -> (c = AbsExp -> x k <> y k) ->
  exists v, kernel_dx c nc theta (fun j => x j - y j) (corr_of c nc ns theta x y) k = Some v /\ is_partial (fun x => corr_of c nc ns theta x y) x k v.
Proof.
  intros N Hk Ht Hne. exists (dfac1 c (theta k) (y k) (x k) * rprod nc (fun j => if Nat.eqb j k then 1 else fac1 c (theta j) (y j) (x j))). split; [apply kernel_dx_eq; assumption|].
  unfold is_partial. apply (is_derive_ext (fun t => rprod nc (fun j => fac1 c (theta j) (y j) (upd x k t j)))); [intros t; rewrite corr_fac by exact N; reflexivity|].
  replace (rprod nc (fun j => if Nat.eqb j k then 1 else fac1 c (theta j) (y j) (x j))) with (rprod nc (fun j => if Nat.eqb j k then 1 else fac1 c (theta j) (y j) (upd x k (x k) j))) by (apply rprod_ext; intros j Hj; rewrite upd_same; reflexivity).
  apply (is_derive_rprod_one nc (fun j t => fac1 c (theta j) (y j) (upd x k t j)) k _ (x k) Hk).
  - intros i Hi Ni t. rewrite !upd_neq by exact Ni. reflexivity.
  - apply (is_derive_ext (fun t : R => fac1 c (theta k) (y k) t)); [intros t; rewrite upd_eq; reflexivity|]. apply fac1_derive; [exact N|apply Ht; exact Hk|exact Hne].
Qed.
(** PLS kernels *)
Lemma pls_dx_ok c nx ncomp co theta x y k : (c = AbsExp \/ c = SquarExp) -> (k < nx)%nat -> (forall l, (l < ncomp)%nat -> 0 <= theta l) -> (c = AbsExp -> x k <> y k) ->
  is_partial (fun x => corr_of_pls c nx ncomp co theta x y) x k (- (corr_of_pls c nx ncomp co theta x y * comp_dist_pls_dx c ncomp co theta (fun j => x j - y j) k)).
Proof.
  intros Hc Hk Ht Hne. set (th := fun j => rsum ncomp (fun l => theta l * (match c with SquarExp => co j l ^ 2 | _ => Rabs (co j l) end))).
  assert (N : c <> ActExp) by (destruct Hc; congruence).
  destruct (dx_ok c nx 0 th x y k N Hk) as (v & E & P).
  - intros j Hj. unfold th. apply rsum_nonneg. intros l Hl. apply Rmult_le_pos; [apply Ht; exact Hl|]. destruct c; try apply Rabs_pos. apply pow2_ge_0.
  - exact Hne.
  - unfold is_partial in *. apply (is_derive_ext (fun t => corr_of c nx 0 th (upd x k t) y)); [intros t; symmetry; apply pls_corr; exact Hc|].
    replace (- (corr_of_pls c nx ncomp co theta x y * comp_dist_pls_dx c ncomp co theta (fun j => x j - y j) k)) with v; [exact P|].
    rewrite (pls_corr c) by exact Hc. fold th. destruct Hc as [-> | ->]; cbn [kernel_dx comp_dist_dx] in E; apply (f_equal (fun o => match o with Some v => v | None => 0 end)) in E; cbn beta iota in E; rewrite <- E; unfold comp_dist_pls_dx. 
    + unfold th; cbn beta iota; ring.
    + unfold th; cbn beta iota; ring.
Qed.
