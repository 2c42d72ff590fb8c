From Coq Require Import Reals Arith Bool List Lia Lra.
From Coquelicot Require Import Coquelicot.
From Verif Require Import RSum Mat Psd Psd2 Tri_M Tri_P Kernels_M Kernels_P Kernels_P2 Kernels_P3 Krg_M Krg_S Krg_P Krg_P2 Rbf_P Poly_P LikGrad_M LikGrad_P1.
Import ListNotations.
Open Scope list_scope.
Open Scope R_scope.

Lemma derive_sum (f h : R -> R) t df dh : is_derive f t df -> is_derive h t dh -> is_derive (fun s => f s + h s) t (df + dh).
Proof. intros A B. pose proof (is_derive_plus (K := R_AbsRing) (V := R_NormedModule) f h t df dh A B) as M. exact M. Qed.
Lemma derive_sub (f h : R -> R) t df dh : is_derive f t df -> is_derive h t dh -> is_derive (fun s => f s - h s) t (df - dh).
Proof. intros A B. pose proof (is_derive_minus (K := R_AbsRing) (V := R_NormedModule) f h t df dh A B) as M. exact M. Qed.
Lemma derive_eq (f : R -> R) t d d' : is_derive f t d -> d = d' -> is_derive f t d'.
Proof. intros H <-. exact H. Qed.
Lemma derive_unique (f : R -> R) t d d' : is_derive f t d -> is_derive f t d' -> d = d'.
Proof. intros A B. rewrite <- (is_derive_unique _ _ _ A). apply (is_derive_unique _ _ _ B). Qed.
Lemma ex_is (f : R -> R) t : ex_derive f t -> is_derive f t (Derive f t).
Proof. apply Derive_correct. Qed.
Lemma derive_mv n (A : R -> mat) (A' : mat) (v : R -> vec) (v' : vec) t0 i :
  (forall j, (j < n)%nat -> is_derive (fun t => A t i j) t0 (A' i j)) -> (forall j, (j < n)%nat -> is_derive (fun t => v t j) t0 (v' j)) ->
  is_derive (fun t => mv n (A t) (v t) i) t0 (mv n A' (v t0) i + mv n (A t0) v' i).
Proof.
  intros HA Hv. unfold mv. rewrite <- rsum_plus. apply (is_derive_rsum n (fun j t => A t i j * v t j)). intros j Hj. apply (derive_mul (fun t => A t i j) (fun t => v t j)); [apply HA|apply Hv]; exact Hj.
Qed.
Lemma derive_mvc n (A : mat) (v : R -> vec) (v' : vec) t0 i : (forall j, (j < n)%nat -> is_derive (fun t => v t j) t0 (v' j)) ->
  is_derive (fun t => mv n A (v t) i) t0 (mv n A v' i).
Proof. intros Hv. unfold mv. apply (is_derive_rsum n (fun j t => A i j * v t j)). intros j Hj. apply is_derive_scal. apply Hv. exact Hj. Qed.
Lemma derive_dot n (v w : R -> vec) (v' w' : vec) t0 : (forall j, (j < n)%nat -> is_derive (fun t => v t j) t0 (v' j)) -> (forall j, (j < n)%nat -> is_derive (fun t => w t j) t0 (w' j)) ->
  is_derive (fun t => dot n (v t) (w t)) t0 (dot n v' (w t0) + dot n (v t0) w').
Proof.
  intros Hv Hw. unfold dot. rewrite <- rsum_plus. apply (is_derive_rsum n (fun j t => v t j * w t j)). intros j Hj. apply (derive_mul (fun t => v t j) (fun t => w t j)); [apply Hv|apply Hw]; exact Hj.
Qed.

(** ** the saddle point system  R g + F b = c, F' g = e  *)
Definition injective (n p : nat) (F : mat) : Prop := forall b : vec, (forall a, (a < n)%nat -> mv p F b a = 0) -> forall j, (j < p)%nat -> b j = 0.
Section KKT.
Variables (n p : nat) (Rm : R -> mat) (dR : mat) (F : mat) (c : R -> vec) (c' e : vec) (ga be : R -> vec) (t0 : R).
Hypotheses (Sm : forall t, msym n (Rm t)) (Pd : locally t0 (fun t => mpd n (Rm t))) (Inj : injective n p F)
  (DR : forall i j, (i < n)%nat -> (j < n)%nat -> is_derive (fun t => Rm t i j) t0 (dR i j))
  (Dc : forall i, (i < n)%nat -> is_derive (fun t => c t i) t0 (c' i))
  (E1 : locally t0 (fun t => forall i, (i < n)%nat -> mv n (Rm t) (ga t) i + mv p F (be t) i = c t i))
  (E2 : locally t0 (fun t => forall j, (j < p)%nat -> rsum n (fun a => F a j * ga t a) = e j)).
Let Lf (t : R) : mat := cholf n (Rm t).
Let solve (t : R) (b : vec) : vec := bsub n (tr (Lf t)) (fsub (Lf t) b n) n.
Lemma solve_ok t b : mpd n (Rm t) -> forall i, (i < n)%nat -> mv n (Rm t) (solve t b) i = b i.
Proof. intros P i Hi. destruct (chol_complete n (Rm t) (Sm t) P) as [L EL]. unfold solve, Lf. rewrite <- (cholf_eq _ _ _ EL). apply (chol_solve n (Rm t) L b (Sm t) (chol_sound _ _ _ EL) i Hi). Qed.
Lemma Rm_ex i j : (i < n)%nat -> (j < n)%nat -> ex_derive (fun t => Rm t i j) t0.
Proof. intros Hi Hj. eexists. apply DR; assumption. Qed.
Lemma solve_ex (b : R -> vec) : (forall i, (i < n)%nat -> ex_derive (fun t => b t i) t0) -> forall i, (i < n)%nat -> ex_derive (fun t => solve t (b t) i) t0.
Proof.
  intros Hb. apply (spd_solve_ex n Rm b (fun t => solve t (b t)) t0 Sm Pd Rm_ex Hb). generalize Pd. apply filter_imp. intros t P i Hi. apply solve_ok; assumption.
Qed.
Let Fc (j : nat) : vec := fun a => F a j.
Let B (t : R) : mat := fun j l => dot n (Fc j) (solve t (Fc l)).
(** R^-1 F b *)
Let Wb (t : R) (b : vec) : vec := fun a => rsum p (fun l => solve t (Fc l) a * b l).
Lemma R_Wb t b : mpd n (Rm t) -> forall a, (a < n)%nat -> mv n (Rm t) (Wb t b) a = mv p F b a.
Proof.
  intros P a Ha. unfold Wb, mv at 1. rewrite (rsum_ext n _ (fun j => rsum p (fun l => Rm t a j * solve t (Fc l) j * b l))).
  2:{ intros j Hj. rewrite <- rsum_scal_l. apply rsum_ext. intros; ring. }
  rewrite rsum_swap. unfold mv. apply rsum_ext. intros l Hl. rewrite rsum_scal_r. f_equal. apply (solve_ok t (Fc l) P a Ha).
Qed.
Lemma B_mv t b j : mv p (B t) b j = dot n (Fc j) (Wb t b).
Proof.
  unfold mv, B, Wb. unfold dot. rewrite (rsum_ext p _ (fun l => rsum n (fun i => Fc j i * (solve t (Fc l) i * b l)))).
  2:{ intros l Hl. rewrite <- rsum_scal_r. apply rsum_ext. intros; ring. }
  rewrite rsum_swap. apply rsum_ext. intros i Hi. rewrite rsum_scal_l. reflexivity.
Qed.
Lemma B_sym t : mpd n (Rm t) -> msym p (B t).
Proof.
  intros P j l _ _. unfold B.
  rewrite (dot_ext n (Fc j) (solve t (Fc l)) (mv n (Rm t) (solve t (Fc j))) (solve t (Fc l))) by (intros; try reflexivity; symmetry; apply solve_ok; assumption).
  rewrite dot_sym, (dot_mv_sym n (Rm t) _ _ (Sm t)). rewrite dot_sym. apply dot_ext; [|reflexivity]. intros. apply solve_ok; assumption.
Qed.
Lemma B_pd t : mpd n (Rm t) -> mpd p (B t).
Proof.
  intros P b (j & Hj & Nz).
  assert (E : dot p b (mv p (B t) b) = dot n (Wb t b) (mv n (Rm t) (Wb t b))).
  { rewrite (dot_ext p b _ b (fun j => dot n (Fc j) (Wb t b))) by (intros; try reflexivity; apply B_mv).
    rewrite (dot_ext n (Wb t b) (mv n (Rm t) (Wb t b)) (Wb t b) (mv p F b)) by (intros; try reflexivity; apply R_Wb; assumption).
    rewrite (dot_sym n), dot_mv_tr. reflexivity. }
  rewrite E. apply P. destruct (nonzero_dec n (Wb t b)) as [W|W]; [exact W|]. exfalso. apply Nz. apply Inj; [|exact Hj]. intros a Ha. rewrite <- (R_Wb t b P a Ha). apply mv_zero. exact W.
Qed.
(** a total symmetric positive definite version *)
Let Bt (t : R) : mat := fun j l => (B t j l + B t l j) / 2.
Lemma Bt_eq t : mpd n (Rm t) -> forall j l, (j < p)%nat -> (l < p)%nat -> Bt t j l = B t j l.
Proof. intros P j l Hj Hl. unfold Bt. rewrite (B_sym t P l j Hl Hj). field. Qed.
Lemma B_ex j l : ex_derive (fun t => B t j l) t0.
Proof. unfold B. apply (ex_dot n (fun _ => Fc j) (fun t => solve t (Fc l))); [intros; apply ex_derive_const|]. apply (solve_ex (fun _ => Fc l)). intros. apply ex_derive_const. Qed.
Lemma be_ex j : (j < p)%nat -> ex_derive (fun t => be t j) t0.
Proof.
  apply (spd_solve_ex p Bt (fun t j => dot n (Fc j) (solve t (c t)) - e j) be t0).
  - intros t a b _ _. unfold Bt. f_equal. ring.
  - generalize Pd. apply filter_imp. intros t P x Hx. rewrite (dot_ext p x _ x (mv p (B t) x)); [apply (B_pd t P x Hx)|reflexivity|]. intros i Hi. apply mv_ext; [|reflexivity]. intros l Hl. apply Bt_eq; assumption.
  - intros a b _ _. unfold Bt. apply (ex_derive_ext (fun t => (B t a b + B t b a) * / 2)); [reflexivity|]. apply ex_mul; [|apply ex_derive_const]. apply (ex_derive_plus (fun t => B t a b) (fun t => B t b a)); apply B_ex.
  - intros i Hi. apply ex_sub; [|apply ex_derive_const]. apply (ex_dot n (fun _ => Fc i) (fun t => solve t (c t))); [intros; apply ex_derive_const|]. apply (solve_ex c). intros k Hk. eexists. apply Dc. exact Hk.
  - generalize (filter_and _ _ Pd (filter_and _ _ E1 E2)). apply filter_imp. intros t (P & Q1 & Q2) i Hi.
    rewrite (mv_ext p (Bt t) (B t) (be t) (be t) i) by (intros; try reflexivity; apply Bt_eq; assumption). rewrite B_mv.
    assert (G : forall a, (a < n)%nat -> Wb t (be t) a = solve t (c t) a - ga t a).
    { apply (mpd_unique n (Rm t) _ _ P). intros a Ha. rewrite R_Wb, mv_minus, solve_ok by assumption. rewrite <- (Q1 a Ha). ring. }
    rewrite (dot_ext n (Fc i) (Wb t (be t)) (Fc i) (fun a => solve t (c t) a - ga t a)) by (intros; try reflexivity; apply G; assumption). rewrite dot_minus_r. f_equal. rewrite <- (Q2 i Hi). reflexivity.
Qed.
Lemma ga_ex i : (i < n)%nat -> ex_derive (fun t => ga t i) t0.
Proof.
  apply (spd_solve_ex n Rm (fun t i => c t i - mv p F (be t) i) ga t0 Sm Pd Rm_ex).
  - intros k Hk. apply ex_sub; [eexists; apply Dc; exact Hk|]. apply (ex_mv p (fun _ => F) be); [intros; apply ex_derive_const|]. intros. apply be_ex. assumption.
  - generalize E1. apply filter_imp. intros t Q k Hk. rewrite <- (Q k Hk). ring.
Qed.
Definition ga' : vec := fun i => Derive (fun t => ga t i) t0.
Definition be' : vec := fun j => Derive (fun t => be t j) t0.
Lemma ga_derive i : (i < n)%nat -> is_derive (fun t => ga t i) t0 (ga' i).
Proof. intros Hi. apply ex_is. apply ga_ex. exact Hi. Qed.
Lemma be_derive j : (j < p)%nat -> is_derive (fun t => be t j) t0 (be' j).
Proof. intros Hi. apply ex_is. apply be_ex. exact Hi. Qed.
Lemma kkt1 i : (i < n)%nat -> mv n dR (ga t0) i + mv n (Rm t0) ga' i + mv p F be' i = c' i.
Proof.
  intros Hi. apply (derive_unique (fun t => c t i) t0); [|apply Dc; exact Hi].
  apply (is_derive_ext_loc (fun t => mv n (Rm t) (ga t) i + mv p F (be t) i)); [generalize E1; apply filter_imp; intros t Q; apply Q; exact Hi|].
  apply derive_sum; [|apply derive_mvc; intros; apply be_derive; assumption]. apply derive_mv; [intros; apply DR; assumption|intros; apply ga_derive; assumption].
Qed.
Lemma kkt2 j : (j < p)%nat -> rsum n (fun a => F a j * ga' a) = 0.
Proof.
  intros Hj. apply (derive_unique (fun t => e j) t0); [|apply derive_cst].
  apply (is_derive_ext_loc (fun t => rsum n (fun a => F a j * ga t a))); [generalize E2; apply filter_imp; intros t Q; apply Q; exact Hj|].
  apply (is_derive_rsum n (fun a t => F a j * ga t a)). intros a Ha. apply is_derive_scal. apply ga_derive. exact Ha.
Qed.
Lemma kkt2_mv b : dot n (mv p F b) ga' = 0.
Proof. rewrite dot_mv_tr. apply dot_zero_r. intros j Hj. apply (kkt2 j Hj). Qed.
End KKT.

(** ** the determinant *)
Section Det.
Variables (n : nat) (Rm : R -> mat) (dR : mat) (t0 : R) (L0 : mat).
Hypotheses (Sm : forall t, msym n (Rm t)) (E0 : cholesky n (Rm t0) = Some L0) (Ok : locally t0 (fun t => mpd n (Rm t)))
  (DR : forall i j, (i < n)%nat -> (j < n)%nat -> is_derive (fun t => Rm t i j) t0 (dR i j)).
Let F0 := chol_sound _ _ _ E0.
Let L' : mat := fun i j => Derive (fun t => cholf n (Rm t) i j) t0.
Lemma L_derive i j : is_derive (fun t => cholf n (Rm t) i j) t0 (L' i j).
Proof. apply ex_is. apply (cholf_ex n Rm t0 L0 E0). intros. eexists. apply DR; assumption. Qed.
Lemma cholf_low m A i j : (i < j)%nat -> cholf m A i j = 0.
Proof.
  induction m as [|m IH]; intros H; cbn [cholf]; [reflexivity|]. destruct (Nat.eqb_spec i m) as [-> | N]; [|apply IH; exact H].
  destruct (Nat.eqb_spec j m); [lia|]. destruct (Nat.ltb_spec j m); [lia|reflexivity].
Qed.
Lemma L'_low i j : (i < j)%nat -> L' i j = 0.
Proof.
  intros H. unfold L'. apply is_derive_unique. apply (is_derive_ext (fun _ => 0)); [intros t; symmetry; apply cholf_low; exact H|apply derive_cst].
Qed.
Lemma dR_split i j : (i < n)%nat -> (j < n)%nat -> dR i j = rsum n (fun k => L' i k * L0 j k + L0 i k * L' j k).
Proof.
  intros Hi Hj. apply (derive_unique (fun t => Rm t i j) t0); [apply DR; assumption|].
  apply (is_derive_ext_loc (fun t => rsum n (fun k => cholf n (Rm t) i k * cholf n (Rm t) j k))).
  - generalize Ok. apply filter_imp. intros t P. destruct (chol_complete n (Rm t) (Sm t) P) as [L EL]. rewrite <- (cholf_eq _ _ _ EL). apply (chol_mm n (Rm t) L (Sm t) (chol_sound _ _ _ EL) i j Hi Hj).
  - apply (is_derive_rsum n (fun k t => cholf n (Rm t) i k * cholf n (Rm t) j k)). intros k Hk. rewrite (cholf_eq _ _ _ E0).
    apply (derive_mul (fun t => cholf n (Rm t) i k) (fun t => cholf n (Rm t) j k)); apply L_derive.
Qed.
Let Lo : lower n L0 := chol_lower _ _ _ F0.
Let Di : diagnz n L0 := chol_diag _ _ _ F0.
Let X : mat := fun a b => fsub L0 (fun i => L' i b) n a.
Lemma LX i b : (i < n)%nat -> mv n L0 (fun a => X a b) i = L' i b.
Proof. intros Hi. apply (fsub_solves n L0 (fun i => L' i b) Lo Di i Hi). Qed.
Lemma X_low j b : (j < b)%nat -> (b < n)%nat -> X j b = 0.
Proof.
  revert b. induction j as [j IH] using lt_wf_ind. intros b H Hb. unfold X. rewrite fsub_eq by lia. rewrite L'_low by exact H.
  rewrite rsum_zero; [field; apply Di; lia|]. intros k Hk. change (fsub L0 (fun i => L' i b) n k) with (X k b). rewrite (IH k Hk b) by lia. ring.
Qed.
Lemma X_diag i : (i < n)%nat -> X i i = L' i i / L0 i i.
Proof.
  intros Hi. unfold X. rewrite fsub_eq by exact Hi. rewrite rsum_zero; [f_equal; ring|]. intros k Hk. change (fsub L0 (fun a => L' a i) n k) with (X k i). rewrite X_low by lia. ring.
Qed.
Lemma trace_mm A B : rsum n (fun a => rsum n (fun k => A a k * B k a)) = rsum n (fun a => rsum n (fun k => B a k * A k a)).
Proof. rewrite rsum_swap. apply rsum_ext. intros i Hi. apply rsum_ext. intros; ring. Qed.
Lemma trace_log T : (forall i b, (i < n)%nat -> (b < n)%nat -> mv n (Rm t0) (fun a => T a b) i = dR i b) ->
  rsum n (fun a => T a a) = 2 * rsum n (fun i => L' i i / L0 i i).
Proof.
  intros HT. set (Z := fun a b => bsub n (tr L0) (fun k => X k b + X b k) n a).
  assert (LZ : forall i b, (i < n)%nat -> mv n (tr L0) (fun a => Z a b) i = X i b + X b i).
  { intros i b Hi. apply (bsub_solves n (tr L0) (fun k => X k b + X b k)); [apply (chol_upper_tr _ _ _ F0)|apply (chol_diag_tr _ _ _ F0)|exact Hi]. }
  assert (LT : forall i b, (i < n)%nat -> (b < n)%nat -> mv n (tr L0) (fun a => T a b) i = rsum n (fun k => (X i k + X k i) * L0 b k)).
  { intros i b Hi Hb. enough (mv n (tr L0) (fun a => T a b) i - rsum n (fun k => (X i k + X k i) * L0 b k) = 0) by lra.
    apply (lower_inj n L0 Lo Di (fun i => mv n (tr L0) (fun a => T a b) i - rsum n (fun k => (X i k + X k i) * L0 b k))); [|exact Hi]. intros a Ha. rewrite mv_minus.
    rewrite (chol_mv n (Rm t0) L0 _ (Sm t0) F0 a Ha), HT, dR_split by assumption.
    assert (Q : mv n L0 (fun i => rsum n (fun k => (X i k + X k i) * L0 b k)) a = rsum n (fun k => L' a k * L0 b k + L0 a k * L' b k)); [|lra].
    unfold mv. rewrite (rsum_ext n _ (fun j => rsum n (fun k => L0 a j * X j k * L0 b k) + rsum n (fun k => L0 a j * (X k j * L0 b k)))).
    2:{ intros j Hj. rewrite <- rsum_scal_l, <- rsum_plus. apply rsum_ext. intros; ring. }
    rewrite rsum_plus, rsum_swap, (rsum_plus n (fun k => L' a k * L0 b k)). f_equal.
    - apply rsum_ext. intros k Hk. rewrite rsum_scal_r. f_equal. apply (LX a k Ha).
    - apply rsum_ext. intros j Hj. rewrite rsum_scal_l. f_equal. rewrite <- (LX b j Hb). unfold mv. apply rsum_ext. intros; ring. }
  assert (TZ : forall a b, (a < n)%nat -> (b < n)%nat -> T a b = rsum n (fun k => Z a k * L0 b k)).
  { intros a b Ha Hb. enough (T a b - rsum n (fun k => Z a k * L0 b k) = 0) by lra.
    apply (upper_inj n (tr L0) (chol_upper_tr _ _ _ F0) (chol_diag_tr _ _ _ F0) (fun a => T a b - rsum n (fun k => Z a k * L0 b k))); [|exact Ha]. intros i Hi. rewrite mv_minus, LT by assumption.
    assert (Q : mv n (tr L0) (fun a => rsum n (fun k => Z a k * L0 b k)) i = rsum n (fun k => (X i k + X k i) * L0 b k)); [|lra].
    unfold mv. rewrite (rsum_ext n _ (fun j => rsum n (fun k => tr L0 i j * Z j k * L0 b k))). 2:{ intros j Hj. rewrite <- rsum_scal_l. apply rsum_ext. intros; ring. }
    rewrite rsum_swap. apply rsum_ext. intros k Hk. rewrite rsum_scal_r. f_equal. apply (LZ i k Hi). }
  rewrite (rsum_ext n _ (fun a => rsum n (fun k => Z a k * tr L0 k a))) by (intros a Ha; apply TZ; assumption).
  rewrite trace_mm. rewrite <- rsum_scal_l. apply rsum_ext. intros i Hi. change (mv n (tr L0) (fun a => Z a i) i = 2 * (L' i i / L0 i i)). rewrite LZ by exact Hi. rewrite X_diag by exact Hi. ring.
Qed.
Lemma logdet_derive T : (forall i b, (i < n)%nat -> (b < n)%nat -> mv n (Rm t0) (fun a => T a b) i = dR i b) ->
  is_derive (fun t => rsum n (fun i => 2 * ln (cholf n (Rm t) i i))) t0 (rsum n (fun a => T a a)).
Proof.
  intros HT. rewrite (trace_log T HT), <- rsum_scal_l. apply (is_derive_rsum n (fun i t => 2 * ln (cholf n (Rm t) i i))). intros i Hi. apply is_derive_scal.
  pose proof (cf_pos _ _ _ F0 i Hi) as P. rewrite (cholf_eq _ _ _ E0) in P |- *. set (d := L' i i).
  pose proof (is_derive_comp (K := R_AbsRing) (V := R_NormedModule) ln (fun t => cholf n (Rm t) i i) t0 (/ cholf n (Rm t0) i i) d (is_derive_ln _ P) (L_derive i i)) as M.
  exact M.
Qed.
End Det.
