From Coq Require Import Reals Arith Bool List Lia Lra FunctionalExtensionality.
From Coquelicot Require Import Coquelicot.
From Verif Require Import RSum Mat Psd Psd2 Tri_M Tri_P Kernels_M Kernels_P Kernels_P2 Kernels_P3 Krg_M Krg_S Krg_P Krg_P2 Krg_P4 Rbf_P Poly_P LikGrad_M LikGrad_S LikGrad_P1 LikGrad_P2 LikGrad_P3 LikGrad_P4 Mgp_M Mgp_S Mgp_P1 Mgp_P2 Mgp_P3 Mgp_P4 Mgp_P5.
Import ListNotations.
Open Scope list_scope.
Open Scope R_scope.

Lemma bsub_zero n U b k : (k <= n)%nat -> (forall i, (i < n)%nat -> b i = 0) -> forall i, bsub n U b k i = 0.
Proof.
  intros Hk Hb. induction k as [|k IH]; intros i; cbn [bsub]; [reflexivity|]. unfold upd at 1. destruct (Nat.eqb i (n - S k)); [|apply IH; lia].
  rewrite Hb by lia. rewrite rsum_zero by (intros; rewrite IH by lia; ring). unfold Rdiv. ring.
Qed.
Section T.
Variables (qr : nat -> nat -> mat -> mat * mat) (rcond : nat -> mat -> R) (condF : nat -> nat -> mat -> R) (lsolve : nat -> mat -> vec -> option vec).
Variables (nx nt nc : nat) (po : poly) (pv nugget : R) (noise : vec) (X : nat -> vec) (y : vec).
Notation p := (n_regr po nx).
Notation Xn := (Xnorm nt X).
Notation F := (fun i j => fvec po nx (Xnorm nt X i) j).
Notation yn := (ynorm nt y).
Notation g := (GStd ActExp nc).
Notation rlm := (rl qr rcond condF g nx nt p Xn F yn (scale1 nt y) nugget noise (INR nt)).
Notation trn := (mgp_train qr rcond condF nx nt nc po pv nugget noise X y).
Notation mk := (mk qr rcond condF nx nt nc po pv nugget noise X y).
Hypotheses (HQ : qr_contract qr) (HR : rcond_contract rcond).
(** *** C99 *)
Section Der.
Variables (theta : vec) (om : nat) (m : vec -> mgp).
Hypotheses (Hk : (om < nx * nc)%nat) (L : locally (theta om) (fun t => trn (upd theta om t) = Some (m (upd theta om t)))).
Notation prt := (prt qr rcond condF g nx nt p Xn F yn (scale1 nt y) nugget noise (INR nt) theta om).
Lemma L_fit : locally (theta om) (fun t => exists v pr, rlm (upd theta om t) = Fit v pr).
Proof. generalize L. apply filter_imp. intros t E. apply train_iff in E. destruct E as (_ & _ & _ & v & pr & E & _). exists v, pr. exact E. Qed.
Lemma L_mk : locally (theta om) (fun t => m (upd theta om t) = mk (upd theta om t) (prt t)).
Proof. generalize L. apply filter_imp. intros t E. apply train_iff in E. destruct E as (_ & _ & _ & v & pr & E & ->). unfold LikGrad_P3.prt. rewrite E. reflexivity. Qed.
Lemma L_0 : (2 <= nt)%nat /\ (p <= nt)%nat /\ m theta = mk theta (prt (theta om)).
Proof.
  pose proof (locally_singleton _ _ L) as E. cbv beta in E. pose proof (locally_singleton _ _ L_mk) as E'. cbv beta in E'. rewrite upd_self in E, E'. apply train_iff in E. destruct E as (A & B & _). split; [exact A|]. split; [exact B|exact E'].
Qed.
Lemma t_mean x q : normalise (m theta) nx x = Some q -> is_partial (fun th => the (mgp_value (m th) nx x)) theta om (g_ystd (m theta) * dy_hyper (m theta) q om).
Proof.
  destruct L_0 as (A & B & E). rewrite E. rewrite norm_x. intros [= <-]. unfold is_partial.
  apply (is_derive_ext_loc (fun t => mean nt y + scale1 nt y * (dot p (fvec po nx (xnrm nt X x)) (p_beta (prt t)) + dot nt (r_of (mk (upd theta om t) (prt (theta om))) (xnrm nt X x, None) None) (p_gamma (prt t))))).
  - generalize L_mk. apply filter_imp. intros t Et. rewrite Et. unfold mgp_value. rewrite norm_x. cbn [the]. unfold f_of. cbn [fst Mgp_P2.mk g_ymean g_ystd g_nx g_nt g_po g_par].
assert (Q : dot nt (r_of (mk (upd theta om t) (prt (theta om))) (xnrm nt X x, None) None) (p_gamma (prt t)) = dot nt (r_of (mk (upd theta om t) (prt t)) (xnrm nt X x, None) None) (p_gamma (prt t))).
    { apply dot_ext; [|reflexivity]. intros i _. rewrite (r_kern qr rcond condF nx nt nc po pv nugget noise X y (xnrm nt X x) (upd theta om t) (prt (theta om)) i None). symmetry. apply (r_kern qr rcond condF nx nt nc po pv nugget noise X y (xnrm nt X x) (upd theta om t) (prt t) i None). }
    rewrite Q. reflexivity.
  - eapply derive_eq; [apply derive_sum; [apply derive_cst|apply is_derive_scal; apply (mean_derive qr rcond condF nx nt nc po pv nugget noise X y HQ HR B theta om Hk L_fit (xnrm nt X x))]|]. match goal with |- ?a = ?b => change (@eq R a b) end. cbn [Mgp_P2.mk g_ystd]. ring.
Qed.
End Der.
(** *** C100: training points, for every trend *)
Lemma t_train_zero theta m i : trn theta = Some m -> (i < nt)%nat -> nugget + noise i = 0 -> mgp_mse m (xnrm nt X (X i), None) = 0.
Proof.
  intros Ht Hi Hz. apply train_iff in Ht. destruct Ht as (H2 & Hp & Z & v & pr & E & ->).
  destruct (rl_facts qr rcond condF g nx nt p Xn F yn (scale1 nt y) nugget noise (INR nt) HQ HR Hp theta v pr E) as (O & _).
  pose proof (R_of_sym g nx nt Xn nugget noise theta) as Sy. set (Rm := R_of g nx nt Xn nugget noise theta) in *. pose proof (fo_C _ _ _ _ _ _ O) as FC.
  set (q := (xnrm nt X (X i), @None vec)). set (e := fun k => if Nat.eqb k i then 1 else 0 : R).
  assert (Xi : xnrm nt X (X i) = Xn i) by (apply functional_extensionality; intros c; reflexivity).
  assert (Er : forall k, (k < nt)%nat -> r_of (mk theta pr) q None k = Rm k i).
  { intros k Hk. unfold q. rewrite r_kern, Xi. unfold Rm. rewrite R_entry by assumption. rewrite <- (corr_sym ActExp nx nc theta (Xn i) (Xn k)). destruct (Nat.eqb_spec k i) as [-> | N]; [|reflexivity].
    replace (1 + nugget + noise i) with 1 by lra. apply (corr_diag ActExp nx nc theta (Xn i)). }
  assert (Re : forall k, mv nt Rm e k = Rm k i). { intros k. unfold mv, e. rewrite (rsum_ext nt _ (fun j => if Nat.eqb j i then Rm k j else 0)) by (intros j _; destruct (Nat.eqb j i); ring). apply (rsum_single nt (fun j => Rm k j) i Hi). }
  assert (Rt : forall k, (k < nt)%nat -> mgp_rt (mk theta pr) q k = mv nt (tr (p_C pr)) e k).
  { intros k Hk. enough (forall k, (k < nt)%nat -> mgp_rt (mk theta pr) q k - mv nt (tr (p_C pr)) e k = 0) as W by (specialize (W k Hk); lra). clear k Hk.
    apply (lower_inj nt (p_C pr) (chol_lower _ _ _ FC) (chol_diag _ _ _ FC) (fun k => mgp_rt (mk theta pr) q k - mv nt (tr (p_C pr)) e k)). intros k Hk.
    rewrite mv_minus, (chol_mv nt Rm (p_C pr) e Sy FC k Hk), Re. unfold mgp_rt. cbn [Mgp_P2.mk g_nt g_par]. fold (mk theta pr). unfold solve_triangular. rewrite (fsub_solves nt (p_C pr) _ (chol_lower _ _ _ FC) (chol_diag _ _ _ FC) k Hk), Er by exact Hk. ring. }
  assert (D1 : dot nt (mgp_rt (mk theta pr) q) (mgp_rt (mk theta pr) q) = 1).
  { rewrite (dot_ext nt _ _ _ _ Rt Rt), <- (chol_form nt Rm (p_C pr) e Sy FC). unfold dot. rewrite (rsum_ext nt _ (fun k => if Nat.eqb k i then Rm k i else 0)) by (intros k _; rewrite Re; unfold e; destruct (Nat.eqb k i); ring).
    rewrite (rsum_single nt (fun k => Rm k i) i Hi). unfold Rm. rewrite R_entry, Nat.eqb_refl by exact Hi. lra. }
  assert (U0 : forall j, mgp_u (mk theta pr) q j = 0).
  { intros j. unfold mgp_u. cbn [Mgp_P2.mk g_nt g_par g_po g_nx]. fold (mk theta pr). apply bsub_zero; [lia|]. clear j. intros j Hj. unfold f_of. cbn [fst q Mgp_P2.mk g_po g_nx]. rewrite Xi. fold (mk theta pr).
    rewrite (mv_ext nt (tr (p_Ft pr)) (tr (p_Ft pr)) _ (mv nt (tr (p_C pr)) e) j) by (try reflexivity; exact Rt).
pose proof (F_w nt p Rm F yn pr O e j Hj) as W. unfold mv at 1. unfold tr at 1.
    assert (W' : fvec po nx (Xn i) j = rsum nt (fun a => p_Ft pr a j * mv nt (tr (p_C pr)) e a)).
    { eapply eq_trans; [|exact W]. symmetry. eapply eq_trans; [|apply (rsum_single nt (fun a => F a j) i Hi)]. apply rsum_ext. intros a _. unfold e. destruct (Nat.eqb a i); ring. }
    rewrite <- W'. ring. }
  unfold mgp_mse. cbv zeta. cbn [Mgp_P2.mk g_nt g_par g_po g_nx]. fold (mk theta pr). rewrite D1, (dot_zero_r p _ _ (fun j _ => U0 j)). replace (p_sigma2 pr * (1 - 1 + 0)) with 0 by ring. destruct (Rlt_dec 0 0); lra.
Qed.
(** *** the formula *)
Lemma mse_nonneg m q : 0 <= mgp_mse m q.
Proof. unfold mgp_mse. cbv zeta. destruct (Rlt_dec _ 0); lra. Qed.
Lemma t_formula m n x v M : lsolve_contract lsolve -> mgp_variance lsolve m n x = Some (v, M) -> exists q a b, normalise m n x = Some q /\ M = mgp_mse m q /\
  (forall i, (i < g_nx m * g_nc m)%nat -> mv (g_nx m * g_nc m) (g_isr m) a i = dy_hyper m q i) /\ (forall i, (i < g_nx m * g_nc m)%nat -> mv (g_nx m * g_nc m) (g_isr m) b i = dmse_hyper m q i) /\
  v = if Req_EM_T M 0 then 0 else Rmax 0 (4 / 3 * M + dot (g_nx m * g_nc m) (dy_hyper m q) a + dot (g_nx m * g_nc m) (dmse_hyper m q) b / (3 * M)).
Proof.
  intros [S _] E. unfold mgp_variance in E. destruct (normalise m n x) as [q|]; [|discriminate]. cbv zeta in E.
  destruct (lsolve _ _ (dy_hyper m q)) as [a|] eqn:Ea; [|discriminate]. destruct (lsolve _ _ (dmse_hyper m q)) as [b|] eqn:Eb; [|discriminate]. injection E as E1 E2. exists q, a, b.
  split; [reflexivity|]. split; [symmetry; exact E2|]. split; [apply (S _ _ _ _ Ea)|]. split; [apply (S _ _ _ _ Eb)|]. rewrite <- E1, E2.
  destruct (Req_EM_T M 0) as [Z|Z]; [destruct (Rlt_dec 0 0); reflexivity|]. match goal with |- (if Rlt_dec ?s 0 then 0 else ?s) = Rmax 0 ?s' => replace s' with s by (unfold Rdiv; ring); generalize s end.
  intros s. unfold Rmax. destruct (Rlt_dec s 0), (Rle_dec 0 s); lra.
Qed.
Lemma t_lower m n x v M : lsolve_contract lsolve -> mgp_variance lsolve m n x = Some (v, M) ->
  (forall z : vec, 0 <= dot (g_nx m * g_nc m) z (mv (g_nx m * g_nc m) (g_isr m) z)) -> 4 / 3 * M <= v /\ M <= v.
Proof.
  intros LC E P. destruct (t_formula m n x v M LC E) as (q & a & b & _ & -> & Ha & Hb & ->). pose proof (mse_nonneg m q) as N.
  set (nh := (g_nx m * g_nc m)%nat) in *.
  assert (Pa : 0 <= dot nh (dy_hyper m q) a). { rewrite dot_sym. rewrite (dot_ext nh a _ a (mv nh (g_isr m) a)) by (intros; try reflexivity; symmetry; apply Ha; assumption). apply P. }
  assert (Pb : 0 <= dot nh (dmse_hyper m q) b). { rewrite dot_sym. rewrite (dot_ext nh b _ b (mv nh (g_isr m) b)) by (intros; try reflexivity; symmetry; apply Hb; assumption). apply P. }
  destruct (Req_EM_T (mgp_mse m q) 0) as [Z|Z]; [rewrite Z; lra|].
  assert (0 <= dot nh (dmse_hyper m q) b / (3 * mgp_mse m q)) by (apply Rmult_le_pos; [exact Pb|apply Rlt_le, Rinv_0_lt_compat; lra]).
  match goal with |- context [Rmax 0 ?s] => pose proof (Rmax_r 0 s) end. lra.
Qed.
Lemma t_none_iff theta m x : trn theta = Some m -> lsolve_contract lsolve -> (mgp_variance lsolve m nx x = None <-> singular (nx * nc) (g_isr m)).
Proof.
  intros Ht [_ N]. apply train_iff in Ht. destruct Ht as (H2 & Hp & Z & v & pr & E & ->). unfold mgp_variance. rewrite norm_x. cbv zeta.
  pose proof (isr_sym qr rcond condF nx nt nc po pv nugget noise X y HQ HR theta Hp) as Sy. cbn [Mgp_P2.mk g_nx g_nc g_isr]. fold (mk theta pr).
  destruct (lsolve _ _ (dy_hyper _ _)) as [a|] eqn:Ea; [|split; [intros _; apply (N _ _ _ Sy) in Ea; exact Ea|reflexivity]].
  destruct (lsolve _ _ (dmse_hyper _ _)) as [b|] eqn:Eb; [|split; [intros _; apply (N _ _ _ Sy) in Eb; exact Eb|reflexivity]].
  split; [discriminate|]. intros W. apply (N _ _ (dy_hyper (mk theta pr) (xnrm nt X x, None)) Sy) in W. congruence.
Qed.
End T.
(** constant trend *)
Section Const.
Variables (qr : nat -> nat -> mat -> mat * mat) (rcond : nat -> mat -> R) (condF : nat -> nat -> mat -> R).
Variables (nx nt nc : nat) (pv nugget : R) (noise : vec) (X : nat -> vec) (y : vec).
Notation trn := (mgp_train qr rcond condF nx nt nc PConstant pv nugget noise X y).
Hypotheses (HQ : qr_contract qr) (HR : rcond_contract rcond).
Lemma t_mse theta om (m : vec -> mgp) : (om < nx * nc)%nat -> data_not_trend nx nt PConstant X y -> locally (theta om) (fun t => trn (upd theta om t) = Some (m (upd theta om t))) ->
  forall x q, normalise (m theta) nx x = Some q -> 0 < mgp_mse (m theta) q -> is_partial (fun th => mgp_mse (m th) q) theta om (dmse_hyper (m theta) q om).
Proof.
  intros Hk NT L x q Eq P. destruct (L_0 qr rcond condF nx nt nc PConstant pv nugget noise X y theta om m L) as (A & B & E). rewrite E in *. rewrite norm_x in Eq. injection Eq as <-. unfold is_partial.
  eapply is_derive_ext_loc; [|apply (mse_hyper_derive qr rcond condF nx nt nc pv nugget noise X y HQ HR B ltac:(lia) theta om Hk (L_fit qr rcond condF nx nt nc PConstant pv nugget noise X y theta om m L) NT (xnrm nt X x) P)].
  generalize (L_mk qr rcond condF nx nt nc PConstant pv nugget noise X y theta om m L). apply filter_imp. intros t Et. rewrite Et. reflexivity.
Qed.
End Const.
