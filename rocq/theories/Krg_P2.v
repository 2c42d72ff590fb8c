From Coq Require Import Reals Arith Bool List Lia Lra.
From Coquelicot Require Import Coquelicot.
From Verif Require Import RSum Mat Psd Psd2 Tri_M Tri_P Kernels_M Kernels_P Kernels_P2 Kernels_P3 Krg_M Krg_S Krg_P.
Import ListNotations.
Open Scope list_scope.
Open Scope R_scope.

(** ** positive definiteness of the correlation matrix *)
Lemma kf_psd s nx n (p : nat -> vec) : k_ok s nx -> forall w : vec, 0 <= rsum n (fun i => rsum n (fun j => w i * w j * kf s nx (p i) (p j))).
Proof.
  intros H w. destruct s as [c th|c nc co th]; cbn [k_ok] in H.
  - destruct H as [N H]. apply (corr_psd_form c nx 0 th n p). intros _. exact H.
  - destruct H as [N H]. erewrite rsum_ext.
    2:{ intros i Hi. apply rsum_ext. intros j Hj. change (kf (KPls c nc co th) nx (p i) (p j)) with (corr_of_pls c nx nc co th (p i) (p j)). rewrite pls_corr by exact N. reflexivity. }
    apply (corr_psd_form c nx 0 _ n p). intros _ j Hj. apply rsum_nonneg. intros l Hl. apply Rmult_le_pos; [apply H; exact Hl|]. destruct c; try apply Rabs_pos. apply pow2_ge_0.
Qed.
Lemma scale1_nz n v : scale1 n v <> 0.
Proof. unfold scale1. destruct (Req_EM_T (std1 n v) 0); [lra|assumption]. Qed.
Lemma scale1_pos n v : 0 < scale1 n v.
Proof. unfold scale1. destruct (Req_EM_T (std1 n v) 0) as [E|E]; [lra|]. assert (0 <= std1 n v) by apply sqrt_pos. lra. Qed.
Lemma corr_matrix_form s nx nt X nugget noise w :
  dot nt w (mv nt (corr_matrix s nx nt X nugget noise) w) = rsum nt (fun i => rsum nt (fun j => w i * w j * kf s nx (X i) (X j))) + rsum nt (fun i => (nugget + noise i) * w i ^ 2).
Proof.
  rewrite form_dot, <- rsum_plus. apply rsum_ext. intros i Hi.
  rewrite (rsum_ext nt _ (fun j => w i * w j * kf s nx (X i) (X j) + (if Nat.eqb j i then (nugget + noise j) * w j ^ 2 else 0))).
  - rewrite rsum_plus. f_equal. rewrite (rsum_single nt (fun j => (nugget + noise j) * w j ^ 2) i Hi). reflexivity.
  - intros j Hj. rewrite corr_matrix_spec by assumption. rewrite (Nat.eqb_sym j i). destruct (Nat.eqb_spec i j) as [<- | N]; [rewrite kf_diag; ring|ring].
Qed.
Lemma corr_matrix_pd_nugget s nx nt X nugget noise : k_ok s nx -> (forall i, (i < nt)%nat -> 0 < nugget + noise i) -> mpd nt (corr_matrix s nx nt X nugget noise).
Proof.
  intros K H w (i & Hi & W). rewrite corr_matrix_form. pose proof (kf_psd s nx nt X K w) as P.
  assert (0 < rsum nt (fun i => (nugget + noise i) * w i ^ 2)); [|lra]. apply (rsum_pos nt _ i); [intros j Hj; apply Rmult_le_pos; [apply Rlt_le, H, Hj|apply pow2_ge_0]|exact Hi|].
  apply Rmult_lt_0_compat; [apply H; exact Hi|]. apply pow2_gt_0. exact W.
Qed.
Lemma corr_matrix_pd_distinct c theta nx nt X nugget noise : c <> ActExp -> (forall j, (j < nx)%nat -> 0 < theta j) ->
  (forall i j, (i < nt)%nat -> (j < nt)%nat -> i <> j -> ~ (forall k, (k < nx)%nat -> X i k = X j k)) ->
  (forall i, (i < nt)%nat -> 0 <= nugget + noise i) -> mpd nt (corr_matrix (KStd c theta) nx nt X nugget noise).
Proof.
  intros N T D H w W. rewrite corr_matrix_form.
  assert (P : 0 < rsum nt (fun i => rsum nt (fun j => w i * w j * kf (KStd c theta) nx (X i) (X j)))).
  { apply (corr_pd_form c nx 0 theta nt X); try assumption; try tauto. }
  assert (0 <= rsum nt (fun i => (nugget + noise i) * w i ^ 2)); [|lra]. apply rsum_nonneg. intros j Hj. apply Rmult_le_pos; [apply H, Hj|apply pow2_ge_0].
Qed.
Lemma Xnorm_distinct nx nt X : (forall i j, (i < nt)%nat -> (j < nt)%nat -> i <> j -> ~ (forall k, (k < nx)%nat -> X i k = X j k)) ->
  forall i j, (i < nt)%nat -> (j < nt)%nat -> i <> j -> ~ (forall k, (k < nx)%nat -> Xnorm nt X i k = Xnorm nt X j k).
Proof.
  intros D i j Hi Hj N E. apply (D i j Hi Hj N). intros k Hk. specialize (E k Hk). unfold Xnorm in E. set (s := scale1 nt _) in *. set (m := mean nt _) in *. assert (s <> 0) by apply scale1_nz.
  apply (Rmult_eq_compat_r s) in E. unfold Rdiv in E. rewrite !Rmult_assoc, Rinv_l, !Rmult_1_r in E by assumption. lra.
Qed.
(** ** nonsingular upper triangular matrices have a nonzero diagonal *)
Lemma upper_diagnz p G : upper p G -> (forall x, (forall i, (i < p)%nat -> mv p G x i = 0) -> forall i, (i < p)%nat -> x i = 0) -> diagnz p G.
Proof.
  intros U Inj. assert (A : forall k, (k <= p)%nat -> diagnz k G).
  { induction k as [|k IH]; intros Hk i Hi; [lia|]. specialize (IH ltac:(lia)). destruct (Nat.eq_dec i k) as [-> | N]; [|apply IH; lia].
    intros Z. set (z := bsub k G (fun i => - G i k) k).
    set (x := fun j => if Nat.ltb j k then z j else if Nat.eqb j k then 1 else 0).
    assert (x k = 0).
    { apply Inj; [|lia]. intros a Ha. unfold mv. rewrite (rsum_tail_zero p (S k)); [|lia|].
      2:{ intros j Hj. unfold x. replace (Nat.ltb j k) with false by (symmetry; apply Nat.ltb_ge; lia). replace (Nat.eqb j k) with false by (symmetry; apply Nat.eqb_neq; lia). ring. }
      cbn [rsum]. assert (Xk : x k = 1) by (unfold x; rewrite Nat.ltb_irrefl, Nat.eqb_refl; reflexivity). rewrite Xk.
      rewrite (rsum_ext k (fun j => G a j * x j) (fun j => G a j * z j)) by (intros j Hj; unfold x; replace (Nat.ltb j k) with true by (symmetry; apply Nat.ltb_lt; exact Hj); reflexivity).
      destruct (lt_dec a k) as [L|L].
      - assert (E : rsum k (fun j => G a j * z j) = - G a k).
        { apply (bsub_solves k G (fun i => - G i k)); [intros b c Hb Hc; apply U; lia|exact IH|exact L]. }
        rewrite E. ring.
      - rewrite rsum_zero by (intros j Hj; rewrite U by lia; ring). destruct (Nat.eq_dec a k) as [-> | Na]; [rewrite Z; ring|]. rewrite (U a k) by lia. ring. }
    unfold x in H. rewrite Nat.ltb_irrefl, Nat.eqb_refl in H. lra. }
  apply (A p). lia.
Qed.
(** ** what a successful evaluation of the likelihood provides *)
Record fit_ok (nt p : nat) (Rm F : mat) (y : vec) (pr : par) : Prop := {
  fo_C : chol_factor nt Rm (p_C pr);
  fo_Ft : forall i j, (i < nt)%nat -> mv nt (p_C pr) (fun a => p_Ft pr a j) i = F i j;
  fo_Q : forall i j, (i < p)%nat -> (j < p)%nat -> rsum nt (fun a => p_Q pr a i * p_Q pr a j) = if Nat.eqb i j then 1 else 0;
  fo_QG : forall a j, (a < nt)%nat -> (j < p)%nat -> p_Ft pr a j = rsum p (fun k => p_Q pr a k * p_G pr k j);
  fo_G : upper p (p_G pr);
  fo_D : diagnz p (p_G pr);
  fo_Y : forall i, (i < nt)%nat -> mv nt (p_C pr) (fsub (p_C pr) y nt) i = y i;
  fo_beta : forall i, (i < p)%nat -> mv p (p_G pr) (p_beta pr) i = mv nt (tr (p_Q pr)) (fsub (p_C pr) y nt) i;
  fo_gamma : forall i, (i < nt)%nat -> mv nt (tr (p_C pr)) (p_gamma pr) i = fsub (p_C pr) y nt i - mv p (p_Ft pr) (p_beta pr) i }.
Definition rho_of (nt p : nat) (y : vec) (pr : par) : vec := fun i => fsub (p_C pr) y nt i - mv p (p_Ft pr) (p_beta pr) i.
Lemma fit_facts qr rcond condF nt p dof Rm F y ystd v pr : qr_contract qr -> rcond_contract rcond -> (p <= nt)%nat -> msym nt Rm ->
  reduced_likelihood qr rcond condF nt p dof Rm F y ystd = Fit v pr ->
  fit_ok nt p Rm F y pr /\ p_sigma2 pr = dot nt (rho_of nt p y pr) (rho_of nt p y pr) / dof * ystd ^ 2.
Proof.
  intros HQ HR Hp S E. unfold reduced_likelihood in E. destruct (cholesky nt Rm) as [C|] eqn:EC; [|discriminate]. pose proof (chol_sound nt Rm C EC) as FC. cbv zeta in E.
  set (Ft := fun i j => solve_triangular nt C (fun a => F a j) true i) in *. pose proof (HQ nt p Ft Hp) as Q0. destruct (qr nt p Ft) as [Q G] eqn:EQ. destruct Q0 as (Q1 & Q2 & Q3).
  destruct (Rlt_dec (rcond p G) (1 / 10 ^ 10)) as [L|L]; [destruct (Rlt_dec _ _); discriminate|]. injection E as <- <-.
  assert (DG : diagnz p G).
  { apply upper_diagnz; [exact Q3|]. intros x Hx i Hi. destruct (Req_dec (x i) 0) as [Z|Z]; [exact Z|]. exfalso. apply L. rewrite (HR p G Q3); [apply Rdiv_lt_0_compat; [lra|apply pow_lt; lra]|].
    exists x. split; [exists i; split; assumption|exact Hx]. }
  assert (TC : lower nt C) by apply (chol_lower _ _ _ FC). assert (DC : diagnz nt C) by apply (chol_diag _ _ _ FC).
  split; [|reflexivity]. split; cbn [p_C p_Ft p_Q p_G p_beta p_gamma].
  - exact FC.
  - intros i j Hi. unfold Ft, solve_triangular. apply (fsub_solves nt C (fun a => F a j)); assumption.
  - exact Q1.
  - exact Q2.
  - exact Q3.
  - exact DG.
  - intros i Hi. apply fsub_solves; assumption.
  - intros i Hi. unfold solve_triangular. apply bsub_solves; assumption.
  - intros i Hi. rewrite bsub_solves; [reflexivity|apply (chol_upper_tr _ _ _ FC)|apply (chol_diag_tr _ _ _ FC)|exact Hi].
Qed.
Section Fit.
Variables (nt p : nat) (Rm F : mat) (y : vec) (pr : par).
Hypotheses (S : msym nt Rm) (O : fit_ok nt p Rm F y pr).
Let C := p_C pr.
Let Ft := p_Ft pr.
Let G := p_G pr.
Lemma C_F b i : (i < nt)%nat -> mv nt C (mv p Ft b) i = mv p F b i.
Proof.
  intros Hi. unfold mv at 1. unfold mv. transitivity (rsum p (fun j => rsum nt (fun a => C i a * Ft a j) * b j)).
  - rewrite (rsum_ext nt _ (fun a => rsum p (fun j => C i a * Ft a j * b j))) by (intros a Ha; rewrite <- rsum_scal_l; apply rsum_ext; intros; ring).
    rewrite rsum_swap. apply rsum_ext. intros j Hj. rewrite rsum_scal_r. reflexivity.
  - apply rsum_ext. intros j Hj. f_equal. apply (fo_Ft _ _ _ _ _ _ O i j Hi).
Qed.
Lemma R_gamma i : (i < nt)%nat -> mv nt Rm (p_gamma pr) i = y i - mv p F (p_beta pr) i.
Proof.
  intros Hi. rewrite <- (chol_mv nt Rm C _ S (fo_C _ _ _ _ _ _ O) i Hi).
  rewrite (mv_ext nt C C _ (fun i => fsub C y nt i - mv p Ft (p_beta pr) i) i) by (try reflexivity; intros; apply (fo_gamma _ _ _ _ _ _ O); assumption).
  rewrite mv_minus, C_F by exact Hi. f_equal. apply (fo_Y _ _ _ _ _ _ O). exact Hi.
Qed.
(** G'G = Ft'Ft *)
Lemma Ft_form b c : dot nt (mv p Ft b) (mv p Ft c) = dot p (mv p G b) (mv p G c).
Proof.
  assert (E : forall b a, (a < nt)%nat -> mv p Ft b a = mv p (p_Q pr) (mv p G b) a).
  { intros b' a Ha. unfold mv. rewrite (rsum_ext p _ (fun j => rsum p (fun k => p_Q pr a k * (G k j * b' j)))).
    - rewrite rsum_swap. apply rsum_ext. intros k Hk. rewrite rsum_scal_l. reflexivity.
    - intros j Hj. unfold Ft. rewrite (fo_QG _ _ _ _ _ _ O) by assumption. rewrite <- rsum_scal_r. apply rsum_ext. intros; unfold G; ring. }
  rewrite (dot_ext nt _ _ (mv p (p_Q pr) (mv p G b)) (mv p (p_Q pr) (mv p G c))) by (intros; apply E; assumption).
  rewrite dot_mv_tr. apply dot_ext; [reflexivity|]. intros k Hk. rewrite <- mv_mm. unfold mv at 1.
  rewrite (rsum_ext p _ (fun j => if Nat.eqb j k then mv p G c j else 0)); [apply (rsum_single p (mv p G c) k Hk)|].
  intros j Hj. unfold mm, tr. rewrite (fo_Q _ _ _ _ _ _ O) by assumption. rewrite (Nat.eqb_sym j k). destruct (Nat.eqb k j); ring.
Qed.
Lemma Ft_Y b : dot nt (mv p Ft b) (fsub C y nt) = dot p (mv p G b) (mv p G (p_beta pr)).
Proof.
  assert (E : forall a, (a < nt)%nat -> mv p Ft b a = mv p (p_Q pr) (mv p G b) a).
  { intros a Ha. unfold mv. rewrite (rsum_ext p _ (fun j => rsum p (fun k => p_Q pr a k * (G k j * b j)))).
    - rewrite rsum_swap. apply rsum_ext. intros k Hk. rewrite rsum_scal_l. reflexivity.
    - intros j Hj. unfold Ft. rewrite (fo_QG _ _ _ _ _ _ O) by assumption. rewrite <- rsum_scal_r. apply rsum_ext. intros; unfold G; ring. }
  rewrite (dot_ext nt _ (fsub C y nt) (mv p (p_Q pr) (mv p G b)) (fsub C y nt)) by (intros; try reflexivity; apply E; assumption).
  rewrite dot_mv_tr. apply dot_ext; [reflexivity|]. intros k Hk. symmetry. apply (fo_beta _ _ _ _ _ _ O k Hk).
Qed.
(** residual orthogonal to the trend *)
Lemma Ft_rho b : dot nt (mv p Ft b) (rho_of nt p y pr) = 0.
Proof. unfold rho_of. rewrite dot_minus_r. fold C Ft. rewrite Ft_Y, Ft_form. ring. Qed.
Lemma F_gamma b : dot nt (mv p F b) (p_gamma pr) = 0.
Proof.
  rewrite (dot_ext nt _ (p_gamma pr) (mv nt C (mv p Ft b)) (p_gamma pr)) by (intros; try reflexivity; symmetry; apply C_F; assumption).
  rewrite dot_mv_tr. etransitivity; [|apply (Ft_rho b)]. apply dot_ext; [reflexivity|]. intros i Hi. apply (fo_gamma _ _ _ _ _ _ O i Hi).
Qed.
Lemma gamma_rho : dot nt (p_gamma pr) (fun i => y i - mv p F (p_beta pr) i) = dot nt (rho_of nt p y pr) (rho_of nt p y pr).
Proof.
  rewrite (dot_ext nt (p_gamma pr) _ (p_gamma pr) (mv nt Rm (p_gamma pr))) by (intros; try reflexivity; symmetry; apply R_gamma; assumption).
  rewrite (chol_form nt Rm C _ S (fo_C _ _ _ _ _ _ O)). apply dot_ext; intros i Hi; apply (fo_gamma _ _ _ _ _ _ O i Hi).
Qed.
Lemma gls_min b v : gls_residual nt p Rm F y b v -> dot nt (rho_of nt p y pr) (rho_of nt p y pr) <= v.
Proof.
  intros (g & Hg & ->). set (h := fun i => g i - p_gamma pr i).
  assert (Eh : forall i, (i < nt)%nat -> mv nt Rm h i = mv p F (fun j => p_beta pr j - b j) i).
  { intros i Hi. unfold h. rewrite mv_minus, Hg, R_gamma, mv_minus by assumption. ring. }
  rewrite (dot_ext nt g (fun i => y i - mv p F b i) g (mv nt Rm g)) by (intros; try reflexivity; symmetry; apply Hg; assumption).
  assert (P : 0 <= dot nt h (mv nt Rm h)). { rewrite (chol_form nt Rm C h S (fo_C _ _ _ _ _ _ O)). apply dot_self_nonneg. }
  assert (Z : dot nt (p_gamma pr) (mv nt Rm h) = 0).
  { rewrite (dot_ext nt (p_gamma pr) _ (p_gamma pr) (mv p F (fun j => p_beta pr j - b j))) by (intros; try reflexivity; apply Eh; assumption). rewrite dot_sym. apply F_gamma. }
  assert (Q : dot nt g (mv nt Rm g) = dot nt (p_gamma pr) (mv nt Rm (p_gamma pr)) + 2 * dot nt (p_gamma pr) (mv nt Rm h) + dot nt h (mv nt Rm h)).
  { rewrite (dot_ext nt g (mv nt Rm g) (fun i => p_gamma pr i + h i) (fun i => mv nt Rm (p_gamma pr) i + mv nt Rm h i)).
    - rewrite dot_plus_l, !dot_plus_r. rewrite (dot_mv_sym nt Rm h (p_gamma pr) S). ring.
    - intros i _. unfold h. ring.
    - intros i _. unfold h. rewrite mv_minus. ring. }
  rewrite Q, Z. rewrite <- gamma_rho. rewrite (dot_ext nt (p_gamma pr) (fun i => y i - mv p F (p_beta pr) i) (p_gamma pr) (mv nt Rm (p_gamma pr))) by (intros; try reflexivity; symmetry; apply R_gamma; assumption). lra.
Qed.
(** ** best linear unbiased prediction at a point with correlations r and trend f *)
Variables (r f : vec).
Let rt := fsub C r nt.
Let b := fun j => mv nt (tr Ft) rt j - f j.
Let u := fsub (tr G) b p.
Let mu := bsub p G u p.
Definition wstar : vec := bsub nt (tr C) (fun i => rt i - mv p Ft mu i) nt.
Lemma rt_eq i : (i < nt)%nat -> mv nt C rt i = r i.
Proof. intros Hi. apply fsub_solves; [apply (chol_lower _ _ _ (fo_C _ _ _ _ _ _ O))|apply (chol_diag _ _ _ (fo_C _ _ _ _ _ _ O))|exact Hi]. Qed.
Lemma u_eq i : (i < p)%nat -> mv p (tr G) u i = b i.
Proof.
  intros Hi. apply fsub_solves; [|intros j Hj; apply (fo_D _ _ _ _ _ _ O j Hj)|exact Hi]. intros a c Ha Hac. apply (fo_G _ _ _ _ _ _ O); assumption.
Qed.
Lemma mu_eq i : (i < p)%nat -> mv p G mu i = u i.
Proof. intros Hi. apply bsub_solves; [apply (fo_G _ _ _ _ _ _ O)|apply (fo_D _ _ _ _ _ _ O)|exact Hi]. Qed.
Lemma w_eq i : (i < nt)%nat -> mv nt (tr C) wstar i = rt i - mv p Ft mu i.
Proof. intros Hi. unfold wstar. rewrite bsub_solves; [reflexivity|apply (chol_upper_tr _ _ _ (fo_C _ _ _ _ _ _ O))|apply (chol_diag_tr _ _ _ (fo_C _ _ _ _ _ _ O))|exact Hi]. Qed.
Lemma Rw_eq i : (i < nt)%nat -> mv nt Rm wstar i = r i - mv p F mu i.
Proof.
  intros Hi. rewrite <- (chol_mv nt Rm C _ S (fo_C _ _ _ _ _ _ O) i Hi).
  rewrite (mv_ext nt C C _ (fun i => rt i - mv p Ft mu i) i) by (try reflexivity; intros; apply w_eq; assumption).
  rewrite mv_minus, C_F, rt_eq by exact Hi. reflexivity.
Qed.
(** F'w = Ft'(C'w) *)
Lemma F_w w j : (j < p)%nat -> rsum nt (fun a => F a j * w a) = rsum nt (fun a => Ft a j * mv nt (tr C) w a).
Proof.
  intros Hj. rewrite (rsum_ext nt _ (fun a => rsum nt (fun k => C a k * Ft k j * w a))).
  - rewrite rsum_swap. apply rsum_ext. intros k Hk. unfold mv, tr. rewrite <- rsum_scal_l. apply rsum_ext. intros. ring.
  - intros a Ha. rewrite <- (fo_Ft _ _ _ _ _ _ O a j Ha). unfold mv. rewrite <- rsum_scal_r. reflexivity.
Qed.
Lemma Ft_Ft_mu j : (j < p)%nat -> rsum nt (fun a => Ft a j * mv p Ft mu a) = b j.
Proof.
  intros Hj. rewrite <- u_eq by exact Hj.
  set (ej := fun k => if Nat.eqb k j then 1 else 0).
  assert (E : forall (A : mat) a, mv p A ej a = A a j). { intros A a. unfold mv, ej. rewrite (rsum_ext p _ (fun k => if Nat.eqb k j then A a k else 0)); [apply (rsum_single p (A a) j Hj)|]. intros k _. destruct (Nat.eqb k j); ring. }
  transitivity (dot nt (mv p Ft ej) (mv p Ft mu)); [unfold dot; apply rsum_ext; intros a Ha; rewrite E; reflexivity|]. rewrite Ft_form.
  rewrite (dot_ext p _ (mv p G mu) (fun k => G k j) u) by (intros; first [apply mu_eq; assumption|apply E]). reflexivity.
Qed.
Lemma w_unbiased : unbiased nt p F f wstar.
Proof.
  intros j Hj. rewrite F_w by exact Hj.
  rewrite (rsum_ext nt _ (fun a => Ft a j * rt a - Ft a j * mv p Ft mu a)) by (intros a Ha; rewrite w_eq by exact Ha; ring).
  rewrite rsum_minus, Ft_Ft_mu by exact Hj. unfold b, mv, tr. ring.
Qed.
Lemma mse_split w : unbiased nt p F f w -> mse nt Rm r w = mse nt Rm r wstar + dot nt (fun i => w i - wstar i) (mv nt Rm (fun i => w i - wstar i)).
Proof.
  intros U. set (h := fun i => w i - wstar i).
  assert (Z : dot nt h (mv nt Rm wstar) = dot nt h r).
  { rewrite (dot_ext nt h (mv nt Rm wstar) h (fun i => r i - mv p F mu i)) by (intros; try reflexivity; apply Rw_eq; assumption).
    rewrite dot_minus_r. assert (Q : dot nt h (mv p F mu) = 0); [|rewrite Q; ring].
    unfold dot, mv. rewrite (rsum_ext nt _ (fun i => rsum p (fun j => mu j * (F i j * h i)))) by (intros i Hi; rewrite <- rsum_scal_l; apply rsum_ext; intros; ring).
    rewrite rsum_swap. apply rsum_zero. intros j Hj. rewrite rsum_scal_l. unfold h. rewrite (rsum_ext nt _ (fun i => F i j * w i - F i j * wstar i)) by (intros; ring).
    rewrite rsum_minus, (U j Hj), (w_unbiased j Hj). ring. }
  unfold mse.
  assert (Q : dot nt w (mv nt Rm w) = dot nt wstar (mv nt Rm wstar) + 2 * dot nt h (mv nt Rm wstar) + dot nt h (mv nt Rm h)).
  { rewrite (dot_ext nt w (mv nt Rm w) (fun i => wstar i + h i) (fun i => mv nt Rm wstar i + mv nt Rm h i)).
    - rewrite dot_plus_l, !dot_plus_r. rewrite (dot_mv_sym nt Rm wstar h S). ring.
    - intros i _. unfold h. ring.
    - intros i _. unfold h. rewrite mv_minus. ring. }
  assert (Q2 : dot nt w r = dot nt wstar r + dot nt h r). { rewrite (dot_ext nt w r (fun i => wstar i + h i) r) by (intros; unfold h; ring). apply dot_plus_l. }
  rewrite Q, Q2, Z. ring.
Qed.
Lemma w_blup : blup nt p Rm F r f wstar.
Proof.
  split; [exact w_unbiased|]. intros w U. rewrite (mse_split w U). set (h := fun i => w i - wstar i).
  assert (0 <= dot nt h (mv nt Rm h)); [|lra]. rewrite (chol_form nt Rm C h S (fo_C _ _ _ _ _ _ O)). apply dot_self_nonneg.
Qed.
Lemma blup_unique w : blup nt p Rm F r f w -> forall i, (i < nt)%nat -> w i = wstar i.
Proof.
  intros [U M] i Hi. pose proof (M wstar w_unbiased) as L. rewrite (mse_split w U) in L. set (h := fun i => w i - wstar i) in *.
  destruct (nonzero_dec nt h) as [W|Z]; [|specialize (Z i Hi); unfold h in Z; lra]. pose proof (chol_pd nt Rm C S (fo_C _ _ _ _ _ _ O) h W). lra.
Qed.
Lemma w_mse : mse nt Rm r wstar = 1 - dot nt rt rt + dot p u u.
Proof.
  unfold mse. rewrite (dot_ext nt wstar (mv nt Rm wstar) wstar (fun i => r i - mv p F mu i)) by (intros; try reflexivity; apply Rw_eq; assumption).
  assert (A : forall v : vec, dot nt wstar (mv nt C v) = dot nt (fun i => rt i - mv p Ft mu i) v).
  { intros v. rewrite dot_sym, dot_mv_tr, dot_sym. apply dot_ext; [intros; apply w_eq; assumption|reflexivity]. }
  assert (A1 : dot nt wstar r = dot nt (fun i => rt i - mv p Ft mu i) rt). { rewrite <- A. apply dot_ext; [reflexivity|]. intros i Hi. symmetry. apply rt_eq. exact Hi. }
  assert (A2 : dot nt wstar (mv p F mu) = dot nt (fun i => rt i - mv p Ft mu i) (mv p Ft mu)). { rewrite <- A. apply dot_ext; [reflexivity|]. intros i Hi. symmetry. apply C_F. exact Hi. }
  rewrite dot_minus_r, A1, A2. rewrite !dot_minus_l. rewrite Ft_form. rewrite (dot_ext p (mv p G mu) (mv p G mu) u u) by (intros; apply mu_eq; assumption). rewrite (dot_sym nt rt (mv p Ft mu)). ring.
Qed.
Lemma w_mean : dot nt wstar y = dot p f (p_beta pr) + dot nt r (p_gamma pr).
Proof.
  assert (A1 : dot nt wstar y = dot nt (fun i => rt i - mv p Ft mu i) (fsub C y nt)).
  { rewrite (dot_ext nt wstar y wstar (mv nt C (fsub C y nt))) by (intros; try reflexivity; symmetry; apply (fo_Y _ _ _ _ _ _ O); assumption).
    rewrite dot_sym, dot_mv_tr, dot_sym. apply dot_ext; [intros; apply w_eq; assumption|reflexivity]. }
  assert (A2 : dot nt r (p_gamma pr) = dot nt rt (rho_of nt p y pr)).
  { rewrite (dot_ext nt r (p_gamma pr) (mv nt C rt) (p_gamma pr)) by (intros; try reflexivity; symmetry; apply rt_eq; assumption). rewrite dot_mv_tr. apply dot_ext; [reflexivity|]. intros i Hi. apply (fo_gamma _ _ _ _ _ _ O i Hi). }
  assert (A3 : dot nt (mv p Ft mu) (fsub C y nt) = dot p b (p_beta pr)).
  { rewrite Ft_Y. rewrite (dot_ext p (mv p G mu) (mv p G (p_beta pr)) u (mv p G (p_beta pr))) by (intros; try reflexivity; apply mu_eq; assumption).
    rewrite dot_sym, dot_mv_tr, dot_sym. apply dot_ext; [intros; apply u_eq; assumption|reflexivity]. }
  assert (A4 : dot p b (p_beta pr) = dot nt rt (mv p Ft (p_beta pr)) - dot p f (p_beta pr)).
  { unfold b. rewrite dot_minus_l. f_equal. rewrite dot_mv_tr. reflexivity. }
  rewrite A1, dot_minus_l, A3, A4, A2. unfold rho_of. rewrite dot_minus_r. fold C Ft. ring.
Qed.
End Fit.
