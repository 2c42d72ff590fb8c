(** Kriging trained on reordered data. *)
From Coq Require Import Reals Arith Bool List Lia Lra FunctionalExtensionality.
From Verif Require Import RSum Mat Tri_M Tri_P Kernels_M Krg_M Krg_S Krg_P Krg_P2 Krg_P3 Krg_P5 Het_S Het_P4 Order_S Order_P1 Order_P2 Order_P3.
Import ListNotations.
Open Scope list_scope.
Open Scope R_scope.
Lemma mean_reorder n f v : reorder n f -> mean n (fun i => v (f i)) = mean n v.
Proof. intros RO. unfold mean. rewrite (rsum_reorder n f v RO). reflexivity. Qed.
Lemma scale_reorder n f v : reorder n f -> scale1 n (fun i => v (f i)) = scale1 n v.
Proof.
  intros RO. unfold scale1. assert (E : std1 n (fun i => v (f i)) = std1 n v); [|rewrite E; reflexivity]. unfold std1. rewrite (mean_reorder n f v RO).
  rewrite (rsum_reorder n f (fun i => (v i - mean n v) ^ 2) RO). reflexivity.
Qed.
Lemma bsub_ext n U b b' : (forall i, (i < n)%nat -> b i = b' i) -> forall k i, (k <= n)%nat -> bsub n U b k i = bsub n U b' k i.
Proof.
  intros H k. induction k as [|k IH]; intros i Hk; [reflexivity|]. cbn [bsub]. unfold upd. destruct (Nat.eqb i (n - S k)); [|apply IH; lia]. rewrite H by lia. f_equal. f_equal. apply rsum_ext. intros j Hj. rewrite IH by lia. reflexivity.
Qed.
Section K.
Variables (nx nt : nat) (po : poly) (s : kspec) (nugget : R) (noise : vec) (X : nat -> vec) (y : vec) (f : nat -> nat).
Hypothesis RO : reorder nt f.
Let X' : nat -> vec := fun i => X (f i).
Let y' : vec := fun i => y (f i).
Let noise' : vec := fun i => noise (f i).
Lemma m_eq : (fun c => mean nt (fun a => X' a c)) = (fun c => mean nt (fun a => X a c)).
Proof. apply functional_extensionality. intros c. apply (mean_reorder nt f (fun a => X a c) RO). Qed.
Lemma s_eq : (fun c => scale1 nt (fun a => X' a c)) = (fun c => scale1 nt (fun a => X a c)).
Proof. apply functional_extensionality. intros c. apply (scale_reorder nt f (fun a => X a c) RO). Qed.
Lemma Xn_eq i : Xnorm nt X' i = Xnorm nt X (f i).
Proof. apply functional_extensionality. intros c. unfold Xnorm. rewrite (mean_reorder nt f (fun a => X a c) RO : mean nt (fun a => X' a c) = _), (scale_reorder nt f (fun a => X a c) RO : scale1 nt (fun a => X' a c) = _). reflexivity. Qed.
Lemma yn_eq i : ynorm nt y' i = ynorm nt y (f i).
Proof. unfold ynorm. rewrite (mean_reorder nt f y RO : mean nt y' = _), (scale_reorder nt f y RO : scale1 nt y' = _). reflexivity. Qed.
Lemma R_eq i j : (i < nt)%nat -> (j < nt)%nat -> corr_matrix s nx nt (Xnorm nt X') nugget noise' i j = corr_matrix s nx nt (Xnorm nt X) nugget noise (f i) (f j).
Proof.
  intros Hi Hj. rewrite !corr_matrix_spec by (try apply RO; assumption). rewrite !Xn_eq. destruct (Nat.eqb_spec i j) as [-> | N].
  - rewrite Nat.eqb_refl. reflexivity.
  - destruct (Nat.eqb_spec (f i) (f j)) as [E|_]; [exfalso; apply N; apply RO; assumption|reflexivity].
Qed.
Section Con.
Variables (qr : nat -> nat -> mat -> mat * mat) (rcond : nat -> mat -> R) (condF : nat -> nat -> mat -> R).
Hypotheses (HQ : qr_contract qr) (HR : rcond_contract rcond) (HG : rcond_gram rcond) (HC : cond_rows condF).
Lemma k_outcome dof : (n_regr po nx <= nt)%nat -> same_outcome (n_regr po nx)
  (reduced_likelihood qr rcond condF nt (n_regr po nx) dof (corr_matrix s nx nt (Xnorm nt X) nugget noise) (fun i j => fvec po nx (Xnorm nt X i) j) (ynorm nt y) (scale1 nt y))
  (reduced_likelihood qr rcond condF nt (n_regr po nx) dof (corr_matrix s nx nt (Xnorm nt X') nugget noise') (fun i j => fvec po nx (Xnorm nt X' i) j) (ynorm nt y') (scale1 nt y')).
Proof.
  intros Hp. rewrite (scale_reorder nt f y RO : scale1 nt y' = _). apply (outcome qr rcond condF HQ HR HG HC nt (n_regr po nx) f).
  - exact Hp.
  - exact RO.
  - apply corr_matrix_sym.
  - exact R_eq.
  - intros i j Hi Hj. cbn beta. rewrite Xn_eq. reflexivity.
  - intros i Hi. apply yn_eq.
Qed.
Lemma k_trains m : krg_train qr rcond condF nx nt po s nugget noise X y = Some m -> exists m', krg_train qr rcond condF nx nt po s nugget noise' X' y' = Some m'.
Proof.
  unfold krg_train. cbv zeta. intros E. destruct (Nat.leb nt 1); [discriminate|]. destruct (Nat.ltb_spec nt (n_regr po nx)) as [|Hp]; [discriminate|].
  pose proof (k_outcome (INR nt) Hp) as SO. destruct (reduced_likelihood _ _ _ _ _ _ (corr_matrix s nx nt (Xnorm nt X) nugget noise) _ _ _); try discriminate.
  destruct (reduced_likelihood _ _ _ _ _ _ (corr_matrix s nx nt (Xnorm nt X') nugget noise') _ _ _); try contradiction. eexists. reflexivity.
Qed.
End Con.
Section Models.
Variables (m m' : model).
Hypotheses (T : trained nx nt po s nugget noise X y m) (T' : trained nx nt po s nugget noise' X' y' m').
Let p := n_regr po nx.
Let O := t_fit _ _ _ _ _ _ _ _ _ T.
Let O' := t_fit _ _ _ _ _ _ _ _ _ T'.
Let Sy := corr_matrix_sym s nx nt (Xnorm nt X) nugget noise.
Let HF : forall i j, (i < nt)%nat -> (j < p)%nat -> Fmat po nx nt X' i j = Fmat po nx nt X (f i) j.
Proof. intros i j Hi Hj. unfold Fmat. rewrite Xn_eq. reflexivity. Qed.
Let HY : forall i, (i < nt)%nat -> ynorm nt y' i = ynorm nt y (f i).
Proof. intros i Hi. apply yn_eq. Qed.
Lemma k_beta j : (j < p)%nat -> p_beta (m_par m') j = p_beta (m_par m) j.
Proof. exact (f_beta nt p f _ _ _ _ _ _ _ _ RO Sy R_eq HF HY O O' j). Qed.
Lemma k_gamma i : (i < nt)%nat -> p_gamma (m_par m') i = p_gamma (m_par m) (f i).
Proof. exact (f_gamma nt p f _ _ _ _ _ _ _ _ RO Sy R_eq HF HY O O' i). Qed.
Lemma k_s2 : p_sigma2 (m_par m') = p_sigma2 (m_par m).
Proof.
  rewrite (t_s2 _ _ _ _ _ _ _ _ _ T), (t_s2 _ _ _ _ _ _ _ _ _ T'). rewrite (f_rho nt (n_regr po nx) f _ _ _ _ _ _ _ _ RO Sy R_eq HF HY O O'). rewrite (scale_reorder nt f y RO : scale1 nt y' = _). reflexivity.
Qed.
Let M : m = {| m_nx := nx; m_nt := nt; m_poly := po; m_k := s; m_Xn := Xnorm nt X; m_off := (fun c => mean nt (fun a => X a c)); m_scale := (fun c => scale1 nt (fun a => X a c)); m_ymean := mean nt y; m_ystd := scale1 nt y; m_par := m_par m |}.
Proof. exact (t_m _ _ _ _ _ _ _ _ _ T). Qed.
Let M' : m' = {| m_nx := nx; m_nt := nt; m_poly := po; m_k := s; m_Xn := Xnorm nt X'; m_off := (fun c => mean nt (fun a => X a c)); m_scale := (fun c => scale1 nt (fun a => X a c)); m_ymean := mean nt y; m_ystd := scale1 nt y; m_par := m_par m' |}.
Proof. pose proof (t_m _ _ _ _ _ _ _ _ _ T') as H. rewrite m_eq, s_eq, (mean_reorder nt f y RO : mean nt y' = _), (scale_reorder nt f y RO : scale1 nt y' = _) in H. exact H. Qed.
Lemma k_xn x : xn m' x = xn m x.
Proof. rewrite M, M'. reflexivity. Qed.
Lemma k_r x i : rvec m' x i = rvec m x (f i).
Proof. unfold rvec. rewrite k_xn. rewrite M, M'. cbn [m_k m_nx m_Xn]. rewrite Xn_eq. reflexivity. Qed.
Lemma k_value x : predict_value m' x = predict_value m x.
Proof.
  unfold predict_value. cbv zeta. rewrite k_xn. assert (E1 : m_nx m' = nx /\ m_nt m' = nt /\ m_poly m' = po /\ m_ymean m' = mean nt y /\ m_ystd m' = scale1 nt y) by (rewrite M'; repeat split).
  assert (E2 : m_nx m = nx /\ m_nt m = nt /\ m_poly m = po /\ m_ymean m = mean nt y /\ m_ystd m = scale1 nt y) by (rewrite M; repeat split).
  destruct E1 as (-> & -> & -> & -> & ->). destruct E2 as (-> & -> & -> & -> & ->). f_equal. f_equal. f_equal.
  - apply dot_ext; [reflexivity|]. exact k_beta.
  - unfold dot. rewrite (rsum_ext nt _ (fun i => (fun i => rvec m x i * p_gamma (m_par m) i) (f i))); [apply (rsum_reorder nt f (fun i => rvec m x i * p_gamma (m_par m) i) RO)|].
    intros i Hi. rewrite k_r, k_gamma by exact Hi. reflexivity.
Qed.
Lemma k_deriv x kx : predict_derivative m' x kx = predict_derivative m x kx.
Proof.
  unfold predict_derivative. cbv zeta. rewrite k_xn. assert (E1 : m_nx m' = nx /\ m_nt m' = nt /\ m_poly m' = po /\ m_k m' = s /\ m_ystd m' = scale1 nt y /\ m_scale m' = m_scale m) by (rewrite M', M; repeat split).
  assert (E2 : m_nx m = nx /\ m_nt m = nt /\ m_poly m = po /\ m_k m = s /\ m_ystd m = scale1 nt y) by (rewrite M; repeat split).
  destruct E1 as (-> & -> & -> & -> & -> & ->). destruct E2 as (-> & -> & -> & -> & ->).
  assert (EB : forall g : vec, dot p g (p_beta (m_par m')) = dot p g (p_beta (m_par m))) by (intros g; apply dot_ext; [reflexivity|exact k_beta]).
  assert (EG : dot nt (fun i => (xn m x kx - m_Xn m' i kx) * rvec m' x i) (p_gamma (m_par m')) = dot nt (fun i => (xn m x kx - m_Xn m i kx) * rvec m x i) (p_gamma (m_par m))).
  { unfold dot. rewrite (rsum_ext nt _ (fun i => (fun i => (xn m x kx - m_Xn m i kx) * rvec m x i * p_gamma (m_par m) i) (f i))); [apply (rsum_reorder nt f (fun i => (xn m x kx - m_Xn m i kx) * rvec m x i * p_gamma (m_par m) i) RO)|].
    intros i Hi. rewrite k_r, k_gamma by exact Hi. assert (EX : m_Xn m' i kx = m_Xn m (f i) kx) by (rewrite M', M; cbn [m_Xn]; rewrite Xn_eq; reflexivity). rewrite EX. reflexivity. }
  rewrite EG. destruct (k_corr s); try reflexivity. destruct po; try reflexivity; fold p in EB; rewrite EB; reflexivity.
Qed.
Lemma k_rtrt x : dot nt (rt m' x) (rt m' x) = dot nt (rt m x) (rt m x).
Proof.
  unfold rt. assert (E : m_nt m' = nt /\ m_nt m = nt) by (rewrite M', M; split; reflexivity). destruct E as [-> ->]. unfold solve_triangular.
  apply (two_dot nt f _ _ _ _ RO Sy R_eq (fo_C _ _ _ _ _ _ O) (fo_C _ _ _ _ _ _ O')); intros i Hi; apply k_r.
Qed.
Lemma k_u x j : (j < p)%nat -> u_rhs m' x j = u_rhs m x j.
Proof.
  intros Hj. unfold u_rhs. rewrite k_xn. assert (E : m_nt m' = nt /\ m_nt m = nt /\ m_poly m' = po /\ m_poly m = po /\ m_nx m' = nx /\ m_nx m = nx) by (rewrite M', M; repeat split). destruct E as (-> & -> & -> & -> & -> & ->). f_equal.
  change (dot nt (fun a => p_Ft (m_par m') a j) (rt m' x) = dot nt (fun a => p_Ft (m_par m) a j) (rt m x)).
  rewrite (dot_ext nt _ _ _ _ (fun a Ha => Ft_fsub nt p _ _ _ (m_par m) j a O Ha) (fun a _ => eq_refl (rt m x a))).
  rewrite (dot_ext nt _ _ _ _ (fun a Ha => Ft_fsub nt p _ _ _ (m_par m') j a O' Ha) (fun a _ => eq_refl (rt m' x a))).
  unfold rt. assert (E : m_nt m' = nt /\ m_nt m = nt) by (rewrite M', M; split; reflexivity). destruct E as [-> ->]. unfold solve_triangular.
  apply (two_dot nt f _ _ _ _ RO Sy R_eq (fo_C _ _ _ _ _ _ O) (fo_C _ _ _ _ _ _ O')); intros i Hi; [apply HF; assumption|apply k_r].
Qed.
Lemma k_variance x : predict_variance m' x = predict_variance m x.
Proof.
  unfold predict_variance. cbv zeta. assert (E : m_nt m' = nt /\ m_nt m = nt /\ m_poly m' = po /\ m_poly m = po /\ m_nx m' = nx /\ m_nx m = nx) by (rewrite M', M; repeat split). destruct E as (-> & -> & -> & -> & -> & ->).
  rewrite k_s2, k_rtrt. fold p.
  assert (U : forall mm, upper p (p_G (m_par mm)) -> dot p (solve_triangular p (tr (p_G (m_par mm))) (u_rhs mm x) false) (solve_triangular p (tr (p_G (m_par mm))) (u_rhs mm x) false) = rsum p (fun j => u_rhs mm x j ^ 2 / p_G (m_par mm) j j ^ 2)).
  { intros mm Up. unfold dot. apply rsum_ext. intros j Hj. unfold solve_triangular. rewrite (diag_bsub 0%nat po); [|right; exact I|lia| |lia].
    - unfold Rdiv. rewrite <- (pow_inv (p_G (m_par mm) j j) 2). ring.
    - intros a c Ha Hc. exact (Up c a Hc Ha). }
  rewrite (U m (fo_G _ _ _ _ _ _ O)), (U m' (fo_G _ _ _ _ _ _ O')).
  assert (EE : rsum p (fun j => u_rhs m' x j ^ 2 / p_G (m_par m') j j ^ 2) = rsum p (fun j => u_rhs m x j ^ 2 / p_G (m_par m) j j ^ 2)).
  { apply rsum_ext. intros j Hj. rewrite k_u by exact Hj. rewrite (f_diag nt p f _ _ _ _ _ _ _ _ RO Sy R_eq HF O O' j Hj). reflexivity. }
  rewrite EE. reflexivity.
Qed.
(** bilinear form with the inverse of the correlation matrix *)
Lemma inv_dot (k : nat) (A C : mat) (b c : vec) : msym k A -> chol_factor k A C -> dot k c (solve_triangular k (tr C) (solve_triangular k C b true) false) = dot k (fsub C b k) (fsub C c k).
Proof. intros Ss Fc. symmetry. rewrite dot_sym. rewrite dot_sym. rewrite (dot_fsub k A C b c _ Ss Fc (fun i Hi => chol_solve k A C b Ss Fc i Hi)). rewrite dot_sym. reflexivity. Qed.
Lemma k_inv b b' c c' : (forall i, (i < nt)%nat -> b' i = b (f i)) -> (forall i, (i < nt)%nat -> c' i = c (f i)) ->
  dot nt c' (solve_triangular nt (tr (p_C (m_par m'))) (solve_triangular nt (p_C (m_par m')) b' true) false) = dot nt c (solve_triangular nt (tr (p_C (m_par m))) (solve_triangular nt (p_C (m_par m)) b true) false).
Proof.
  intros Hb Hc. rewrite (inv_dot nt _ _ b c Sy (fo_C _ _ _ _ _ _ O)), (inv_dot nt _ _ b' c' (corr_matrix_sym _ _ _ _ _ _) (fo_C _ _ _ _ _ _ O')).
  apply (two_dot nt f _ _ _ _ RO Sy R_eq (fo_C _ _ _ _ _ _ O) (fo_C _ _ _ _ _ _ O')); assumption.
Qed.
Lemma k_vderiv x kx : predict_variance_derivative m' x kx = predict_variance_derivative m x kx.
Proof.
  unfold predict_variance_derivative. cbv zeta. rewrite k_xn. assert (E : m_nt m' = nt /\ m_nt m = nt /\ m_poly m' = po /\ m_poly m = po /\ m_nx m' = nx /\ m_nx m = nx /\ m_k m' = s /\ m_k m = s /\ m_scale m' = m_scale m) by (rewrite M', M; repeat split). destruct E as (-> & -> & -> & -> & -> & -> & -> & -> & ->).
  set (dd' := fun i => kd_dx s nx (fun j => xn m x j - m_Xn m' i j) kx). set (dd := fun i => kd_dx s nx (fun j => xn m x j - m_Xn m i j) kx).
  assert (DD : forall i, dd' i = dd (f i)). { intros i. unfold dd', dd. assert (EX : m_Xn m' i = m_Xn m (f i)) by (rewrite M', M; cbn [m_Xn]; apply Xn_eq). rewrite EX. reflexivity. }
  assert (D0 : (dd' 0%nat = None <-> dd 0%nat = None)).
  { unfold dd', dd. destruct s as [c th|c nc co th]; cbn [kd_dx]; [|split; discriminate]. destruct c; cbn; split; (discriminate || reflexivity). }
  set (dr' := fun i => match dd' i with Some v => v | None => 0 end). set (dr := fun i => match dd i with Some v => v | None => 0 end).
  assert (DR : forall i, (i < nt)%nat -> dr' i = dr (f i)) by (intros i _; unfold dr', dr; rewrite DD; reflexivity).
  assert (RR : forall i, (i < nt)%nat -> rvec m' x i = rvec m x (f i)) by (intros i _; apply k_r).
  assert (FX : forall j i, (i < nt)%nat -> fvec po nx (m_Xn m' i) j = fvec po nx (m_Xn m (f i)) j). { intros j i _. assert (EX : m_Xn m' i = m_Xn m (f i)) by (rewrite M', M; cbn [m_Xn]; apply Xn_eq). rewrite EX. reflexivity. }
  fold p.
  set (K' := fun j => solve_triangular nt (tr (p_C (m_par m'))) (solve_triangular nt (p_C (m_par m')) (fun i => fvec po nx (m_Xn m' i) j) true) false).
  set (K := fun j => solve_triangular nt (tr (p_C (m_par m))) (solve_triangular nt (p_C (m_par m)) (fun i => fvec po nx (m_Xn m i) j) true) false).
  set (z' := solve_triangular nt (tr (p_C (m_par m'))) (solve_triangular nt (p_C (m_par m')) (rvec m' x) true) false).
  set (z := solve_triangular nt (tr (p_C (m_par m))) (solve_triangular nt (p_C (m_par m)) (rvec m x) true) false).
  assert (E1 : dot nt dr' z' = dot nt dr z) by (apply k_inv; assumption).
  assert (E2 : forall j, dot nt (rvec m' x) (K' j) = dot nt (rvec m x) (K j)) by (intros j; apply k_inv; [apply FX|exact RR]).
  assert (E3 : forall j, dot nt dr' (K' j) = dot nt dr (K j)) by (intros j; apply k_inv; [apply FX|exact DR]).
  set (B' := fun j l => rsum nt (fun i => fvec po nx (m_Xn m' i) j * K' l i)). set (B := fun j l => rsum nt (fun i => fvec po nx (m_Xn m i) j * K l i)).
  assert (E4 : forall j l, B' j l = B j l) by (intros j l; apply (k_inv (fun i => fvec po nx (m_Xn m i) l) _ (fun i => fvec po nx (m_Xn m i) j)); apply FX).
  assert (E5 : cholesky p B' = cholesky p B) by (apply chol_ext; intros; apply E4).
  assert (E6 : (fun j => fvec po nx (xn m x) j - dot nt (rvec m' x) (K' j)) = (fun j => fvec po nx (xn m x) j - dot nt (rvec m x) (K j))) by (apply functional_extensionality; intros j; rewrite E2; reflexivity).
  assert (E7 : (fun j => match df po j kx with Some v => v | None => 0 end - dot nt dr' (K' j)) = (fun j => match df po j kx with Some v => v | None => 0 end - dot nt dr (K j))) by (apply functional_extensionality; intros j; rewrite E3; reflexivity).
  pose (vd := fun (d0 : option R) (p1 p2 : R) (B A dA : mat) (b : vec) (s2 : R) => match d0, po with None, _ => None | _, PQuadratic => None | _, _ =>
    match cholesky p B with None => None | Some rho3 => let D := solve_triangular p (tr rho3) (solve_triangular p rho3 (A 0%nat) true) false in Some (s2 * (- p1 - p2 + dot p (dA 0%nat) D + dot p D (dA 0%nat)) / m_scale m kx) end end).
  change (vd (dd' 0%nat) (dot nt dr' z') (dot nt z' dr') B' (fun _ j => fvec po nx (xn m x) j - dot nt (rvec m' x) (K' j)) (fun _ j => match df po j kx with Some v => v | None => 0 end - dot nt dr' (K' j)) (fun _ => 0) (p_sigma2 (m_par m'))
        = vd (dd 0%nat) (dot nt dr z) (dot nt z dr) B (fun _ j => fvec po nx (xn m x) j - dot nt (rvec m x) (K j)) (fun _ j => match df po j kx with Some v => v | None => 0 end - dot nt dr (K j)) (fun _ => 0) (p_sigma2 (m_par m))).
  rewrite (dot_sym nt z' dr'), (dot_sym nt z dr), E1, k_s2. rewrite E6, E7. unfold vd. rewrite E5.
  destruct (dd' 0%nat) as [v'|] eqn:Q'; destruct (dd 0%nat) as [v|] eqn:Q.
  - reflexivity.
  - exfalso. pose proof (proj2 D0 eq_refl). discriminate.
  - exfalso. pose proof (proj1 D0 eq_refl). discriminate.
  - reflexivity.
Qed.
End Models.
End K.
