From Coq Require Import Reals Arith Bool List Lia Lra FunctionalExtensionality.
From Coquelicot Require Import Coquelicot.
From Verif Require Import RSum Mat Psd Psd2 Tri_M Tri_P Kernels_M Kernels_P Kernels_P2 Kernels_P3 Krg_M Krg_S Krg_P Krg_P2 Krg_P3 Krg_P4 Rbf_P Poly_P.
Import ListNotations.
Open Scope list_scope.
Open Scope R_scope.

Lemma fsub_derive L n (b : R -> vec) (b' : vec) (t0 : R) : (forall i, (i < n)%nat -> is_derive (fun t => b t i) t0 (b' i)) ->
  forall i, is_derive (fun t => fsub L (b t) n i) t0 (fsub L b' n i).
Proof.
  induction n as [|n IH]; intros H i; cbn [fsub]; [apply derive_cst|]. specialize (IH (fun i Hi => H i (Nat.lt_lt_succ_r _ _ Hi))). unfold upd. destruct (Nat.eqb i n); [|apply IH].
  assert (D : is_derive (fun t => rsum n (fun j => L n j * fsub L (b t) n j)) t0 (rsum n (fun j => L n j * fsub L b' n j))).
  { apply (is_derive_rsum n (fun j t => L n j * fsub L (b t) n j)). intros j Hj. apply is_derive_scal. apply IH. }
  pose proof (is_derive_minus _ _ _ _ _ (H n (Nat.lt_succ_diag_r n)) D) as M. pose proof (is_derive_scal_l _ t0 _ (/ L n n) M) as Q. exact Q.
Qed.
Lemma dot_self_derive n (v : R -> vec) (v' : vec) t0 : (forall i, (i < n)%nat -> is_derive (fun t => v t i) t0 (v' i)) ->
  is_derive (fun t => dot n (v t) (v t)) t0 (2 * dot n v' (v t0)).
Proof.
  intros H. unfold dot. rewrite <- rsum_scal_l. apply (is_derive_rsum n (fun i t => v t i * v t i)). intros i Hi.
  pose proof (derive_mul _ _ _ _ _ (H i Hi) (H i Hi)) as M. cbn beta in M. match type of M with is_derive _ _ ?d => replace (2 * (v' i * v t0 i)) with d; [exact M|] end.
  match goal with |- ?a = ?b => change (@eq R a b) end. ring.
Qed.
Lemma mv_derive n A (v : R -> vec) (v' : vec) t0 i : (forall j, (j < n)%nat -> is_derive (fun t => v t j) t0 (v' j)) ->
  is_derive (fun t => mv n A (v t) i) t0 (mv n A v' i).
Proof. intros H. unfold mv. apply (is_derive_rsum n (fun j t => A i j * v t j)). intros j Hj. apply is_derive_scal. apply H. exact Hj. Qed.
(** where the correlation has a derivative: not at a kink of the absolute exponential *)
Definition smooth_at (s : kspec) (a b : R) : Prop := k_corr s = AbsExp -> a <> b.
Lemma kd_dx_ok s nx z w k : k_ok s nx -> (k < nx)%nat -> smooth_at s (z k) (w k) ->
  exists v, kd_dx s nx (fun j => z j - w j) k = Some v /\ is_partial (fun z => kf s nx z w) z k v.
Proof.
  intros K Hk Sm. destruct s as [c th|c nc co th]; cbn [k_ok k_corr kd_dx] in *; unfold smooth_at in Sm; cbn [k_corr] in Sm.
  - apply (dx_ok c nx 0 th z w k (proj1 K) Hk (proj2 K) Sm).
  - eexists. split; [reflexivity|]. apply (pls_dx_ok c nx nc co th z w k (proj1 K) Hk (proj2 K) Sm).
Qed.
Section T.
Variables (nx nt : nat) (po : poly) (s : kspec) (nugget : R) (noise : vec) (X : nat -> vec) (y : vec) (m : model).
Hypothesis T : trained nx nt po s nugget noise X y m.
Hypotheses (K : k_ok s nx) (Nn : forall i, (i < nt)%nat -> 0 <= nugget + noise i).
Let p := n_regr po nx.
Let Rm := corr_matrix s nx nt (Xnorm nt X) nugget noise.
Let F := Fmat po nx nt X.
Let C := p_C (m_par m).
Let G := p_G (m_par m).
Let Ft := p_Ft (m_par m).
Let Sm := corr_matrix_sym s nx nt (Xnorm nt X) nugget noise.
Let O := t_fit _ _ _ _ _ _ _ _ _ T.
Let FC : chol_factor nt Rm C := fo_C _ _ _ _ _ _ O.
Let Lc : lower nt C := chol_lower _ _ _ FC.
Let Dc : diagnz nt C := chol_diag _ _ _ FC.
Let Uc : upper nt (tr C) := chol_upper_tr _ _ _ FC.
Let Dct : diagnz nt (tr C) := chol_diag_tr _ _ _ FC.
Definition inv_k (v : vec) : vec := bsub nt (tr C) (fsub C v nt) nt.
Lemma whiten v w : dot nt w (inv_k v) = dot nt (fsub C w nt) (fsub C v nt).
Proof.
  rewrite (dot_ext nt w (inv_k v) (mv nt C (fsub C w nt)) (inv_k v)); [|intros i Hi; symmetry; apply (fsub_solves nt C w Lc Dc i Hi)|reflexivity].
  rewrite dot_mv_tr. apply dot_ext; [reflexivity|]. intros i Hi. apply (bsub_solves nt (tr C) _ Uc Dct i Hi).
Qed.
Lemma fsub_F j i : (i < nt)%nat -> fsub C (fun a => F a j) nt i = Ft i j.
Proof.
  intros Hi. apply Rminus_diag_uniq. apply (lower_inj nt C Lc Dc (fun a => fsub C (fun a => F a j) nt a - Ft a j)); [|exact Hi].
  intros k Hk. rewrite mv_minus. rewrite (fsub_solves nt C _ Lc Dc k Hk). apply Rminus_diag_eq. symmetry. exact (fo_Ft _ _ _ _ _ _ O k j Hk).
Qed.
Lemma whiten_F v j : dot nt v (inv_k (fun a => F a j)) = mv nt (tr Ft) (fsub C v nt) j.
Proof. rewrite whiten. unfold mv, tr, dot. apply rsum_ext. intros a Ha. rewrite fsub_F by exact Ha. ring. Qed.
Definition Bm : mat := fun j l => rsum nt (fun i => F i j * inv_k (fun a => F a l) i).
Lemma Bm_form j l : (j < p)%nat -> (l < p)%nat -> Bm j l = mm p (tr G) G j l.
Proof.
  intros Hj Hl. change (Bm j l) with (dot nt (fun i => F i j) (inv_k (fun a => F a l))). rewrite whiten.
  pose proof (Ft_form nt p Rm F (ynorm nt y) (m_par m) O (fun a => if Nat.eqb a j then 1 else 0) (fun a => if Nat.eqb a l then 1 else 0)) as E.
  assert (Q : forall (M : mat) i k, (k < p)%nat -> mv p M (fun a => if Nat.eqb a k then 1 else 0) i = M i k).
  { intros M i k Hk. unfold mv. rewrite (rsum_ext p _ (fun a => if Nat.eqb a k then M i a else 0)) by (intros a _; destruct (Nat.eqb a k); ring). apply (rsum_single p (fun a => M i a) k Hk). }
  rewrite (dot_ext nt _ _ (fun i => Ft i j) (fun i => Ft i l)) by (intros; apply fsub_F; assumption).
  rewrite (dot_ext nt _ _ (fun i => Ft i j) (fun i => Ft i l)) in E by (intros; apply Q; assumption). rewrite E. unfold dot, mm, tr. apply rsum_ext. intros a Ha. rewrite !Q by assumption. reflexivity.
Qed.
Lemma Bm_sym : msym p Bm.
Proof. intros i j Hi Hj. rewrite !Bm_form by assumption. unfold mm, tr. apply rsum_ext. intros; ring. Qed.
Lemma Bm_mv v i : (i < p)%nat -> mv p Bm v i = mv p (tr G) (mv p G v) i.
Proof. intros Hi. rewrite <- mv_mm. apply mv_ext; [|reflexivity]. intros j Hj. apply Bm_form; assumption. Qed.
Lemma Bm_pd : mpd p Bm.
Proof.
  intros v (i & Hi & Nz). rewrite (dot_ext p v (mv p Bm v) v (mv p (tr G) (mv p G v))); [|reflexivity|intros; apply Bm_mv; assumption].
  rewrite <- dot_mv_tr. destruct (nonzero_dec p (mv p G v)) as [(k & Hk & N)|Z]; [apply (dot_self_pos p _ k Hk N)|]. exfalso. apply Nz. apply (upper_inj p G (fo_G _ _ _ _ _ _ O) (fo_D _ _ _ _ _ _ O) v Z i Hi).
Qed.
Lemma low_G : lower p (tr G). Proof. intros i j Hi Hj. apply (fo_G _ _ _ _ _ _ O); assumption. Qed.
Lemma dia_G : diagnz p (tr G). Proof. intros i Hi. apply (fo_D _ _ _ _ _ _ O); assumption. Qed.
(** solving with B instead of G *)
Lemma solve_B b b' D : (forall j, (j < p)%nat -> mv p Bm D j = - b j) -> dot p (fsub (tr G) b' p) (fsub (tr G) b p) = - dot p b' D.
Proof.
  intros H. assert (E : forall i, (i < p)%nat -> fsub (tr G) b p i = mv p G (fun j => - D j) i).
  { intros i Hi. apply Rminus_diag_uniq. apply (lower_inj p (tr G) low_G dia_G (fun i => fsub (tr G) b p i - mv p G (fun j => - D j) i)); [|exact Hi].
    intros k Hk. rewrite mv_minus. rewrite (fsub_solves p (tr G) b low_G dia_G k Hk). rewrite <- Bm_mv by exact Hk. rewrite mv_opp, H by exact Hk. ring. }
  rewrite (dot_ext p _ (fsub (tr G) b p) (fsub (tr G) b' p) (mv p G (fun j => - D j))) by (intros; try apply E; try reflexivity; assumption).
  rewrite dot_sym, dot_mv_tr. rewrite (dot_ext p _ (mv p (tr G) (fsub (tr G) b' p)) (fun j => - D j) b') by (intros; try (apply (fsub_solves p (tr G) b' low_G dia_G); assumption); reflexivity).
  rewrite dot_sym, dot_opp_r. reflexivity.
Qed.
Variables (x : vec) (kx : nat).
Hypotheses (Hk : (kx < nx)%nat) (Np : po <> PQuadratic).
Hypothesis Hs : forall i, (i < nt)%nat -> smooth_at s (xq nt X x kx) (Xnorm nt X i kx).
Definition drv (i : nat) : R := match kd_dx s nx (fun j => xq nt X x j - Xnorm nt X i j) kx with Some v => v | None => 0 end.
Let sc := scale1 nt (fun a => X a kx).
Lemma rq_derive i : (i < nt)%nat -> is_derive (fun t => rq nx nt s X (upd x kx t) i) (x kx) (drv i / sc).
Proof.
  intros Hi. destruct (kd_dx_ok s nx (xq nt X x) (Xnorm nt X i) kx K Hk (Hs i Hi)) as (v & E & P). unfold drv. rewrite E. apply (chain nt X x kx (fun z => kf s nx z (Xnorm nt X i)) v P).
Qed.
Lemma xc : upd x kx (x kx) = x. Proof. apply functional_extensionality. intros j. apply upd_same. Qed.
Definition brhs (z : vec) (j : nat) : R := mv nt (tr Ft) (fsub C (rq nx nt s X z) nt) j - fvec po nx (xq nt X z) j.
Lemma brhs_derive j : (j < p)%nat -> is_derive (fun t => brhs (upd x kx t) j) (x kx) ((mv nt (tr Ft) (fsub C drv nt) j - dfv po j kx) / sc).
Proof.
  intros Hj. unfold brhs. assert (D1 : forall i, is_derive (fun t => fsub C (rq nx nt s X (upd x kx t)) nt i) (x kx) (fsub C (fun i => drv i / sc) nt i)) by (apply (fsub_derive C nt (fun t => rq nx nt s X (upd x kx t)) (fun i => drv i / sc) (x kx)); intros; apply rq_derive; assumption).
  pose proof (mv_derive nt (tr Ft) (fun t => fsub C (rq nx nt s X (upd x kx t)) nt) _ (x kx) j (fun j _ => D1 j)) as D2. cbn beta in D2.
  pose proof (chain nt X x kx (fun z => fvec po nx z j) _ (fvec_partial po nx _ j kx Np Hj Hk)) as D3. pose proof (is_derive_minus _ _ _ _ _ D2 D3) as M.
  match type of M with is_derive _ _ ?d => replace ((mv nt (tr Ft) (fsub C drv nt) j - dfv po j kx) / sc) with d; [exact M|] end.
  match goal with |- ?a = ?b => change (@eq R a b) end. change (mv nt (tr Ft) (fsub C (fun i => drv i / sc) nt) j - dfv po j kx / sc = (mv nt (tr Ft) (fsub C drv nt) j - dfv po j kx) / sc).
  assert (E : forall i, (i < nt)%nat -> fsub C (fun i => drv i / sc) nt i = / sc * fsub C drv nt i).
  { intros i Hi. apply Rminus_diag_uniq. apply (lower_inj nt C Lc Dc (fun a => fsub C (fun i => drv i / sc) nt a - / sc * fsub C drv nt a)); [|exact Hi].
    intros k Hk'. rewrite mv_minus, mv_scal. rewrite !(fsub_solves nt C _ Lc Dc k Hk'). unfold Rdiv. ring. }
  rewrite (mv_ext nt (tr Ft) (tr Ft) _ (fun i => / sc * fsub C drv nt i) j) by (intros; try reflexivity; apply E; assumption). rewrite mv_scal. unfold Rdiv. ring.
Qed.
(** the error of the best linear unbiased predictor, as a function of the query *)
Definition err (z : vec) : R := 1 - dot nt (fsub C (rq nx nt s X z) nt) (fsub C (rq nx nt s X z) nt) + dot p (fsub (tr G) (brhs z) p) (fsub (tr G) (brhs z) p).
Lemma err_blup z w : blup nt p Rm F (rq nx nt s X z) (fvec po nx (xq nt X z)) w -> mse nt Rm (rq nx nt s X z) w = err z.
Proof.
  intros B. pose proof (blup_mse nx nt po s nugget noise X y m T z w B) as E. fold Rm in E. rewrite E. cbv zeta. unfold err. rewrite (rt_fsub nx nt po s nugget noise X y m T). fold C G p. f_equal.
  apply dot_ext; intros i Hi; apply fsub_ext; try reflexivity; intros j Hj; unfold brhs; rewrite (u_rhs_eq nx nt po s nugget noise X y m T); reflexivity.
Qed.
Lemma fsub_scal q L b c : lower q L -> diagnz q L -> forall i, (i < q)%nat -> fsub L (fun j => b j / c) q i = / c * fsub L b q i.
Proof.
  intros Ll Dl i Hi. apply Rminus_diag_uniq. apply (lower_inj q L Ll Dl (fun a => fsub L (fun j => b j / c) q a - / c * fsub L b q a)); [|exact Hi].
  intros k Hk'. rewrite mv_minus, mv_scal. rewrite !(fsub_solves q L _ Ll Dl k Hk'). unfold Rdiv. ring.
Qed.
Lemma err_derive : is_derive (fun t => err (upd x kx t)) (x kx)
  ((- 2 * dot nt (fsub C drv nt) (fsub C (rq nx nt s X x) nt) + 2 * dot p (fsub (tr G) (fun j => mv nt (tr Ft) (fsub C drv nt) j - dfv po j kx) p) (fsub (tr G) (brhs x) p)) / sc).
Proof.
  unfold err. pose proof (dot_self_derive nt (fun t => fsub C (rq nx nt s X (upd x kx t)) nt) _ (x kx) (fun i _ => fsub_derive C nt (fun t => rq nx nt s X (upd x kx t)) (fun i => drv i / sc) (x kx) (fun i Hi => rq_derive i Hi) i)) as D1.
  pose proof (dot_self_derive p (fun t => fsub (tr G) (brhs (upd x kx t)) p) _ (x kx) (fun i _ => fsub_derive (tr G) p (fun t => brhs (upd x kx t)) _ (x kx) (fun i Hi => brhs_derive i Hi) i)) as D2.
  cbn beta in D1, D2. rewrite xc in D1, D2. pose proof (is_derive_plus _ _ _ _ _ (is_derive_minus _ _ _ _ _ (derive_cst 1 (x kx)) D1) D2) as M.
  match type of M with is_derive _ _ ?d => match goal with |- is_derive _ _ ?e => replace e with d; [exact M|] end end.
  match goal with |- ?a = ?b => change (@eq R a b) end.
  change (0 - 2 * dot nt (fsub C (fun i => drv i / sc) nt) (fsub C (rq nx nt s X x) nt) + 2 * dot p (fsub (tr G) (fun j => (mv nt (tr Ft) (fsub C drv nt) j - dfv po j kx) / sc) p) (fsub (tr G) (brhs x) p) = (- 2 * dot nt (fsub C drv nt) (fsub C (rq nx nt s X x) nt) + 2 * dot p (fsub (tr G) (fun j => mv nt (tr Ft) (fsub C drv nt) j - dfv po j kx) p) (fsub (tr G) (brhs x) p)) / sc).
  rewrite (dot_ext nt (fsub C (fun i => drv i / sc) nt) _ (fun i => / sc * fsub C drv nt i) (fsub C (rq nx nt s X x) nt)) by (intros; try reflexivity; apply fsub_scal; assumption).
  rewrite (dot_ext p (fsub (tr G) (fun j => (mv nt (tr Ft) (fsub C drv nt) j - dfv po j kx) / sc) p) _ (fun i => / sc * fsub (tr G) (fun j => mv nt (tr Ft) (fsub C drv nt) j - dfv po j kx) p i) (fsub (tr G) (brhs x) p)) by (intros; first [reflexivity | apply (fsub_scal p (tr G) (fun j => mv nt (tr Ft) (fsub C drv nt) j - dfv po j kx)); [exact low_G|exact dia_G|assumption]]).
  rewrite !dot_scal_l. unfold Rdiv. ring.
Qed.
Lemma vd_value : exists D, (forall j, (j < p)%nat -> mv p Bm D j = - brhs x j) /\
  predict_variance_derivative m x kx = Some (p_sigma2 (m_par m) * (- dot nt drv (inv_k (rq nx nt s X x)) - dot nt (inv_k (rq nx nt s X x)) drv + dot p (fun j => dfv po j kx - dot nt drv (inv_k (fun a => F a j))) D + dot p D (fun j => dfv po j kx - dot nt drv (inv_k (fun a => F a j)))) / sc).
Proof.
  destruct (chol_complete p Bm Bm_sym Bm_pd) as [Lb EL]. pose proof (chol_sound _ _ _ EL) as FB. set (A := fun j => fvec po nx (xq nt X x) j - dot nt (rq nx nt s X x) (inv_k (fun a => F a j))).
  exists (bsub p (tr Lb) (fsub Lb A p) p). split.
  - intros j Hj. rewrite (chol_solve p Bm Lb A Bm_sym FB j Hj). unfold A, brhs. rewrite whiten_F. ring.
  - unfold predict_variance_derivative. cbv zeta. rewrite (t_m _ _ _ _ _ _ _ _ _ T). cbn [m_k m_poly m_nx m_nt m_par m_ystd m_scale m_Xn]. 
    assert (N0 : (0 < nt)%nat) by (pose proof (t_nt _ _ _ _ _ _ _ _ _ T); lia). destruct (kd_dx_ok s nx (xq nt X x) (Xnorm nt X 0) kx K Hk (Hs 0%nat N0)) as (v & E & _).
    match goal with |- match ?d with _ => _ end = _ => replace d with (Some v) by (symmetry; exact E) end. cbn iota.
    assert (Q : forall a b : option R, match po with PQuadratic => a | _ => b end = b) by (clear - Np; intros a b; destruct po; congruence).
    rewrite Q. match goal with |- match ?d with _ => _ end = _ => replace d with (Some Lb) by (symmetry; exact EL) end. reflexivity.
Qed.
Lemma variance_derivative_ok (w : vec -> vec) : (forall z, blup nt p Rm F (rq nx nt s X z) (fvec po nx (xq nt X z)) (w z)) ->
  exists v, predict_variance_derivative m x kx = Some v /\ is_partial (fun z => p_sigma2 (m_par m) * mse nt Rm (rq nx nt s X z) (w z)) x kx v.
Proof.
  intros B. destruct vd_value as (D & HD & E). eexists. split; [exact E|]. unfold is_partial.
  apply (is_derive_ext (fun t => p_sigma2 (m_par m) * err (upd x kx t))); [intros t; rewrite (err_blup _ _ (B (upd x kx t))); reflexivity|].
  pose proof (is_derive_scal _ _ (p_sigma2 (m_par m)) _ err_derive) as M. match type of M with is_derive _ _ ?d => match goal with |- is_derive _ _ ?e => replace e with d; [exact M|] end end.
  match goal with |- ?a = ?b => change (@eq R a b) end. unfold scal. cbn. unfold mult. cbn.
  rewrite (solve_B (brhs x) (fun j => mv nt (tr Ft) (fsub C drv nt) j - dfv po j kx) D HD). rewrite (dot_sym nt (inv_k _) drv), (dot_sym p D). rewrite whiten.
  rewrite (dot_ext p (fun j => dfv po j kx - dot nt drv (inv_k (fun a => F a j))) D (fun j => - 1 * (mv nt (tr Ft) (fsub C drv nt) j - dfv po j kx)) D) by (intros; try reflexivity; rewrite whiten_F; ring).
  rewrite dot_scal_l. unfold Rdiv. ring.
Qed.
End T.
