(** Proofs for C119: Kriging models with more data. *)
From Coq Require Import Reals Arith Bool List Lia Lra FunctionalExtensionality.
From Verif Require Import RSum Mat Tri_M Tri_P Kernels_M Krg_M Krg_S Krg_P Krg_P2 Krg_P3 Krg_P4 Krg_P8 Trend_T Krg_T Krg_Qr Lin_P.
Open Scope R_scope.
Definition p_affine nx po := Lin_P.poly_affine gs_qr rcond01 cond0 nx 0 po (KStd SquarExp (fun _ => 0)) 0 (fun _ => 0) (fun _ _ => 0).
Definition p_span nx nt po X := Lin_P.poly_span gs_qr rcond01 cond0 nx nt po (KStd SquarExp (fun _ => 0)) 0 (fun _ => 0) X.
(** ** the dual form *)
Section Dual.
Variables (nx nt : nat) (po : poly) (s : kspec) (nugget : R) (noise : vec) (X : nat -> vec) (y : vec) (m : model).
Hypothesis T : trained nx nt po s nugget noise X y m.
Let p := n_regr po nx.
Let Rm := corr_matrix s nx nt (Xnorm nt X) nugget noise.
Let F := Fmat po nx nt X.
Let ga : vec := fun i => scale1 nt y * p_gamma (m_par m) i.
(** the trend of the model, as a function of the raw inputs *)
Definition trend_of (x : vec) : R := mean nt y + scale1 nt y * dot p (fvec po nx (xq nt X x)) (p_beta (m_par m)).
Let v : vec := fun j => scale1 nt y * p_beta (m_par m) j + (if Nat.eqb j 0 then mean nt y else 0).
Lemma trend_span x : trend_of x = rsum p (fun j => v j * fvec po nx (xq nt X x) j).
Proof.
  unfold trend_of, v, dot. rewrite (rsum_ext p (fun j => (scale1 nt y * p_beta (m_par m) j + (if Nat.eqb j 0 then mean nt y else 0)) * _) (fun j => scale1 nt y * (fvec po nx (xq nt X x) j * p_beta (m_par m) j) + (if Nat.eqb j 0 then mean nt y * fvec po nx (xq nt X x) j else 0))).
  - rewrite rsum_plus, rsum_scal_l. rewrite (rsum_single p (fun j => mean nt y * fvec po nx (xq nt X x) j) 0%nat (n_regr_pos po nx)). rewrite fvec_0. ring.
  - intros j _. destruct (Nat.eqb j 0); ring.
Qed.
Lemma span_polynomial (w : vec) : polynomial po nx (fun x => rsum p (fun j => w j * fvec po nx (xq nt X x) j)).
Proof.
  assert (P : polynomial po nx (fun z => rsum p (fun j => w j * fvec po nx z j))) by (apply C87_trend_span; exists w; reflexivity).
  apply (p_affine nx po _ (fun c => - mean nt (fun a => X a c) / scale1 nt (fun a => X a c)) (fun c => / scale1 nt (fun a => X a c))) in P.
  assert (E : (fun x : vec => rsum p (fun j => w j * fvec po nx (xq nt X x) j)) = (fun z : vec => rsum p (fun j => w j * fvec po nx (fun c => - mean nt (fun a => X a c) / scale1 nt (fun a => X a c) + / scale1 nt (fun a => X a c) * z c) j))).
  { extensionality x. f_equal. extensionality j. f_equal. f_equal. unfold xq. extensionality c. unfold Rdiv. ring. }
  rewrite E. exact P.
Qed.
Lemma trend_polynomial : polynomial po nx trend_of.
Proof. replace trend_of with (fun x => rsum p (fun j => v j * fvec po nx (xq nt X x) j)); [apply span_polynomial|]. extensionality x. symmetry. apply trend_span. Qed.
Lemma value_dual x : predict_value m x = trend_of x + rsum nt (fun i => ga i * kf s nx (xq nt X x) (xq nt X (X i))).
Proof.
  rewrite (value_eq _ _ _ _ _ _ _ _ _ T).
  assert (E : rsum nt (fun i => ga i * kf s nx (xq nt X x) (xq nt X (X i))) = scale1 nt y * dot nt (rq nx nt s X x) (p_gamma (m_par m))).
  { unfold dot. rewrite <- rsum_scal_l. apply rsum_ext. intros i _. unfold ga, rq. change (Xnorm nt X i) with (xq nt X (X i)). ring. }
  rewrite E. unfold trend_of. fold p. ring.
Qed.
Lemma gamma_orthogonal q : polynomial po nx q -> rsum nt (fun i => ga i * q (X i)) = 0.
Proof.
  intros P. destruct (p_span nx nt po X q P) as (w & H).
  pose proof (F_gamma nt p Rm F (ynorm nt y) (m_par m) (t_fit _ _ _ _ _ _ _ _ _ T) w) as Z.
  transitivity (scale1 nt y * dot nt (mv p F w) (p_gamma (m_par m))); [|rewrite Z; ring]. unfold dot. rewrite <- rsum_scal_l. apply rsum_ext. intros i _. unfold ga. rewrite H.
  assert (E : mv p F w i = rsum (n_regr po nx) (fun j => w j * fvec po nx (xq nt X (X i)) j)) by (unfold mv; apply rsum_ext; intros j _; change (F i j) with (fvec po nx (xq nt X (X i)) j); ring).
  rewrite E. ring.
Qed.
Variables (h : vec -> R) (a : vec).
Hypothesis Ph : polynomial po nx h.
Hypothesis Oa : forall q, polynomial po nx q -> rsum nt (fun i => a i * q (X i)) = 0.
Hypothesis Ea : forall i, (i < nt)%nat -> h (X i) + rsum nt (fun j => a j * kf s nx (xq nt X (X i)) (xq nt X (X j))) + (nugget + noise i) * a i = y i.
Lemma R_mv (g : vec) i : (i < nt)%nat -> mv nt Rm g i = rsum nt (fun j => g j * kf s nx (xq nt X (X i)) (xq nt X (X j))) + (nugget + noise i) * g i.
Proof.
  intros Hi. unfold mv. rewrite (rsum_ext nt _ (fun j => g j * kf s nx (xq nt X (X i)) (xq nt X (X j)) + (if Nat.eqb j i then (nugget + noise j) * g j else 0))).
  - rewrite rsum_plus. f_equal. apply (rsum_single nt (fun j => (nugget + noise j) * g j) i Hi).
  - intros j Hj. unfold Rm. rewrite corr_matrix_spec by assumption. change (Xnorm nt X) with (fun i => xq nt X (X i)). cbv beta. rewrite (Nat.eqb_sym j i). destruct (Nat.eqb_spec i j) as [<- | N]; [rewrite kf_diag; ring|ring].
Qed.
Lemma diff_R i : (i < nt)%nat -> mv nt Rm (fun i => ga i - a i) i = h (X i) - trend_of (X i).
Proof.
  intros Hi. rewrite mv_minus. rewrite (R_mv a i Hi).
  assert (G : mv nt Rm ga i = y i - trend_of (X i)).
  { unfold ga. rewrite mv_scal. unfold Rm. rewrite (R_gamma nt p _ F (ynorm nt y) (m_par m) (corr_matrix_sym _ _ _ _ _ _) (t_fit _ _ _ _ _ _ _ _ _ T) i Hi).
    unfold trend_of. change (dot p (fvec po nx (xq nt X (X i))) (p_beta (m_par m))) with (mv p F (p_beta (m_par m)) i). pose proof (ynorm_eq nt y i) as YE. lra. }
  rewrite G. pose proof (Ea i Hi). lra.
Qed.
Lemma dual_gamma i : (i < nt)%nat -> ga i = a i.
Proof.
  intros Hi. destruct (nonzero_dec nt (fun i => ga i - a i)) as [W|Z]; [|specialize (Z i Hi); cbn beta in Z; lra]. exfalso.
  pose proof (chol_pd nt Rm _ (corr_matrix_sym _ _ _ _ _ _) (fo_C _ _ _ _ _ _ (t_fit _ _ _ _ _ _ _ _ _ T)) _ W) as P.
  assert (Q : polynomial po nx (fun x => h x - trend_of x)).
  { destruct (p_span nx nt po X h Ph) as (w & H). replace (fun x => h x - trend_of x) with (fun x => rsum p (fun j => (w j - v j) * fvec po nx (xq nt X x) j)); [apply span_polynomial|].
    extensionality x. rewrite H, trend_span. rewrite (rsum_ext p _ (fun j => w j * fvec po nx (xq nt X x) j - v j * fvec po nx (xq nt X x) j)) by (intros; ring). rewrite rsum_minus. reflexivity. }
  pose proof (gamma_orthogonal _ Q) as G1. pose proof (Oa _ Q) as G2. cbn beta in G1, G2.
  assert (E : dot nt (fun i => ga i - a i) (mv nt Rm (fun i => ga i - a i)) = rsum nt (fun i => ga i * (h (X i) - trend_of (X i))) - rsum nt (fun i => a i * (h (X i) - trend_of (X i)))).
  { unfold dot. rewrite <- rsum_minus. apply rsum_ext. intros k Hk. rewrite diff_R by exact Hk. ring. }
  rewrite E, G1, G2 in P. lra.
Qed.
Lemma dual_trend x : h x = trend_of x.
Proof.
  destruct (p_span nx nt po X h Ph) as (w & H).
  assert (Z : forall i, (i < nt)%nat -> h (X i) - trend_of (X i) = 0).
  { intros i Hi. rewrite <- (diff_R i Hi). apply mv_zero. intros k Hk. rewrite (dual_gamma k Hk). ring. }
  destruct (mean_blup nx nt po s nugget noise X y m T x) as (u & [U _] & _).
  assert (E : forall z, h z - trend_of z = rsum p (fun j => (w j - v j) * fvec po nx (xq nt X z) j)).
  { intros z. rewrite H, trend_span, <- rsum_minus. apply rsum_ext. intros; ring. }
  apply Rminus_diag_uniq. rewrite E. rewrite (rsum_ext p _ (fun j => rsum nt (fun i => (w j - v j) * (Fmat po nx nt X i j * u i)))).
  - rewrite rsum_swap. apply rsum_zero. intros i Hi. rewrite (rsum_ext p _ (fun j => (w j - v j) * fvec po nx (xq nt X (X i)) j * u i)) by (intros j _; change (Fmat po nx nt X i j) with (fvec po nx (xq nt X (X i)) j); ring). rewrite rsum_scal_r, <- E, Z by exact Hi. ring.
  - intros j Hj. rewrite rsum_scal_l. rewrite (U j Hj). reflexivity.
Qed.
Lemma dual_value x : predict_value m x = h x + rsum nt (fun i => a i * kf s nx (xq nt X x) (xq nt X (X i))).
Proof. rewrite value_dual, dual_trend. f_equal. apply rsum_ext. intros i Hi. rewrite dual_gamma by exact Hi. reflexivity. Qed.
End Dual.
