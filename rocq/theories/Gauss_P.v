(** The normal density integrates to one: existence of the normal distribution function with both limits. *)
From Coq Require Import Reals Lra Lia Psatz.
From Coquelicot Require Import Coquelicot.
From Verif Require Import EgoEI_M EgoEI_S EgoEI_P.
Open Scope R_scope.

Ltac req := match goal with |- @eq _ ?a ?b => change (@eq R a b) end.
Definition ga (t : R) : R := exp (- t ^ 2 / 2).
Definition G (x : R) : R := RInt ga 0 x.
Lemma ga_pos t : 0 < ga t. Proof. apply exp_pos. Qed.
Lemma ga_cont t : continuous ga t.
Proof. apply (ex_derive_continuous ga t). unfold ga. auto_derive. exact I. Qed.
Lemma ga_int a b : ex_RInt ga a b.
Proof. apply (ex_RInt_continuous ga). intros t _. apply ga_cont. Qed.
Lemma G_derive x : is_derive G x (ga x).
Proof.
  apply (is_derive_RInt ga G 0 x); [|apply ga_cont]. exists (mkposreal 1 Rlt_0_1). intros y _. apply (RInt_correct ga 0 y). apply ga_int.
Qed.
Definition h (x t : R) : R := 2 * exp (- x ^ 2 * (1 + t ^ 2) / 2) / (1 + t ^ 2).
Definition B (x : R) : R := RInt (h x) 0 1.
Lemma den t : 0 < 1 + t ^ 2. Proof. pose proof (pow2_ge_0 t). lra. Qed.
Lemma h_int x : ex_RInt (h x) 0 1.
Proof.
  apply (ex_RInt_continuous (h x)). intros t _. apply (ex_derive_continuous (h x) t). unfold h. auto_derive. pose proof (den t). cbn in H. lra.
Qed.
Lemma h_derive (x t : R) : is_derive (fun u => h u t) x (- 2 * x * exp (- x ^ 2 * (1 + t ^ 2) / 2)).
Proof.
  unfold h. pose proof (den t) as D. auto_derive; [exact I|]. unfold Rdiv, Rminus.
  cbn [pow] in *. rewrite ?Rmult_1_r in *. match goal with |- context [exp ?a] => generalize (exp a) end. intros e. field. lra.
Qed.
Lemma B_derive x : is_derive B x (RInt (fun t => - 2 * x * exp (- x ^ 2 * (1 + t ^ 2) / 2)) 0 1).
Proof.
  rewrite (RInt_ext _ (fun t => Derive (fun u => h u t) x)) by (intros t _; symmetry; apply is_derive_unique, h_derive).
  apply (is_derive_RInt_param h 0 1 x).
  - exists (mkposreal 1 Rlt_0_1). intros y _ t _. eexists. apply h_derive.
  - intros t _. apply (continuity_2d_pt_ext (fun u v => (- 2 * u) * exp (- u ^ 2 * (1 + v ^ 2) / 2))); [intros u v; symmetry; apply is_derive_unique, h_derive|].
    apply continuity_2d_pt_mult; [apply continuity_2d_pt_mult; [apply continuity_2d_pt_const|apply continuity_2d_pt_id1]|].
    apply (continuity_1d_2d_pt_comp exp (fun u v => - u ^ 2 * (1 + v ^ 2) / 2)); [apply derivable_continuous_pt, derivable_pt_exp|].
    apply (continuity_2d_pt_ext (fun u v => (- (1 / 2)) * (u * u) * (1 + v * v))); [intros; field|].
    apply continuity_2d_pt_mult; [apply continuity_2d_pt_mult; [apply continuity_2d_pt_const|apply continuity_2d_pt_mult; apply continuity_2d_pt_id1]|].
    apply continuity_2d_pt_plus; [apply continuity_2d_pt_const|apply continuity_2d_pt_mult; apply continuity_2d_pt_id2].
  - exists (mkposreal 1 Rlt_0_1). intros y _. apply h_int.
Qed.
Lemma B_value x : RInt (fun t => - 2 * x * exp (- x ^ 2 * (1 + t ^ 2) / 2)) 0 1 = - 2 * ga x * G x.
Proof.
  apply is_RInt_unique.
  assert (Q : is_RInt ga (x * 0 + 0) (x * 1 + 0) (G x)).
  { replace (x * 0 + 0) with 0 by ring. replace (x * 1 + 0) with x by ring. apply (RInt_correct ga 0 x). apply ga_int. }
  pose proof (is_RInt_scal _ 0 1 (- 2 * ga x) _ (is_RInt_comp_lin ga x 0 0 1 _ Q)) as E.
  unfold scal in E. cbn in E. unfold mult in E. cbn in E.
  eapply is_RInt_ext; [|exact E]. intros t _. cbv beta. unfold ga.
  replace (- x ^ 2 * (1 + t ^ 2) / 2) with (- x ^ 2 / 2 + - (x * t + 0) ^ 2 / 2) by field. rewrite exp_plus. cbn [pow]. req. ring.
Qed.
Lemma const_sum x : G x ^ 2 + B x = B 0.
Proof.
  assert (D : forall t, is_derive (fun x => G x ^ 2 + B x) t 0).
  { intros t. assert (Q : is_derive (fun x => G x ^ 2 + B x) t (2 * ga t * G t + (- 2 * ga t * G t))).
    { apply (is_derive_plus (fun x => G x ^ 2) B t); [|rewrite <- B_value; apply B_derive].
      replace (2 * ga t * G t) with (INR 2 * ga t * G t ^ 1) by (cbn; ring). apply (is_derive_pow G 2 t); apply G_derive. }
    replace (2 * ga t * G t + - 2 * ga t * G t) with 0 in Q by ring. exact Q. }
  destruct (MVT_gen (fun x => G x ^ 2 + B x) 0 x (fun _ => 0)) as (c & _ & E).
  - intros t _. apply D.
  - intros t _. apply continuity_pt_filterlim. apply (ex_derive_continuous (fun x => G x ^ 2 + B x) t). eexists. apply D.
  - assert (G 0 = 0) by (unfold G; rewrite RInt_point; reflexivity). rewrite H in E. lra.
Qed.
Lemma B_0 : B 0 = PI / 2.
Proof.
  unfold B. apply is_RInt_unique.
  assert (Q : is_RInt (h 0) 0 1 (minus (2 * atan 1) (2 * atan 0))).
  { apply (is_RInt_derive (fun t => 2 * atan t) (h 0)).
    - intros t _. unfold h. replace (- 0 ^ 2 * (1 + t ^ 2) / 2) with 0 by (cbn [pow]; field). rewrite exp_0.
      pose proof (is_derive_scal atan t 2 _ (is_derive_atan t)) as E. eapply is_derive_ext in E; [|intros; reflexivity]. replace (2 * 1 / (1 + t ^ 2)) with (2 * / (1 + t²)); [exact E|]. unfold Rsqr. cbn [pow]. pose proof (den t) as DD. cbn [pow] in DD. field. lra.
    - intros t _. apply (ex_derive_continuous (h 0) t). unfold h. auto_derive. pose proof (den t). cbn in H. lra. }
  rewrite atan_1, atan_0 in Q. unfold minus in Q. cbn in Q. unfold plus, opp in Q. cbn in Q. replace (2 * (PI / 4) + - (2 * 0)) with (PI / 2) in Q by field. exact Q.
Qed.
Lemma B_bound x : 0 <= B x <= 2 * ga x.
Proof.
  unfold B. split.
  - apply RInt_ge_0; [lra|apply h_int|]. intros t _. unfold h. apply Rmult_le_pos; [|apply Rlt_le, Rinv_0_lt_compat, den]. pose proof (exp_pos (- x ^ 2 * (1 + t ^ 2) / 2)). lra.
  - replace (2 * ga x) with (RInt (fun _ => 2 * ga x) 0 1) by (rewrite RInt_const; unfold scal; cbn; unfold mult; cbn; ring).
    apply RInt_le; [lra|apply h_int|apply ex_RInt_const|]. intros t Ht. unfold h. pose proof (den t) as D.
    apply Rmult_le_reg_r with (1 + t ^ 2); [exact D|]. unfold Rdiv at 1. rewrite Rmult_assoc, Rinv_l, Rmult_1_r by lra.
    assert (E : exp (- x ^ 2 * (1 + t ^ 2) / 2) <= ga x).
    { unfold ga. pose proof (pow2_ge_0 x). pose proof (pow2_ge_0 t). assert (0 <= x ^ 2 * t ^ 2) by (apply Rmult_le_pos; lra). replace (- x ^ 2 * (1 + t ^ 2) / 2) with (- x ^ 2 / 2 - x ^ 2 * t ^ 2 / 2) by field.
      destruct (Req_dec (x ^ 2 * t ^ 2) 0) as [Z|Z]; [rewrite Z; right; f_equal; lra|]. apply Rlt_le, exp_increasing. lra. }
    pose proof (ga_pos x). pose proof (pow2_ge_0 t). nra.
Qed.
Lemma G_odd x : G (- x) = - G x.
Proof.
  unfold G at 1. apply is_RInt_unique.
  assert (Q : is_RInt ga (-1 * 0 + 0) (-1 * (- x) + 0) (G x)).
  { replace (-1 * 0 + 0) with 0 by ring. replace (-1 * - x + 0) with x by ring. apply (RInt_correct ga 0 x). apply ga_int. }
  pose proof (is_RInt_scal _ 0 (- x) (-1) _ (is_RInt_comp_lin ga (-1) 0 0 (- x) _ Q)) as E.
  unfold scal in E. cbn in E. unfold mult in E. cbn in E. replace (- G x) with (-1 * G x) by ring.
  eapply is_RInt_ext; [|exact E]. intros t _. cbv beta. unfold ga. replace (- (-1 * t + 0) ^ 2 / 2) with (- t ^ 2 / 2) by field. cbn [pow]. req. ring.
Qed.
Lemma prim_G x : prim x = G x / sqrt (2 * PI).
Proof.
  unfold prim. apply is_RInt_unique. pose proof (is_RInt_scal _ 0 x (/ sqrt (2 * PI)) _ (RInt_correct ga 0 x (ga_int 0 x))) as E.
  unfold scal in E. cbn in E. unfold mult in E. cbn in E. replace (G x / sqrt (2 * PI)) with (/ sqrt (2 * PI) * RInt ga 0 x) by (unfold G, Rdiv; ring).
  eapply is_RInt_ext; [|exact E]. intros t _. cbv beta. unfold pdf, ga, Rdiv. req. ring.
Qed.
Lemma ga_lim : is_lim ga m_infty 0.
Proof.
  destruct cdf_exists as [c _]. apply (is_lim_ext (fun x => sqrt (2 * PI) * pdf x)).
  - intros x. unfold pdf, ga. pose proof s2pi. field. lra.
  - replace (Finite 0) with (Rbar_mult (sqrt (2 * PI)) 0) by (cbn; f_equal; ring). apply is_lim_scal_l. exact pdf_lim.
Qed.
Lemma B_lim : is_lim B m_infty 0.
Proof.
  apply (is_lim_le_le_loc (fun _ => 0) (fun x => 2 * ga x)).
  - exists 0. intros x _. apply B_bound.
  - apply is_lim_const.
  - replace (Finite 0) with (Rbar_mult 2 0) by (cbn; f_equal; ring). apply is_lim_scal_l. exact ga_lim.
Qed.
Lemma G_neg x : x < 0 -> G x <= 0.
Proof. intros H. assert (G 0 = 0) by (unfold G; rewrite RInt_point; reflexivity). rewrite <- H0. apply (mono_ge G ga 1); [intros; apply G_derive|intros; apply Rlt_le, ga_pos|lra|lra]. Qed.
Lemma G_sqrt x : x < 0 -> G x = - sqrt (PI / 2 - B x).
Proof.
  intros H. pose proof (const_sum x) as E. rewrite B_0 in E. replace (PI / 2 - B x) with ((- G x) * (- G x)) by (cbn [pow] in E; lra). rewrite sqrt_square; [ring|]. pose proof (G_neg x H). lra.
Qed.
Lemma prim_lim : is_lim prim m_infty (- (1 / 2)).
Proof.
  pose proof s2pi as S. pose proof PI_RGT_0 as P.
  apply (is_lim_ext_loc (fun x => - / sqrt (2 * PI) * sqrt (PI / 2 - B x))).
  { exists 0. intros x Hx. rewrite prim_G, G_sqrt by exact Hx. unfold Rdiv. ring. }
  replace (- (1 / 2)) with (- / sqrt (2 * PI) * sqrt (PI / 2 - 0)).
  2:{ rewrite Rminus_0_r. assert (E : sqrt (2 * PI) = 2 * sqrt (PI / 2)). { replace (2 * PI) with ((2 * 2) * (PI / 2)) by field. rewrite sqrt_mult_alt by lra. rewrite sqrt_square by lra. reflexivity. }
      assert (0 < sqrt (PI / 2)) by (apply sqrt_lt_R0; lra). rewrite E. field. lra. }
  change (is_lim (fun x => - / sqrt (2 * PI) * sqrt (PI / 2 - B x)) m_infty (Rbar_mult (- / sqrt (2 * PI)) (sqrt (PI / 2 - 0)))). apply is_lim_scal_l.
  apply (filterlim_comp R R R (fun x => PI / 2 - B x) sqrt (Rbar_locally m_infty) (locally (PI / 2 - 0)) (locally (sqrt (PI / 2 - 0)))).
  - apply (is_lim_minus (fun _ => PI / 2) B m_infty (PI / 2) 0 (PI / 2 - 0)); [apply is_lim_const|exact B_lim|reflexivity].
  - apply (continuous_sqrt (PI / 2 - 0)).
Qed.
Definition Phi (z : R) : R := 1 / 2 + prim z.
Lemma Phi_cdf : is_cdf Phi.
Proof.
  split.
  - intros z. unfold Phi. assert (Q : is_derive (fun z => 1 / 2 + prim z) z (0 + pdf z)). { apply (is_derive_plus (fun _ => 1 / 2) prim z); [apply (is_derive_const (K := R_AbsRing) (V := R_NormedModule))|apply prim_derive]. } rewrite Rplus_0_l in Q. exact Q.
  - unfold Phi. apply (is_lim_plus (fun _ => 1 / 2) prim m_infty (1 / 2) (- (1 / 2)) 0); [apply is_lim_const|exact prim_lim|unfold is_Rbar_plus; cbn; do 2 f_equal; lra].
Qed.
(** there is only one such function *)
Lemma cdf_unique c c' : is_cdf c -> is_cdf c' -> forall z, c z = c' z.
Proof.
  intros [D L] [D' L'] z. set (d := fun z => c z - c' z).
  assert (Dd : forall t, is_derive d t 0). { intros t. unfold d. replace 0 with (pdf t - pdf t) by ring. apply (is_derive_minus c c' t); auto. }
  assert (Ld : is_lim d m_infty 0). { unfold d. apply (is_lim_minus c c' m_infty 0 0 0); auto. unfold is_Rbar_minus, is_Rbar_plus. cbn. do 2 f_equal. ring. }
  assert (0 <= d z) by (apply (lim_ge d (fun _ => 0) (z + 1) 0); auto; intros; lra).
  assert (0 <= - d z).
  { apply (lim_ge (fun z => - d z) (fun _ => 0) (z + 1) 0); try (intros; lra).
    - intros t _. replace 0 with (- 0) by ring. apply (is_derive_opp d t). apply Dd.
    - replace (Finite 0) with (Rbar_opp 0) by (cbn; f_equal; ring). apply is_lim_opp. exact Ld. }
  unfold d in *. lra.
Qed.
Lemma prim_odd z : prim (- z) = - prim z.
Proof. rewrite !prim_G, G_odd. unfold Rdiv. ring. Qed.
Lemma cdf_sym c : is_cdf c -> forall z, c (- z) = 1 - c z.
Proof. intros H z. rewrite !(cdf_unique c Phi H Phi_cdf). unfold Phi. rewrite prim_odd. field. Qed.
Lemma cdf_lim_p c : is_cdf c -> is_lim c p_infty 1.
Proof.
  intros H. apply (is_lim_ext (fun z => 1 - c (- z))); [intros z; rewrite (cdf_sym c H z); ring|].
  apply (is_lim_minus (fun _ => 1) (fun z => c (- z)) p_infty 1 0 1); [apply is_lim_const| |unfold is_Rbar_minus, is_Rbar_plus; cbn; do 2 f_equal; ring].
  apply (is_lim_comp c (fun z => - z) p_infty 0 m_infty); [apply H| |exists 0; intros; discriminate].
  change m_infty with (Rbar_opp p_infty). apply (is_lim_opp (fun z => z) p_infty p_infty). apply is_lim_id.
Qed.
Lemma cdf_pos c : is_cdf c -> forall z, 0 < c z < 1.
Proof.
  intros H. assert (P : forall z, 0 < c z).
  { intros z. assert (S : c (z - 1) < c z).
    { destruct (MVT_gen c (z - 1) z pdf) as (x & _ & E).
      - intros t _. apply H.
      - intros t _. apply continuity_pt_filterlim. apply (ex_derive_continuous c t). eexists. apply H.
      - pose proof (pdf_pos x). nra. }
    pose proof (cdf_nonneg c H (z - 1)). lra. }
  intros z. pose proof (P z). pose proof (P (- z)). rewrite (cdf_sym c H z) in H1. lra.
Qed.
Lemma g_pos c : is_cdf c -> forall z, 0 < g c z.
Proof.
  intros H z. assert (S : g c (z - 1) < g c z).
  { destruct (MVT_gen (g c) (z - 1) z c) as (x & _ & E).
    - intros t _. apply (g_derive c H).
    - intros t _. apply continuity_pt_filterlim. apply (ex_derive_continuous (g c) t). eexists. apply (g_derive c H).
    - pose proof (cdf_pos c H x). nra. }
  pose proof (g_nonneg c H (z - 1)). lra.
Qed.
Lemma pdf_even z : pdf (- z) = pdf z.
Proof. unfold pdf. f_equal. f_equal. field. Qed.
Lemma pdf_le z : pdf z <= / sqrt (2 * PI).
Proof.
  unfold pdf, Rdiv. rewrite <- (Rmult_1_l (/ sqrt (2 * PI))) at 2. apply Rmult_le_compat_r; [apply Rlt_le, Rinv_0_lt_compat, s2pi|].
  replace 1 with (exp 0) by exact exp_0. pose proof (pow2_ge_0 z). destruct (Req_dec (z ^ 2) 0) as [Z|Z]; [rewrite Z; right; f_equal; field|]. apply Rlt_le, exp_increasing. lra.
Qed.
(** EI(f) - EI(reflected) = f - pred *)
Lemma EI_reflect c f p v : is_cdf c -> 0 < v -> EI c f p v = (f - p) + EI c (2 * p - f) p v.
Proof.
  intros H Hv. rewrite !EI_eq by exact Hv. pose proof (sqrt_lt_R0 v Hv) as S. set (s := sqrt v) in *. replace ((2 * p - f - p) / s) with (- ((f - p) / s)) by (field; lra).
  unfold g. rewrite (cdf_sym c H), pdf_even. set (z := (f - p) / s). replace (f - p) with (s * z) by (unfold z; field; lra). ring.
Qed.
Lemma EI_bounds c f p v : is_cdf c -> 0 < v -> Rmax (f - p) 0 < EI c f p v <= Rmax (f - p) 0 + sqrt (v / (2 * PI)).
Proof.
  intros H Hv. pose proof (sqrt_lt_R0 v Hv) as S. assert (Pp : forall f, 0 < EI c f p v) by (intros f'; rewrite EI_eq by exact Hv; apply Rmult_lt_0_compat; [exact S|apply (g_pos c H)]).
  assert (Q : forall f, f <= p -> EI c f p v <= sqrt (v / (2 * PI))).
  { intros f' L. rewrite EI_eq by exact Hv. unfold g. set (z := (f' - p) / sqrt v). assert (z <= 0) by (unfold z, Rdiv; pose proof (Rinv_0_lt_compat _ S); nra). pose proof (cdf_pos c H z).
    pose proof (pdf_le z). replace (sqrt (v / (2 * PI))) with (sqrt v * / sqrt (2 * PI)). 2:{ unfold Rdiv. rewrite (sqrt_mult_alt v) by lra. f_equal. symmetry. apply sqrt_inv. }
    apply Rmult_le_compat_l; [lra|]. nra. }
  split.
  - apply Rmax_lub_lt; [|apply Pp]. rewrite (EI_reflect c f p v H Hv). pose proof (Pp (2 * p - f)). lra.
  - destruct (Rle_lt_dec f p) as [L|L].
    + rewrite Rmax_right by lra. rewrite Rplus_0_l. apply Q. exact L.
    + rewrite Rmax_left by lra. rewrite (EI_reflect c f p v H Hv). pose proof (Q (2 * p - f) ltac:(lra)). lra.
Qed.
Lemma EI_zero_iff c f p v : is_cdf c -> 0 <= v -> (EI c f p v = 0 <-> v = 0).
Proof.
  intros H [Hv|Hv]; split; intros E.
  - pose proof (EI_bounds c f p v H Hv). pose proof (Rmax_r (f - p) 0). lra.
  - lra.
  - symmetry. exact Hv.
  - subst v. apply EI_novar.
Qed.
