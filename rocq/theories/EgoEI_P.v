From Coq Require Import Reals List Lra Lia Psatz.
From Coquelicot Require Import Coquelicot.
From Verif Require Import EgoEI_M EgoEI_S.
Import ListNotations.
Open Scope R_scope.

Lemma s2pi : 0 < sqrt (2 * PI). Proof. apply sqrt_lt_R0. pose proof PI_RGT_0. lra. Qed.
Lemma pdf_pos z : 0 < pdf z. Proof. unfold pdf. apply Rdiv_lt_0_compat; [apply exp_pos|apply s2pi]. Qed.
Lemma pdf_derive z : is_derive pdf z (- z * pdf z).
Proof. unfold pdf. pose proof s2pi. generalize dependent (sqrt (2 * PI)). intros c Hc. auto_derive; [lra|]. unfold Rminus, Rdiv. cbn [pow]. match goal with |- context [exp ?a] => generalize (exp a) end. intros e. field. lra. Qed.
(** a function with non-negative derivative and limit l at -infinity is at least l *)
Lemma mono_ge (F F' : R -> R) (a : R) : (forall z, z < a -> is_derive F z (F' z)) -> (forall z, z < a -> 0 <= F' z) -> forall x y, x <= y -> y < a -> F x <= F y.
Proof.
  intros D P x y Hxy Hy. destruct (Req_dec x y) as [-> |Ne]; [lra|].
  destruct (MVT_gen F x y F') as (c & Hc & E).
  - intros t Ht. rewrite Rmin_left, Rmax_right in Ht by lra. apply D. lra.
  - intros t Ht. rewrite Rmin_left, Rmax_right in Ht by lra. apply continuity_pt_filterlim. apply (ex_derive_continuous F t). eexists. apply D. lra.
  - rewrite Rmin_left, Rmax_right in Hc by lra. assert (0 <= F' c) by (apply P; lra). nra.
Qed.
Lemma lim_ge (F F' : R -> R) (a l : R) : (forall z, z < a -> is_derive F z (F' z)) -> (forall z, z < a -> 0 <= F' z) -> is_lim F m_infty l -> forall y, y < a -> l <= F y.
Proof.
  intros D P L y Hy. apply Rnot_lt_le. intros H.
  assert (E : 0 < l - F y) by lra. pose proof (proj2 (is_lim_spec F m_infty l) L (mkposreal _ E)) as [M HM]. cbn in HM.
  set (x := Rmin (M - 1) y). assert (x < M) by (unfold x; pose proof (Rmin_l (M - 1) y); lra). assert (x <= y) by apply Rmin_r.
  specialize (HM x H0). pose proof (mono_ge F F' a D P x y H1 Hy). rewrite Rabs_left1 in HM by lra. lra.
Qed.
Section Cdf.
Variable cdf : R -> R.
Hypothesis C : is_cdf cdf.
Lemma cdf_nonneg z : 0 <= cdf z.
Proof. apply (lim_ge cdf pdf (z + 1) 0); [intros; apply C|intros; apply Rlt_le, pdf_pos|apply C|lra]. Qed.
Lemma pdf_lim : is_lim pdf m_infty 0.
Proof.
  apply is_lim_spec. intros eps. pose proof s2pi as S. set (M := Rmin (-2) (ln (eps * sqrt (2 * PI)))). exists M. intros z Hz.
  assert (z < -2) by (unfold M in Hz; pose proof (Rmin_l (-2) (ln (eps * sqrt (2 * PI)))); lra).
  assert (Hl : z < ln (eps * sqrt (2 * PI))) by (unfold M in Hz; pose proof (Rmin_r (-2) (ln (eps * sqrt (2 * PI)))); lra).
  rewrite Rminus_0_r, Rabs_pos_eq by apply Rlt_le, pdf_pos. unfold pdf. apply Rmult_lt_reg_r with (sqrt (2 * PI)); [exact S|]. unfold Rdiv. rewrite Rmult_assoc, Rinv_l by lra. rewrite Rmult_1_r.
  rewrite <- (exp_ln (eps * sqrt (2 * PI))) by (apply Rmult_lt_0_compat; [apply eps|exact S]). apply exp_increasing. nra.
Qed.
(** Mills: -z cdf(z) <= pdf(z) *)
Lemma mills z : z < 0 -> - z * cdf z <= pdf z.
Proof.
  intros Hz. set (h := fun z => pdf z * / (- z) - cdf z).
  assert (0 <= h z).
  { apply (lim_ge h (fun z => pdf z / z ^ 2) 0 0); [| | |exact Hz].
    - intros t Ht. unfold h.
      assert (D : is_derive (fun z => pdf z * / (- z) - cdf z) t ((- t * pdf t) * / (- t) + pdf t * (1 / t ^ 2) - pdf t)).
      { apply (is_derive_minus (fun z => pdf z * / - z) cdf t); [|apply C].
        apply (is_derive_mult (K := R_AbsRing) pdf (fun z => / - z) t (- t * pdf t) (1 / t ^ 2)); [apply pdf_derive| |intros; apply Rmult_comm].
        auto_derive; [lra|]. field. lra. }
      replace (pdf t / t ^ 2) with (- t * pdf t * / - t + pdf t * (1 / t ^ 2) - pdf t) by (field; lra). exact D.
    - intros t Ht. apply Rmult_le_pos; [apply Rlt_le, pdf_pos|]. apply Rlt_le, Rinv_0_lt_compat. nra.
    - unfold h. apply (is_lim_minus (fun z => pdf z * / - z) cdf m_infty 0 0 0); [|apply C|unfold is_Rbar_minus, is_Rbar_plus; cbn; do 2 f_equal; ring].
      assert (M : is_lim (fun z => pdf z * / - z) m_infty (Rbar_mult 0 0)); [|cbn in M; rewrite Rmult_0_l in M; exact M].
      apply (is_lim_mult pdf (fun z => / - z) m_infty 0 0); [exact pdf_lim| |exact I].
      replace (Finite 0) with (Rbar_inv p_infty) by reflexivity. apply is_lim_inv; [|discriminate].
      replace p_infty with (Rbar_opp m_infty) by reflexivity. apply is_lim_opp. apply is_lim_id. }
  unfold h in H. assert (Q : 0 <= - z * (pdf z * / - z - cdf z)) by (apply Rmult_le_pos; lra). replace (- z * (pdf z * / - z - cdf z)) with (pdf z - - z * cdf z) in Q by (field; lra). lra.
Qed.
Definition g (z : R) : R := z * cdf z + pdf z.
Lemma g_nonneg z : 0 <= g z.
Proof.
  unfold g. destruct (Rlt_le_dec z 0) as [H|H]; [pose proof (mills z H); lra|]. pose proof (cdf_nonneg z). pose proof (pdf_pos z). nra.
Qed.
Lemma g_derive z : is_derive g z (cdf z).
Proof.
  unfold g. pose proof (proj1 C z) as D. pose proof (pdf_derive z) as D2.
  assert (Q : is_derive (fun z => z * cdf z + pdf z) z ((1 * cdf z + z * pdf z) + - z * pdf z)).
  { apply (is_derive_plus (fun z => z * cdf z) pdf z); [|exact D2]. apply (is_derive_mult (K := R_AbsRing) (fun z => z) cdf z 1 (pdf z)); [apply (is_derive_id (K := R_AbsRing))|exact D|intros; apply Rmult_comm]. }
  replace (1 * cdf z + z * pdf z + - z * pdf z) with (cdf z) in Q by ring. exact Q.
Qed.
Lemma g_lim : is_lim g m_infty 0.
Proof.
  apply is_lim_spec. intros eps. pose proof (proj2 (is_lim_spec pdf m_infty 0) pdf_lim eps) as [M HM]. exists (Rmin M 0). intros z Hz.
  assert (z < M) by (pose proof (Rmin_l M 0); lra). assert (z < 0) by (pose proof (Rmin_r M 0); lra). specialize (HM z H). rewrite Rminus_0_r in *.
  rewrite Rabs_pos_eq in HM by apply Rlt_le, pdf_pos. rewrite Rabs_pos_eq by apply g_nonneg. unfold g. pose proof (cdf_nonneg z). nra.
Qed.
Lemma EI_eq f pred var : 0 < var -> EI cdf f pred var = sqrt var * g ((f - pred) / sqrt var).
Proof.
  intros H. pose proof (sqrt_lt_R0 var H). unfold EI. destruct (Req_EM_T (sqrt var) 0); [lra|]. unfold g. field. lra.
Qed.
Lemma EI_zero f pred var : 0 <= var -> (sqrt var = 0 <-> var = 0) -> var = 0 -> EI cdf f pred var = 0.
Proof. intros _ H E. unfold EI. apply H in E. rewrite E. destruct (Req_EM_T 0 0); [reflexivity|lra]. Qed.
Lemma EI_novar f pred : EI cdf f pred 0 = 0.
Proof. unfold EI. rewrite sqrt_0. destruct (Req_EM_T 0 0); [reflexivity|lra]. Qed.
Lemma EI_nonneg f pred var : 0 <= var -> 0 <= EI cdf f pred var.
Proof.
  intros [H|H]; [|rewrite <- H, EI_novar; lra]. rewrite EI_eq by exact H. apply Rmult_le_pos; [apply sqrt_pos|apply g_nonneg].
Qed.
Lemma EI_derive f pred var : 0 < var -> is_derive (fun f => EI cdf f pred var) f (cdf ((f - pred) / sqrt var)).
Proof.
  intros H. pose proof (sqrt_lt_R0 var H) as S. apply (is_derive_ext (fun f => sqrt var * g ((f - pred) / sqrt var))); [intros t; symmetry; apply EI_eq; exact H|].
  assert (Q : is_derive (fun f => sqrt var * g ((f - pred) / sqrt var)) f (sqrt var * (1 / sqrt var * cdf ((f - pred) / sqrt var)))).
  { apply is_derive_scal. apply (is_derive_comp g (fun f => (f - pred) / sqrt var) f); [apply g_derive|]. generalize dependent (sqrt var). intros s Hs. auto_derive; [lra|]. field. lra. }
  replace (sqrt var * (1 / sqrt var * cdf ((f - pred) / sqrt var))) with (cdf ((f - pred) / sqrt var)) in Q by (field; lra). exact Q.
Qed.
Lemma EI_mono f f' pred var : 0 <= var -> f <= f' -> EI cdf f pred var <= EI cdf f' pred var.
Proof.
  intros [H|H] L; [|rewrite <- H, !EI_novar; lra]. apply (mono_ge (fun f => EI cdf f pred var) (fun f => cdf ((f - pred) / sqrt var)) (f' + 1)); try lra; intros; [apply EI_derive; exact H|apply cdf_nonneg].
Qed.
Lemma EI_lim pred var : 0 < var -> is_lim (fun f => EI cdf f pred var) m_infty 0.
Proof.
  intros H. pose proof (sqrt_lt_R0 var H) as S. apply is_lim_spec. intros eps. assert (E : 0 < eps / sqrt var) by (apply Rdiv_lt_0_compat; [apply eps|exact S]).
  pose proof (proj2 (is_lim_spec g m_infty 0) g_lim (mkposreal _ E)) as [M HM]. cbn in HM. exists (pred + sqrt var * M). intros f Hf. rewrite EI_eq by exact H. rewrite Rminus_0_r.
  assert (Z : (f - pred) / sqrt var < M). { apply Rmult_lt_reg_r with (sqrt var); [exact S|]. unfold Rdiv. rewrite Rmult_assoc, Rinv_l by lra. lra. }
  specialize (HM _ Z). rewrite Rminus_0_r in HM. rewrite Rabs_mult, (Rabs_pos_eq (sqrt var)) by lra. apply Rmult_lt_reg_l with (/ sqrt var); [apply Rinv_0_lt_compat; exact S|]. rewrite <- Rmult_assoc, Rinv_l by lra. unfold Rdiv in HM. lra.
Qed.
(** decreasing in the prediction, increasing in the variance *)
Lemma g_mono a b : a <= b -> g a <= g b.
Proof. intros L. apply (mono_ge g cdf (b + 1)); try lra; intros; [apply g_derive|apply cdf_nonneg]. Qed.
Lemma EI_pred f p p' var : 0 <= var -> p <= p' -> EI cdf f p' var <= EI cdf f p var.
Proof.
  intros [H|H] L; [|rewrite <- H, !EI_novar; lra]. rewrite !EI_eq by exact H. pose proof (sqrt_lt_R0 var H). apply Rmult_le_compat_l; [lra|]. apply g_mono. apply Rmult_le_compat_r; [apply Rlt_le, Rinv_0_lt_compat; lra|lra].
Qed.
Lemma EI_sig (d s s' : R) : 0 < s -> s <= s' -> s * g (d / s) <= s' * g (d / s').
Proof.
  intros Hs L. destruct (Req_dec s s') as [-> |Ne]; [lra|].
  destruct (MVT_gen (fun s => s * g (d / s)) s s' (fun s => pdf (d / s))) as (c & Hc & E).
  - intros t Ht. rewrite Rmin_left, Rmax_right in Ht by lra.
    assert (Q : is_derive (fun s => s * g (d / s)) t (1 * g (d / t) + t * (- d / t ^ 2 * cdf (d / t)))).
    { apply (is_derive_mult (K := R_AbsRing) (fun s => s) (fun s => g (d / s)) t 1); [apply (is_derive_id (K := R_AbsRing))| |intros; apply Rmult_comm].
      apply (is_derive_comp g (fun s => d / s) t); [apply g_derive|]. auto_derive; [lra|]. field. lra. }
    replace (pdf (d / t)) with (1 * g (d / t) + t * (- d / t ^ 2 * cdf (d / t))); [exact Q|]. unfold g. field. lra.
  - intros t Ht. rewrite Rmin_left, Rmax_right in Ht by lra. apply continuity_pt_filterlim. apply (ex_derive_continuous (fun s => s * g (d / s)) t).
    apply (ex_derive_mult (fun s => s) (fun s => g (d / s)) t); [apply ex_derive_id|]. apply (ex_derive_comp g (fun s => d / s) t); [eexists; apply g_derive|]. auto_derive. lra.
  - rewrite Rmin_left, Rmax_right in Hc by lra. pose proof (pdf_pos (d / c)). nra.
Qed.
Lemma EI_var f pred var var' : 0 <= var -> var <= var' -> EI cdf f pred var <= EI cdf f pred var'.
Proof.
  intros [H|H] L; [|rewrite <- H, EI_novar; apply EI_nonneg; lra]. rewrite !EI_eq by lra. apply EI_sig; [apply sqrt_lt_R0; exact H|apply sqrt_le_1; lra].
Qed.
Lemma fold_bounds {A} (F : R -> A -> R) : (forall e a, 0 <= e -> 0 <= F e a <= e) -> forall l e, 0 <= e -> 0 <= fold_left F l e <= e.
Proof. intros H. induction l as [|a l IH]; intros e He; cbn [fold_left]; [lra|]. destruct (H e a He) as [A1 A2]. specialize (IH (F e a) A1). lra. Qed.
Lemma penalise_bounds others EIp ei : 0 <= ei -> 0 <= penalise EIp ei others <= ei.
Proof.
  unfold penalise. apply fold_bounds. clear. intros e [x d] H. cbv zeta. split; [apply Rmax_r|]. apply Rmax_lub; [|exact H]. destruct (Rlt_dec 0 _); lra.
Qed.
Lemma penalise_sum others EIp ei : 0 <= ei ->
  penalise EIp ei others = Rmax (ei - fold_right Rplus 0 (map (fun '(EIx, dist) => Rmax ((EIp - EIx) / dist ^ 4) 0) others)) 0.
Proof.
  revert ei. induction others as [|[x d] l IH]; intros ei H; cbn [map fold_right].
  - cbn. rewrite Rmax_left; lra.
  - unfold penalise. cbn [fold_left]. change (fold_left _ l ?e) with (penalise EIp e l). rewrite IH by apply Rmax_r.
    set (P := fold_right _ _ _). set (q := (EIp - x) / d ^ 4). assert (HP : 0 <= P).
    { unfold P. clear. induction l as [|[y e] l IHl]; cbn [map fold_right]; [lra|]. pose proof (Rmax_r ((EIp - y) / e ^ 4) 0). lra. }
    unfold Rmax. repeat (destruct (Rle_dec _ _)); destruct (Rlt_dec 0 q); lra.
Qed.
Lemma tunneling_sum f pred var others : 0 <= var -> EI_tunneling cdf f pred var others =
  Rmax (EI cdf f pred var - fold_right Rplus 0 (map (fun '(EIx, dist) => Rmax ((EI cdf f pred var - EIx) / dist ^ 4) 0) others)) 0.
Proof. intros H. apply penalise_sum. apply EI_nonneg. exact H. Qed.
Lemma tunneling f pred var others : 0 <= var -> 0 <= EI_tunneling cdf f pred var others <= EI cdf f pred var.
Proof. intros H. apply penalise_bounds. apply EI_nonneg. exact H. Qed.
End Cdf.

(** ** such a function exists *)
Definition prim (z : R) : R := RInt pdf 0 z.
Lemma pdf_cont z : continuous pdf z. Proof. apply (ex_derive_continuous pdf z). eexists. apply pdf_derive. Qed.
Lemma prim_derive z : is_derive prim z (pdf z).
Proof.
  apply (is_derive_RInt pdf prim 0 z).
  - exists (mkposreal 1 Rlt_0_1). intros y _. apply (RInt_correct pdf 0 y). apply (ex_RInt_continuous pdf). intros t _. apply pdf_cont.
  - apply pdf_cont.
Qed.
Lemma prim_lower z : - (1 + exp 2) / sqrt (2 * PI) * 3 <= prim z.
Proof.
  pose proof s2pi as S. set (K := / sqrt (2 * PI)). assert (HK : 0 < K) by (apply Rinv_0_lt_compat; exact S).
  (* pdf t <= K e^(t+1) everywhere since -t^2/2 <= t + 1 *)
  set (h := fun t => prim t - K * exp (t + 1)).
  assert (DH : forall t, is_derive h t (pdf t - K * exp (t + 1))).
  { intros t. unfold h. apply (is_derive_minus prim (fun t => K * exp (t + 1)) t); [apply prim_derive|]. auto_derive; [exact I|]. ring. }
  assert (NH : forall t, pdf t - K * exp (t + 1) <= 0).
  { intros t. unfold pdf, Rdiv. fold K. assert (exp (- t ^ 2 * / 2) <= exp (t + 1)); [|nra]. destruct (Req_dec (- t ^ 2 * / 2) (t + 1)) as [-> |Ne]; [lra|]. apply Rlt_le, exp_increasing. nra. }
  assert (P0 : prim 0 = 0) by (unfold prim; rewrite RInt_point; reflexivity).
  destruct (Rle_lt_dec 0 z) as [Hz|Hz].
  - pose proof (mono_ge prim pdf (z + 1) (fun t _ => prim_derive t) (fun t _ => Rlt_le _ _ (pdf_pos t)) 0 z Hz ltac:(lra)) as M. rewrite P0 in M.
    assert (0 < exp 2) by apply exp_pos. unfold Rdiv. fold K. nra.
  - (* -h is non-decreasing *)
    pose proof (mono_ge (fun t => - h t) (fun t => - (pdf t - K * exp (t + 1))) 1 (fun t _ => is_derive_opp h t _ (DH t)) (fun t _ => ltac:(pose proof (NH t); lra)) z 0 ltac:(lra) ltac:(lra)) as M.
    unfold h in M. rewrite P0 in M. assert (0 < exp (z + 1)) by apply exp_pos. assert (exp (0 + 1) <= exp 2) by (apply Rlt_le, exp_increasing; lra). assert (0 < exp 2) by apply exp_pos. unfold Rdiv. fold K. nra.
Qed.
Lemma cdf_exists : exists cdf, is_cdf cdf.
Proof.
  destruct (completeness (fun v => exists z, v = - prim z)) as [c [Ub Lub]].
  - exists ((1 + exp 2) / sqrt (2 * PI) * 3). intros v [z ->]. pose proof (prim_lower z). unfold Rdiv in *. lra.
  - exists (- prim 0). eauto.
  - exists (fun z => prim z + c). split.
    + intros z. assert (Q : is_derive (fun z => prim z + c) z (pdf z + 0)) by (apply (is_derive_plus prim (fun _ => c) z); [apply prim_derive|apply (is_derive_const c z)]). rewrite Rplus_0_r in Q. exact Q.
    + apply is_lim_spec. intros eps. 
      assert (EX : exists z0, c - eps < - prim z0).
      { apply Classical_Prop.NNPP. intros N. assert (c <= c - eps); [|pose proof (cond_pos eps); lra]. apply Lub. intros v [z ->]. apply Rnot_lt_le. intros H. apply N. exists z. exact H. }
      destruct EX as [z0 H0]. exists z0. intros z Hz. rewrite Rminus_0_r.
      pose proof (mono_ge prim pdf (z0 + 1) (fun t _ => prim_derive t) (fun t _ => Rlt_le _ _ (pdf_pos t)) z z0 ltac:(lra) ltac:(lra)) as M.
      assert (- prim z <= c) by (apply Ub; eauto). rewrite Rabs_pos_eq by lra. lra.
Qed.

Lemma UCB_spec (cdf : R -> R) (pred var : R) : 0 <= var ->
  UCB pred var <= pred /\ (UCB pred var = pred <-> var = 0) /\ (0 < var -> cdf ((UCB pred var - pred) / sqrt var) = cdf (-3)).
Proof.
  intros H. unfold UCB. pose proof (sqrt_pos var) as P. split; [lra|split].
  - split; intros E.
    + assert (Z : sqrt var = 0) by lra. apply sqrt_eq_0; assumption.
    + rewrite E, sqrt_0. ring.
  - intros V. f_equal. assert (sqrt var <> 0) by (apply Rgt_not_eq, sqrt_lt_R0; exact V). field. assumption.
Qed.
