(** Generalised least squares when outputs and trend functions change units. *)
From Coq Require Import Reals Arith Bool List Lia Lra.
From Verif Require Import RSum Mat Tri_M Tri_P Kernels_M Krg_M Krg_S Krg_P Krg_P2 Rmtc_S Het_S Order_P1 Order_P2 Order_P3 Mfk_M Mfk_S Mfk_P Mfk_P2 MfkUnits_S MfkUnits_P2 MfkUnits_P4.
Open Scope R_scope.
Section G.
Variables (n N q : nat) (al be a b : R) (Rm F F' : mat) (y y' : vec) (pr pr' : par).
Hypotheses (Hq : (q + q <= N)%nat) (HqN : (q < N)%nat) (Hal : al <> 0) (Sy : msym n Rm).
Hypotheses (HF : forall i j, (i < n)%nat -> (j < N)%nat -> F' i j = tcol q al be (F i) j) (HY : forall i, (i < n)%nat -> y' i = a * y i + b) (H1 : forall i, (i < n)%nat -> F i q = 1).
Hypotheses (O : fit_ok n N Rm F y pr) (O' : fit_ok n N Rm F' y' pr').
Lemma mvF' c i : (i < n)%nat -> mv N F' c i = mv N F (tz q al be c) i.
Proof.
  intros Hi. change (dot N (F' i) c = dot N (F i) (tz q al be c)). rewrite <- tcol_dot by exact Hq. apply dot_ext; [intros j Hj; apply HF; assumption|reflexivity].
Qed.
Definition eq_ : vec := fun j => if Nat.eqb j q then b else 0.
Lemma mv_e i : (i < n)%nat -> mv N F eq_ i = b.
Proof.
  intros Hi. unfold mv, eq_. rewrite (rsum_ext N _ (fun j => if Nat.eqb j q then F i j * b else 0)) by (intros j Hj; destruct (Nat.eqb j q); ring).
  rewrite (rsum_single N (fun j => F i j * b) q HqN). rewrite H1 by exact Hi. ring.
Qed.
Let g : vec := fun i => p_gamma pr' i - a * p_gamma pr i.
Let d : vec := fun j => tz q al be (p_beta pr') j - (a * p_beta pr j + eq_ j).
Lemma mv_d i : (i < n)%nat -> mv N F d i = mv N F' (p_beta pr') i - (a * mv N F (p_beta pr) i + b).
Proof.
  intros Hi. unfold d. rewrite mv_minus. rewrite (mvF' (p_beta pr') i Hi). f_equal. rewrite <- (mv_e i Hi). unfold mv. rewrite <- rsum_scal_l, <- rsum_plus. apply rsum_ext. intros; ring.
Qed.
Lemma g_eq5 i : (i < n)%nat -> mv n Rm g i = - mv N F d i.
Proof.
  intros Hi. unfold g. rewrite mv_minus. rewrite (R_gamma n N Rm F' y' pr' Sy O' i Hi). rewrite mv_d by exact Hi.
  assert (E : mv n Rm (fun i => a * p_gamma pr i) i = a * mv n Rm (p_gamma pr) i) by (unfold mv; rewrite <- rsum_scal_l; apply rsum_ext; intros; ring).
  rewrite E, (R_gamma n N Rm F y pr Sy O i Hi), HY by exact Hi. ring.
Qed.
Lemma g_orth5 c : dot n (mv N F c) g = 0.
Proof.
  unfold g. rewrite dot_minus_r.
  assert (E : dot n (mv N F c) (p_gamma pr') = dot n (mv N F' (iz q al be c)) (p_gamma pr')).
  { apply dot_ext; [|reflexivity]. intros i Hi. rewrite mvF' by exact Hi. apply mv_ext; [reflexivity|]. intros j Hj. symmetry. apply tz_iz. exact Hal. }
  rewrite E, (F_gamma n N Rm F' y' pr' O').
  assert (E2 : dot n (mv N F c) (fun i => a * p_gamma pr i) = a * dot n (mv N F c) (p_gamma pr)) by (unfold dot; rewrite <- rsum_scal_l; apply rsum_ext; intros; ring).
  rewrite E2, (F_gamma n N Rm F y pr O). ring.
Qed.
Lemma g_zero5 i : (i < n)%nat -> g i = 0.
Proof.
  revert i. destruct (nonzero_dec n g) as [W|W]; [|exact W]. exfalso. pose proof (chol_pd n Rm _ Sy (fo_C _ _ _ _ _ _ O) g W) as P.
  rewrite (dot_ext n g (mv n Rm g) g (fun i => - mv N F d i)) in P by (intros; try reflexivity; apply g_eq5; assumption). rewrite dot_opp_r, dot_sym, g_orth5 in P. lra.
Qed.
Lemma d_zero5 j : (j < N)%nat -> d j = 0.
Proof.
  revert j. apply (upper_inj N (p_G pr) (fo_G _ _ _ _ _ _ O) (fo_D _ _ _ _ _ _ O)). apply dot_self_zero. rewrite <- (Ft_form n N Rm F y pr O d d).
  assert (Z : forall i, (i < n)%nat -> mv N (p_Ft pr) d i = 0).
  { apply (lower_inj n (p_C pr) (chol_lower _ _ _ (fo_C _ _ _ _ _ _ O)) (chol_diag _ _ _ (fo_C _ _ _ _ _ _ O))). intros i Hi. rewrite (C_F n N Rm F y pr O d i Hi).
    pose proof (g_eq5 i Hi) as E. rewrite (mv_zero n Rm g i g_zero5) in E. lra. }
  apply dot_zero_r. exact Z.
Qed.
Lemma t_gamma i : (i < n)%nat -> p_gamma pr' i = a * p_gamma pr i.
Proof. intros Hi. pose proof (g_zero5 i Hi). unfold g in *. lra. Qed.
Lemma t_beta j : (j < N)%nat -> tz q al be (p_beta pr') j = a * p_beta pr j + eq_ j.
Proof. intros Hj. pose proof (d_zero5 j Hj). unfold d in *. lra. Qed.
Lemma t_beta_low j : (j < q)%nat -> p_beta pr' j = a / al * p_beta pr j.
Proof.
  intros Hj. pose proof (t_beta j ltac:(lia)) as E. unfold tz, eq_ in E. rewrite (proj2 (Nat.ltb_lt j q) Hj) in E. destruct (Nat.eqb_spec j q) as [|_]; [lia|]. apply (Rmult_eq_reg_l al); [|exact Hal]. rewrite E. field. exact Hal.
Qed.
(** value of the trend part for changed trend functions *)
Lemma t_trend V V' : (forall j, (j < N)%nat -> V' j = tcol q al be V j) -> dot N V' (p_beta pr') = a * dot N V (p_beta pr) + b * V q.
Proof.
  intros HV. rewrite (dot_ext N V' (p_beta pr') (tcol q al be V) (p_beta pr') HV (fun _ _ => eq_refl)). rewrite tcol_dot by exact Hq. rewrite (dot_ext N V _ V (fun j => a * p_beta pr j + eq_ j) (fun _ _ => eq_refl) t_beta).
  unfold dot. rewrite (rsum_ext N _ (fun j => a * (V j * p_beta pr j) + (if Nat.eqb j q then b * V j else 0))) by (intros j Hj; unfold eq_; destruct (Nat.eqb j q); ring).
  rewrite rsum_plus, rsum_scal_l, (rsum_single N (fun j => b * V j) q HqN). reflexivity.
Qed.
Lemma t_rho : dot n (rho_of n N y' pr') (rho_of n N y' pr') = a ^ 2 * dot n (rho_of n N y pr) (rho_of n N y pr).
Proof.
  rewrite <- (gamma_rho n N Rm F' y' pr' Sy O'), <- (gamma_rho n N Rm F y pr Sy O). unfold dot. rewrite <- rsum_scal_l. apply rsum_ext. intros i Hi. rewrite t_gamma, HY by exact Hi.
  pose proof (mv_d i Hi) as E. rewrite (mv_zero N F d i d_zero5) in E. replace (mv N F' (p_beta pr') i) with (a * mv N F (p_beta pr) i + b) by lra. ring.
Qed.
Lemma id_reorder k : reorder k (fun i => i).
Proof. split; [intros; assumption|]. intros; assumption. Qed.
Lemma same_fsub c c' z z' : (forall i, (i < n)%nat -> c' i = c i) -> (forall i, (i < n)%nat -> z' i = z i) -> dot n (fsub (p_C pr') c' n) (fsub (p_C pr') z' n) = dot n (fsub (p_C pr) c n) (fsub (p_C pr) z n).
Proof. intros Hc Hz. exact (two_dot n (fun i => i) Rm Rm (p_C pr) (p_C pr') (id_reorder n) Sy (fun _ _ _ _ => eq_refl) (fo_C _ _ _ _ _ _ O) (fo_C _ _ _ _ _ _ O') c c' z z' Hc Hz). Qed.
Lemma Ft_mv_fsub (A Fm : mat) (z : vec) (r : par) c i : fit_ok n N A Fm z r -> (i < n)%nat -> mv N (p_Ft r) c i = fsub (p_C r) (mv N Fm c) n i.
Proof.
  intros Ok Hi. apply Rminus_diag_uniq. apply (lower_inj n (p_C r) (chol_lower _ _ _ (fo_C _ _ _ _ _ _ Ok)) (chol_diag _ _ _ (fo_C _ _ _ _ _ _ Ok)) (fun i => mv N (p_Ft r) c i - fsub (p_C r) (mv N Fm c) n i)); [|exact Hi].
  intros k Hk. rewrite mv_minus, (C_F n N A Fm z r Ok c k Hk), (fsub_solves n (p_C r) (mv N Fm c) (chol_lower _ _ _ (fo_C _ _ _ _ _ _ Ok)) (chol_diag _ _ _ (fo_C _ _ _ _ _ _ Ok)) k Hk). ring.
Qed.
Definition H_ (r : par) : mat := mm N (tr (p_G r)) (p_G r).
Lemma H_form (A Fm : mat) (z : vec) (r : par) c e : fit_ok n N A Fm z r -> dot N c (mv N (H_ r) e) = dot n (mv N (p_Ft r) c) (mv N (p_Ft r) e).
Proof.
  intros Ok. rewrite (Ft_form n N A Fm z r Ok c e). rewrite dot_mv_tr. apply dot_ext; [reflexivity|]. intros i Hi. unfold H_. apply mv_mm.
Qed.
(** F' = F T, hence H' = T' H T *)
Lemma H_T c e : dot N c (mv N (H_ pr') e) = dot N (tz q al be c) (mv N (H_ pr) (tz q al be e)).
Proof.
  rewrite (H_form _ _ _ _ _ _ O'), (H_form _ _ _ _ _ _ O).
  rewrite (dot_ext n _ _ _ _ (fun i Hi => Ft_mv_fsub _ _ _ _ c i O' Hi) (fun i Hi => Ft_mv_fsub _ _ _ _ e i O' Hi)).
  rewrite (dot_ext n _ _ _ _ (fun i Hi => Ft_mv_fsub _ _ _ _ (tz q al be c) i O Hi) (fun i Hi => Ft_mv_fsub _ _ _ _ (tz q al be e) i O Hi)).
  apply same_fsub; intros i Hi; apply mvF'; exact Hi.
Qed.
Lemma H_pd (A Fm : mat) (z : vec) (r : par) : fit_ok n N A Fm z r -> mpd N (H_ r).
Proof.
  intros Ok x Hx. unfold H_. rewrite gram_form. destruct (nonzero_dec N (mv N (p_G r) x)) as [(k & Hk & Nz)|Zr]; [apply (dot_self_pos _ _ k Hk Nz)|]. exfalso. destruct Hx as (i & Hi & Nz). apply Nz.
  apply (upper_inj N (p_G r) (fo_G _ _ _ _ _ _ Ok) (fo_D _ _ _ _ _ _ Ok) x Zr i Hi).
Qed.
Lemma inv_mv (A B : mat) v i : is_inverse N A B -> (i < N)%nat -> mv N A (mv N B v) i = v i.
Proof. intros I Hi. rewrite <- mv_mm. rewrite (mv_ext N (mm N A B) idm v v i); [apply mv_id; exact Hi| |reflexivity]. intros j Hj. unfold mm, idm. apply (I i j Hi Hj). Qed.
(** variance of the coefficients of the level below *)
Lemma t_inv M M' v : is_inverse N (H_ pr) M -> is_inverse N (H_ pr') M' -> (forall j, (q <= j)%nat -> v j = 0) -> dot N v (mv N M' v) = dot N v (mv N M v) / al ^ 2.
Proof.
  intros I I' V0. set (z' := mv N M' v). set (w := tz q al be z').
  assert (E1 : forall c, dot N c (mv N (H_ pr) w) = dot N c v / al).
  { intros c. transitivity (dot N (tz q al be (iz q al be c)) (mv N (H_ pr) w)); [apply dot_ext; [intros j Hj; symmetry; apply tz_iz; exact Hal|reflexivity]|].
    unfold w. rewrite <- H_T. rewrite (dot_ext N (iz q al be c) (mv N (H_ pr') z') (iz q al be c) v (fun _ _ => eq_refl) (fun i Hi => inv_mv _ _ v i I' Hi)).
    unfold dot. unfold Rdiv. rewrite <- rsum_scal_r. apply rsum_ext. intros j Hj. unfold iz. destruct (Nat.ltb_spec j q) as [L|L]; [field; exact Hal|]. rewrite (V0 j L). ring. }
  assert (E2 : forall i, (i < N)%nat -> mv N (H_ pr) w i = mv N (H_ pr) (fun j => mv N M v j / al) i).
  { intros i Hi. assert (E3 : mv N (H_ pr) (fun j => mv N M v j / al) i = v i / al).
    { rewrite <- (inv_mv _ _ v i I Hi) at 1. unfold mv at 1 3, Rdiv. rewrite <- rsum_scal_r. apply rsum_ext. intros; ring. }
    rewrite E3. pose proof (E1 (fun k => if Nat.eqb k i then 1 else 0)) as E. unfold dot in E.
    rewrite (rsum_ext N _ (fun k => if Nat.eqb k i then mv N (H_ pr) w k else 0)) in E by (intros k Hk; destruct (Nat.eqb k i); ring).
    rewrite (rsum_ext N (fun k => (if Nat.eqb k i then 1 else 0) * v k) (fun k => if Nat.eqb k i then v k else 0)) in E by (intros k Hk; destruct (Nat.eqb k i); ring).
    rewrite (rsum_single N _ i Hi), (rsum_single N v i Hi) in E. exact E. }
  assert (E4 : forall j, (j < N)%nat -> w j = mv N M v j / al) by exact (mpd_unique N (H_ pr) w _ (H_pd _ _ _ _ O) E2).
  unfold dot. unfold Rdiv. rewrite <- rsum_scal_r. apply rsum_ext. intros j Hj. destruct (le_lt_dec q j) as [L|L]; [rewrite (V0 j L); ring|].
  pose proof (E4 j Hj) as E. unfold w, tz in E. rewrite (proj2 (Nat.ltb_lt j q) L) in E. change (mv N M' v j) with (z' j). replace (z' j) with (al * z' j / al) by (field; exact Hal). rewrite E. field. exact Hal.
Qed.
End G.
