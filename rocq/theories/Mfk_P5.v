(** derivatives of multi-fidelity kriging *)
From Coq Require Import Reals Arith Bool List Lia Lra FunctionalExtensionality.
From Coquelicot Require Import Coquelicot.
From Verif Require Import RSum Mat Tri_M Tri_P Kernels_M Krg_M Krg_S Krg_P Krg_P2 Krg_P3 Krg_P4 Rbf_P Poly_P Mfk_M Mfk_S Mfk_P Mfk_P2 Mfk_P3.
Import ListNotations.
Open Scope list_scope.
Open Scope R_scope.

Definition oval (o : option R) : R := match o with Some v => v | None => 0 end.
Section D.
Variables (nx : nat) (po : poly).
Notation rho := PConstant.
Hypothesis Np : po <> PQuadratic.
(** the true derivatives of the basis *)
Definition tbasis (dprev : option R) (kx : nat) : vec :=
  match dprev with None => fun j => dfv po j kx | Some d => fun j => if Nat.ltb j 1 then d else dfv po (j - 1) kx end.
Definition true_deriv (dprev : option R) (lv : level) (x : vec) (kx : nat) : R :=
  dot (l_q lv + np nx po) (tbasis dprev kx) (p_beta (l_par lv)) - 2 * eff_theta (l_k lv) kx * dot (l_nt lv) (fun i => (x kx - l_Xn lv i kx) * lr nx lv x i) (p_gamma (l_par lv)).
Lemma level_partial (P : vec -> option R) (p : vec -> R) dp lv z kx : (kx < nx)%nat -> k_ok (l_k lv) nx -> k_corr (l_k lv) = SquarExp ->
  ((forall z, P z = None) /\ dp = None /\ l_q lv = 0%nat \/ (forall z, P z = Some (p z)) /\ l_q lv = 1%nat /\ exists d, dp = Some d /\ is_partial p z kx d) ->
  is_partial (fun z => level_mean nx po rho (P z) lv z) z kx (true_deriv dp lv z kx).
Proof.
  intros Hk K Ec H. unfold is_partial, level_mean, true_deriv.
  assert (A : is_derive (fun t => dot (l_q lv + np nx po) (basis nx po rho (P (upd z kx t)) (upd z kx t)) (p_beta (l_par lv))) (z kx) (dot (l_q lv + np nx po) (tbasis dp kx) (p_beta (l_par lv)))).
  { unfold dot. apply (is_derive_rsum (l_q lv + np nx po) (fun j t => basis nx po rho (P (upd z kx t)) (upd z kx t) j * p_beta (l_par lv) j)). intros j Hj.
    assert (D : is_derive (fun t => basis nx po rho (P (upd z kx t)) (upd z kx t) j) (z kx) (tbasis dp kx j)).
    { destruct H as [(H1 & -> & Q)|(H1 & Q & d & -> & Hd)].
      - apply (is_derive_ext (fun t => fvec po nx (upd z kx t) j)); [intros t; rewrite H1; reflexivity|]. rewrite Q in Hj. apply (fvec_partial po nx z j kx Np); [exact Hj|exact Hk].
      - rewrite Q in Hj. cbn [tbasis]. destruct (Nat.ltb_spec j 1) as [Lj|Lj].
        + apply (is_derive_ext (fun t => p (upd z kx t))); [|exact Hd]. intros t. rewrite H1. unfold basis, nq. cbn [n_regr]. replace (Nat.ltb j 1) with true by (symmetry; apply Nat.ltb_lt; exact Lj). replace j with 0%nat by lia. rewrite fvec_0. match goal with |- ?a = ?b => change (@eq R a b) end. ring.
        + apply (is_derive_ext (fun t => fvec po nx (upd z kx t) (j - 1))).
          * intros t. rewrite H1. unfold basis, nq. cbn [n_regr]. replace (Nat.ltb j 1) with false by (symmetry; apply Nat.ltb_ge; exact Lj). reflexivity.
          * apply (fvec_partial po nx z (j - 1) kx Np); [unfold np in Hj; lia|exact Hk]. }
    pose proof (derive_mul _ _ _ _ _ D (derive_cst (p_beta (l_par lv) j) (z kx))) as M; cbn beta in M.
    match type of M with is_derive _ _ ?v => replace (tbasis dp kx j * p_beta (l_par lv) j) with v; [exact M|] end. match goal with |- ?a = ?b => change (@eq R a b) end. ring. }
  assert (B : is_derive (fun t => dot (l_nt lv) (lr nx lv (upd z kx t)) (p_gamma (l_par lv))) (z kx) (rsum (l_nt lv) (fun i => - (2 * eff_theta (l_k lv) kx * (z kx - l_Xn lv i kx) * lr nx lv z i) * p_gamma (l_par lv) i))).
  { unfold dot. apply (is_derive_rsum (l_nt lv) (fun i t => lr nx lv (upd z kx t) i * p_gamma (l_par lv) i)). intros i Hi.
    pose proof (kf_partial (l_k lv) nx z (l_Xn lv i) kx K Ec Hk) as D. unfold is_partial in D.
    pose proof (derive_mul _ _ _ _ _ D (derive_cst (p_gamma (l_par lv) i) (z kx))) as M; cbn beta in M.
    match type of M with is_derive _ _ ?v => replace (- (2 * eff_theta (l_k lv) kx * (z kx - l_Xn lv i kx) * lr nx lv z i) * p_gamma (l_par lv) i) with v; [exact M|] end.
    match goal with |- ?a = ?b => change (@eq R a b) end. unfold lr. ring. }
  pose proof (is_derive_plus _ _ _ _ _ A B) as AB. match type of AB with is_derive _ _ ?d => match goal with |- is_derive _ _ ?e => replace e with d; [exact AB|] end end.
  match goal with |- ?a = ?b => change (@eq R a b) end. set (a1 := dot (l_q lv + np nx po) _ _). set (b1 := rsum (l_nt lv) _).
  assert (Eb : b1 = - (2 * eff_theta (l_k lv) kx) * dot (l_nt lv) (fun i => (z kx - l_Xn lv i kx) * lr nx lv z i) (p_gamma (l_par lv))).
  { unfold b1, dot. rewrite <- rsum_scal_l. apply rsum_ext. intros. ring. }
  rewrite Eb. change (a1 + - (2 * eff_theta (l_k lv) kx) * dot (l_nt lv) (fun i => (z kx - l_Xn lv i kx) * lr nx lv z i) (p_gamma (l_par lv)) = a1 - 2 * eff_theta (l_k lv) kx * dot (l_nt lv) (fun i => (z kx - l_Xn lv i kx) * lr nx lv z i) (p_gamma (l_par lv))). ring.
Qed.
Notation ld lvls x kx := (match rev (derivs nx po rho None lvls x kx) with [] => None | d :: _ => Some d end).
Lemma derivs_app x kx a lv : forall prev, derivs nx po rho prev (a ++ [lv]) x kx = derivs nx po rho prev a x kx ++ [level_deriv nx po rho (match rev (derivs nx po rho prev a x kx) with [] => prev | m :: _ => Some m end) lv x kx].
Proof.
  induction a as [|b a IH]; intros prev; [reflexivity|]. cbn [app derivs]. cbv zeta. rewrite IH. cbn [app rev]. f_equal. f_equal. f_equal. f_equal.
  destruct (rev (derivs nx po rho (Some (level_deriv nx po rho prev b x kx)) a x kx)); reflexivity.
Qed.
Lemma ld_snoc x kx a lv : ld (a ++ [lv]) x kx = Some (level_deriv nx po rho (ld a x kx) lv x kx).
Proof. rewrite derivs_app, rev_app_distr. cbn [rev app]. destruct (rev (derivs nx po rho None a x kx)); reflexivity. Qed.
(** the code's derivative of the basis is right for a constant trend, and for a linear one in one dimension *)
Lemma df_right kx j : po = PConstant \/ nx = 1%nat -> (kx < nx)%nat -> (j < np nx po)%nat -> mfk_df po j = dfv po j kx.
Proof.
  intros H Hk Hj. unfold mfk_df, dfv, df, np in *. destruct po; try congruence; try reflexivity. destruct H as [H|H]; [congruence|]. subst nx. replace kx with 0%nat by lia. cbn [n_regr] in Hj. destruct j as [|[|j]]; [reflexivity|reflexivity|lia].
Qed.
Lemma deriv_right kx dp lv x : po = PConstant \/ nx = 1%nat -> (kx < nx)%nat -> (dp = None /\ l_q lv = 0%nat \/ dp <> None /\ l_q lv = 1%nat) -> level_deriv nx po rho dp lv x kx = true_deriv dp lv x kx.
Proof.
  intros H Hk Hq. unfold level_deriv, true_deriv. f_equal. apply dot_ext; [|reflexivity]. intros j Hj. destruct Hq as [(-> & Q)|(Hd & Q)]; rewrite Q in Hj.
  - apply df_right; assumption.
  - destruct dp as [d|]; [|congruence]. unfold dbasis, tbasis, nq. cbn [n_regr]. destruct (Nat.ltb_spec j 1) as [L|L]; [replace j with 0%nat by lia; rewrite fvec_0; ring|]. apply df_right; try assumption. lia.
Qed.
End D.

Section T.
Variables (nx : nat) (po : poly) (qr : nat -> nat -> mat -> mat * mat) (rcond : nat -> mat -> R) (condF : nat -> nat -> mat -> R) (nugget : R) (all : list data) (lvls : list level).
Notation rho := PConstant.
Hypotheses (HQ : qr_contract qr) (HR : rcond_contract rcond) (E : mfk_train nx po rho qr rcond condF nugget all = Some lvls).
Hypothesis (HK : forall d, In d all -> k_ok (d_k d) nx /\ k_corr (d_k d) = SquarExp).
Notation lmean := (last_mean nx po rho).
Notation ld lvls x kx := (match rev (derivs nx po rho None lvls x kx) with [] => None | d :: _ => Some d end).
Lemma chain_std x kx (g : vec -> R) d : is_partial g (stdx all x) kx d -> is_derive (fun t => g (stdx all (upd x kx t))) (x kx) (d / x_scale all kx).
Proof. intros H. exact (chain (total all) (fun a c => cat all (fun d a => d_X d a c) a) x kx g d H). Qed.
Lemma lv_facts k d lv : nth_error all k = Some d -> nth_error lvls k = Some lv -> lvl_ok nx po rho nugget all (firstn k lvls) d lv -> k_ok (l_k lv) nx /\ k_corr (l_k lv) = SquarExp /\ l_q lv = if Nat.eqb k 0 then 0%nat else 1%nat.
Proof.
  intros Hd Hl K. destruct (HK d (nth_error_In _ _ Hd)) as [K1 K2]. assert (Ek : l_k lv = d_k d) by (rewrite (lk_lv _ _ _ _ _ _ _ _ K); reflexivity). rewrite Ek. split; [exact K1|]. split; [exact K2|].
  rewrite (q_eq nx po rho nugget all _ d lv K). destruct (Nat.eqb_spec k 0) as [-> | Nk]; [reflexivity|]. eapply (qS nx po rho qr rcond condF nugget all lvls E k d lv); assumption.
Qed.
Lemma mean_partial x kx k : po = PConstant \/ po = PLinear /\ nx = 1%nat -> (kx < nx)%nat -> (S k <= length all)%nat ->
  exists d, ld (firstn (S k) lvls) x kx = Some d /\ is_partial (fun z => oval (lmean (firstn (S k) lvls) z)) x kx d.
Proof.
  intros Hp Hk. assert (Np : po <> PQuadratic) by (destruct Hp as [H|[H _]]; congruence). assert (Hp' : po = PConstant \/ nx = 1%nat) by tauto. induction k as [|k IH]; intros Hlen.
  - destruct (nth_error all 0) as [d|] eqn:Hd; [|apply nth_error_None in Hd; lia]. destruct (get nx po rho qr rcond condF nugget all lvls HQ HR E 0 d Hd) as (lv & Hl & K). destruct (lv_facts 0 d lv Hd Hl K) as (K1 & K2 & K3). cbn [Nat.eqb] in K3.
    rewrite (firstn_snoc lvls 0 lv Hl). rewrite ld_snoc. eexists. split; [reflexivity|]. cbn [firstn derivs rev].
    rewrite deriv_right; [|assumption|assumption|assumption|tauto]. unfold is_partial.
    apply (is_derive_ext (fun t => level_mean nx po rho ((fun _ : vec => @None R) (upd x kx t)) lv (upd x kx t))); [intros t; rewrite last_snoc; reflexivity|].
    apply (level_partial nx po Np (fun _ => None) (fun _ => 0) None lv x kx Hk K1 K2). left. split; [reflexivity|]. split; [reflexivity|exact K3].
  - destruct (IH ltac:(lia)) as (d & Ed & Pd). destruct (nth_error all (S k)) as [da|] eqn:Hd; [|apply nth_error_None in Hd; lia]. destruct (get nx po rho qr rcond condF nugget all lvls HQ HR E (S k) da Hd) as (lv & Hl & K). destruct (lv_facts (S k) da lv Hd Hl K) as (K1 & K2 & K3). cbn [Nat.eqb] in K3.
    rewrite (firstn_snoc lvls (S k) lv Hl). rewrite ld_snoc. eexists. split; [reflexivity|]. rewrite Ed.
    rewrite deriv_right; [|assumption|assumption|assumption|right; split; [discriminate|exact K3]]. unfold is_partial.
    apply (is_derive_ext (fun t => level_mean nx po rho (lmean (firstn (S k) lvls) (upd x kx t)) lv (upd x kx t))); [intros t; rewrite last_snoc; reflexivity|].
    apply (level_partial nx po Np (lmean (firstn (S k) lvls)) (fun z => oval (lmean (firstn (S k) lvls) z)) (Some d) lv x kx Hk K1 K2). right. split; [|split; [exact K3|exists d; split; [reflexivity|exact Pd]]].
    intros z. destruct (lmean (firstn (S k) lvls) z) eqn:L; [reflexivity|]. apply last_none in L. assert (L2 : length (firstn (S k) lvls) = 0%nat) by (rewrite L; reflexivity). rewrite firstn_length, (len_lvls nx po rho qr rcond condF nugget all lvls E) in L2. lia.
Qed.
Definition value (x : vec) : R := oval (mfk_value nx po rho all lvls x).
Lemma value_is z : value z = oval (lmean lvls (stdx all z)) * y_scale all + y_off all \/ lvls = [].
Proof. unfold value, mfk_value. destruct (lmean lvls (stdx all z)) eqn:L; [left; reflexivity|right; apply last_none in L; exact L]. Qed.
Lemma to_value x kx d : lvls <> [] -> is_partial (fun z => oval (lmean lvls z)) (stdx all x) kx d -> is_partial value x kx (d * y_scale all / x_scale all kx).
Proof.
  intros Ne H. apply chain_std in H. pose proof (is_derive_scal_l _ _ _ (y_scale all) H) as S. pose proof (is_derive_plus _ _ _ _ _ S (derive_cst (y_off all) (x kx))) as P.
  unfold is_partial. apply (is_derive_ext (fun t => plus (scal (oval (lmean lvls (stdx all (upd x kx t)))) (y_scale all)) (y_off all))).
  - intros t. destruct (value_is (upd x kx t)) as [-> | Z]; [reflexivity|congruence].
  - match type of P with is_derive _ _ ?v => replace (d * y_scale all / x_scale all kx) with v; [exact P|] end. match goal with |- ?a = ?b => change (@eq R a b) end. unfold plus, scal. cbn. unfold mult. cbn. field. apply scale1_nz.
Qed.
Lemma mfk_deriv_ok corr x kx v : po = PConstant \/ po = PLinear /\ nx = 1%nat -> (kx < nx)%nat -> mfk_derivative nx po rho corr all lvls x kx = Some v -> is_partial value x kx v.
Proof.
  intros Hp Hk Hv. pose proof (len_lvls nx po rho qr rcond condF nugget all lvls E) as L.
  assert (Hv' : exists d, ld lvls (stdx all x) kx = Some d /\ v = d * y_scale all / x_scale all kx).
  { unfold mfk_derivative in Hv. destruct corr; try discriminate. destruct Hp as [H|[H _]]; rewrite H in *; destruct (rev (derivs nx _ rho None lvls (stdx all x) kx)); try discriminate; eexists; (split; [reflexivity|congruence]). }
  destruct Hv' as (d & Ed & ->). destruct all as [|d0 al] eqn:Ea; [destruct lvls; [discriminate|discriminate]|]. rewrite <- Ea in *.
  assert (Hl : (1 <= length all)%nat) by (rewrite Ea; cbn; lia). destruct (mean_partial (stdx all x) kx (length all - 1) Hp Hk ltac:(lia)) as (d' & Ed' & P). replace (S (length all - 1)) with (length lvls) in Ed', P by lia. rewrite firstn_all in Ed', P.
  assert (d' = d) by congruence. subst d'. apply to_value; [intros Z; rewrite Z in L; cbn in L; lia|exact P].
Qed.
(** which options are accepted *)
Lemma mfk_deriv_some corr r x kx : all <> [] -> (exists v, mfk_derivative nx po r corr all lvls x kx = Some v) <-> corr = SquarExp /\ po <> PQuadratic /\ r = PConstant.
Proof. clear HK.
  intros Ne. pose proof (len_lvls nx po rho qr rcond condF nugget all lvls E) as L. unfold mfk_derivative. split.
  - intros [v H]. destruct corr; try discriminate; destruct po; try discriminate; destruct r; try discriminate; repeat split; congruence.
  - intros (-> & Np & ->). destruct lvls as [|lv l]; [destruct all; [congruence|discriminate]|]. destruct po; try congruence; (destruct (rev (derivs nx _ PConstant None (lv :: l) (stdx all x) kx)) eqn:Er; [apply (f_equal (@length R)) in Er; rewrite rev_length in Er; discriminate|eexists; reflexivity]).
Qed.
End T.
