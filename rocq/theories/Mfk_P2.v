From Coq Require Import Reals Arith Bool List Lia Lra.
From Coquelicot Require Import Coquelicot.
From Verif Require Import RSum Mat Psd Psd2 Tri_M Tri_P Kernels_M Kernels_P Kernels_P2 Kernels_P3 Krg_M Krg_S Krg_P Krg_P2 Krg_P3 Krg_Qr Mfk_M Mfk_S Mfk_P Rmtc_S.
Import ListNotations.
Open Scope list_scope.
Open Scope R_scope.

Section M.
Variables (nx : nat) (po rho : poly).
Notation level_mean := (level_mean nx po rho).
Notation means := (means nx po rho).
Notation last_mean := (last_mean nx po rho).
Lemma means_app x a lv : forall prev, means prev (a ++ [lv]) x = means prev a x ++ [level_mean (match rev (means prev a x) with [] => prev | m :: _ => Some m end) lv x].
Proof.
  induction a as [|b a IH]; intros prev; [reflexivity|]. cbn [app Mfk_M.means]. rewrite IH. cbn [app rev]. f_equal. f_equal. f_equal. f_equal.
  destruct (rev (means (Some (level_mean prev b x)) a x)); reflexivity.
Qed.
Lemma last_snoc x a lv : last_mean (a ++ [lv]) x = Some (level_mean (last_mean a x) lv x).
Proof. unfold Mfk_M.last_mean at 1. rewrite means_app, rev_app_distr. cbn [rev app]. unfold Mfk_M.last_mean. destruct (rev (means None a x)); reflexivity. Qed.
Lemma last_none x a : last_mean a x = None <-> a = [].
Proof.
  split; [|intros ->; reflexivity]. destruct a as [|lv a] using rev_ind; [reflexivity|]. rewrite last_snoc. discriminate.
Qed.
Lemma firstn_snoc {A} (l : list A) k a : nth_error l k = Some a -> firstn (S k) l = firstn k l ++ [a].
Proof. revert k. induction l as [|b l IH]; intros [|k] H; cbn in *; try discriminate; [injection H as ->; reflexivity|]. f_equal. apply IH. exact H. Qed.

Section Tr.
Variables (qr : nat -> nat -> mat -> mat * mat) (rcond : nat -> mat -> R) (condF : nat -> nat -> mat -> R) (nugget : R) (all : list data).
Notation train_level := (train_level nx po rho qr rcond condF nugget all).
Notation train_levels := (train_levels nx po rho qr rcond condF nugget all).
Lemma train_split todo : forall done lvls, train_levels done todo = Some lvls ->
  exists new, lvls = done ++ new /\ length new = length todo /\ forall k d, nth_error todo k = Some d -> exists lv, nth_error new k = Some lv /\ train_level (done ++ firstn k new) d = Some lv.
Proof.
  induction todo as [|d todo IH]; intros done lvls E; cbn [Mfk_M.train_levels] in E.
  - injection E as <-. exists []. rewrite app_nil_r. repeat split; intros k d H; destruct k; discriminate.
  - destruct (train_level done d) as [lv|] eqn:El; [|discriminate]. apply IH in E. destruct E as (new & -> & L & H). exists (lv :: new). rewrite <- app_assoc. split; [reflexivity|]. split; [cbn; congruence|].
    intros [|k] e He; cbn in He.
    + injection He as <-. exists lv. split; [reflexivity|]. cbn [firstn]. rewrite app_nil_r. exact El.
    + destruct (H k e He) as (l & Hl & Ht). exists l. split; [exact Hl|]. cbn [firstn]. rewrite <- app_assoc in Ht. exact Ht.
Qed.
Lemma train_nth lvls : mfk_train nx po rho qr rcond condF nugget all = Some lvls -> length lvls = length all /\
  forall k d, nth_error all k = Some d -> exists lv, nth_error lvls k = Some lv /\ train_level (firstn k lvls) d = Some lv.
Proof. intros E. apply train_split in E. destruct E as (new & -> & L & H). split; [exact L|exact H]. Qed.
Hypotheses (HQ : qr_contract qr) (HR : rcond_contract rcond).
Definition lq (done : list level) : nat := match done with [] => 0%nat | _ => nq nx rho end.
Definition lF (done : list level) (d : data) : mat := fun i j => basis nx po rho (last_mean done (stdx all (d_X d i))) (stdx all (d_X d i)) j.
Record lvl_ok (done : list level) (d : data) (lv : level) : Prop := {
  lk_lv : lv = {| l_nt := d_nt d; l_Xn := (fun i => stdx all (d_X d i)); l_yn := lv_y all d; l_k := d_k d; l_q := lq done; l_F := lF done d; l_par := l_par lv |};
  lk_p : (lq done + np nx po < d_nt d)%nat;
  lk_fit : fit_ok (d_nt d) (lq done + np nx po) (corr_matrix (d_k d) nx (d_nt d) (fun i => stdx all (d_X d i)) nugget (d_noise d)) (lF done d) (lv_y all d) (l_par lv);
  lk_s2 : p_sigma2 (l_par lv) = dot (d_nt d) (rho_of (d_nt d) (lq done + np nx po) (lv_y all d) (l_par lv)) (rho_of (d_nt d) (lq done + np nx po) (lv_y all d) (l_par lv)) / (INR (d_nt d) - INR (np nx po) - INR (lq done)) * y_scale all ^ 2;
  lk_Ft : p_Ft (l_par lv) = l_Ft lv }.
Lemma train_level_ok done d lv : train_level done d = Some lv -> lvl_ok done d lv.
Proof.
  intros E. unfold Mfk_M.train_level in E. cbv zeta in E. change (match done with [] => 0%nat | _ :: _ => nq nx rho end) with (lq done) in E. destruct (Nat.leb_spec (d_nt d) (np nx po + lq done)) as [|Hp]; [discriminate|].
  change (fun i j => basis nx po rho (last_mean done (stdx all (d_X d i))) (stdx all (d_X d i)) j) with (lF done d) in E. change (fun i => (d_y d i - y_off all) / y_scale all) with (lv_y all d) in E.
  destruct (reduced_likelihood _ _ _ _ _ _ _ _ _ _) as [v pr| |] eqn:EL; try discriminate. injection E as <-.
  assert (Hp' : (lq done + np nx po <= d_nt d)%nat) by lia. destruct (fit_facts qr rcond condF _ _ _ _ _ _ _ _ _ HQ HR Hp' (corr_matrix_sym _ _ _ _ _ _) EL) as [O S2]. split; cbn [l_par]; try assumption; try lia; [reflexivity|].
  unfold reduced_likelihood in EL. destruct (cholesky _ _) as [C|]; [|discriminate]. cbv zeta in EL. destruct (qr _ _ _) as [Q G]. destruct (Rlt_dec _ _); [destruct (Rlt_dec _ _); discriminate|]. injection EL as <- <-. reflexivity.
Qed.
Lemma ys_nz : y_scale all <> 0. Proof. apply scale1_nz. Qed.
Lemma ys_pos : 0 < y_scale all. Proof. apply scale1_pos. Qed.

Section L.
Variables (done : list level) (d : data) (lv : level).
Hypothesis K : lvl_ok done d lv.
Notation Z := (fun i => stdx all (d_X d i)).
Notation N := (lq done + np nx po)%nat.
Let Rm := corr_matrix (d_k d) nx (d_nt d) Z nugget (d_noise d).
Let O : fit_ok (d_nt d) N Rm (lF done d) (lv_y all d) (l_par lv) := lk_fit _ _ _ K.
Lemma lr_eq x : lr nx lv x = gr nx (d_k d) Z x.
Proof. rewrite (lk_lv _ _ _ K). reflexivity. Qed.
Lemma mean_eq prev x : level_mean prev lv x = dot N (basis nx po rho prev x) (p_beta (l_par lv)) + dot (d_nt d) (gr nx (d_k d) Z x) (p_gamma (l_par lv)).
Proof. unfold Mfk_M.level_mean. rewrite lr_eq. rewrite (lk_lv _ _ _ K). reflexivity. Qed.
Lemma rt_eq' x : l_rt nx lv x = grt nx (d_nt d) (d_k d) Z (l_par lv) x.
Proof. unfold l_rt. rewrite lr_eq. rewrite (lk_lv _ _ _ K). reflexivity. Qed.
Lemma u_eq' f x : l_u nx po lv f x = gu nx (d_nt d) N (d_k d) Z (l_par lv) f x.
Proof. unfold l_u. rewrite rt_eq', <- (lk_Ft _ _ _ K). rewrite (lk_lv _ _ _ K). reflexivity. Qed.
Lemma nt_eq : l_nt lv = d_nt d. Proof. rewrite (lk_lv _ _ _ K). reflexivity. Qed.
Lemma q_eq : l_q lv = lq done. Proof. rewrite (lk_lv _ _ _ K). reflexivity. Qed.
(** prediction at the training points of the level *)
Lemma level_interp i : (i < d_nt d)%nat ->
  level_mean (last_mean done (stdx all (d_X d i))) lv (stdx all (d_X d i)) = lv_y all d i - (nugget + d_noise d i) * p_gamma (l_par lv) i.
Proof. intros Hi. rewrite mean_eq. apply (g_interp nx (d_nt d) N (d_k d) Z nugget (d_noise d) (lF done d) (lv_y all d) (l_par lv) O i Hi). Qed.
Lemma dof_pos : 0 < INR (d_nt d) - INR (np nx po) - INR (lq done).
Proof. pose proof (lk_p _ _ _ K) as P. apply lt_INR in P. rewrite plus_INR in P. lra. Qed.
Lemma s2_nonneg : 0 <= p_sigma2 (l_par lv).
Proof.
  rewrite (lk_s2 _ _ _ K). apply Rmult_le_pos; [|apply pow2_ge_0]. apply Rmult_le_pos; [apply dot_self_nonneg|]. apply Rlt_le, Rinv_0_lt_compat, dof_pos.
Qed.
Lemma ls2_nonneg : 0 <= l_s2 (y_scale all) lv.
Proof. unfold l_s2. apply Rmult_le_pos; [apply s2_nonneg|]. apply Rlt_le, Rinv_0_lt_compat. apply pow2_gt_0, ys_nz. Qed.
Lemma ls2_eq : l_s2 (y_scale all) lv * y_scale all ^ 2 = p_sigma2 (l_par lv).
Proof. unfold l_s2. field. apply ys_nz. Qed.
(** ** the second moment of the scale factor *)
Lemma GG_sym : msym N (mm N (tr (p_G (l_par lv))) (p_G (l_par lv))).
Proof. intros i j _ _. unfold mm, tr. apply rsum_ext. intros. ring. Qed.
Lemma GG_pd : mpd N (mm N (tr (p_G (l_par lv))) (p_G (l_par lv))).
Proof.
  intros x Hx. rewrite gram_form. destruct (nonzero_dec N (mv N (p_G (l_par lv)) x)) as [(k & Hk & Nz)|Zr]; [apply (dot_self_pos _ _ k Hk Nz)|]. exfalso. destruct Hx as (i & Hi & Nz). apply Nz.
  apply (upper_inj N (p_G (l_par lv)) (fo_G _ _ _ _ _ _ O) (fo_D _ _ _ _ _ _ O) x Zr i Hi).
Qed.
Variable inv : nat -> mat -> mat.
Hypothesis HI : inv_contract inv.
Let M := inv N (mm N (tr (p_G (l_par lv))) (p_G (l_par lv))).
Lemma M_inv : is_inverse N (mm N (tr (p_G (l_par lv))) (p_G (l_par lv))) M.
Proof. apply HI; [exact GG_sym|exact GG_pd]. Qed.
(** the inverse of a positive definite matrix is positive *)
Lemma inv_form A B n v : mpd n A -> is_inverse n A B -> 0 <= rsum n (fun b => rsum n (fun a => v a * B a b) * v b).
Proof.
  intros PD I. set (z := mv n B v).
  assert (Ez : forall i, (i < n)%nat -> mv n A z i = v i).
  { intros i Hi. unfold z. rewrite <- mv_mm. rewrite (mv_ext n (mm n A B) idm v v i); [apply mv_id; exact Hi| |reflexivity]. intros j Hj. unfold mm, idm. apply (I i j Hi Hj). }
  assert (E : rsum n (fun b => rsum n (fun a => v a * B a b) * v b) = dot n z (mv n A z)).
  { transitivity (dot n v z).
    - unfold dot, z, mv. rewrite (rsum_ext n _ (fun b => rsum n (fun a => v a * B a b * v b))) by (intros; rewrite rsum_scal_r; reflexivity). rewrite rsum_swap. apply rsum_ext. intros a Ha. rewrite <- rsum_scal_l. apply rsum_ext. intros. ring.
    - rewrite (dot_ext n z (mv n A z) z v) by (first [reflexivity|exact Ez]). apply dot_sym. }
  rewrite E. apply (mpd_psd n A PD).
Qed.
Lemma sub_form (n q : nat) (B : mat) (g : vec) : (q <= n)%nat -> let v := fun a => if Nat.ltb a q then g a else 0 in
  rsum q (fun b => rsum q (fun a => g a * B a b) * g b) = rsum n (fun b => rsum n (fun a => v a * B a b) * v b).
Proof.
  intros H v. assert (V : forall a, (a < q)%nat -> v a = g a) by (intros a Ha; unfold v; replace (Nat.ltb a q) with true by (symmetry; apply Nat.ltb_lt; exact Ha); reflexivity).
  assert (V0 : forall a, (q <= a)%nat -> v a = 0) by (intros a Ha; unfold v; replace (Nat.ltb a q) with false by (symmetry; apply Nat.ltb_ge; exact Ha); reflexivity).
  symmetry. rewrite (rsum_tail_zero n q) by (try exact H; intros b Hb; rewrite (V0 b) by lia; ring). apply rsum_ext. intros b Hb. rewrite (V b Hb). f_equal.
  rewrite (rsum_tail_zero n q) by (try exact H; intros a Ha; rewrite (V0 a) by lia; ring). apply rsum_ext. intros a Ha. rewrite (V a Ha). reflexivity.
Qed.
Lemma sr_eq ys x : sigma2_rho nx po rho inv ys lv x = (dot (lq done) (fvec rho nx x) (p_beta (l_par lv))) ^ 2
  + l_s2 ys lv * rsum (lq done) (fun b => rsum (lq done) (fun a => fvec rho nx x a * M a b) * fvec rho nx x b).
Proof.
  unfold sigma2_rho. cbv zeta. rewrite q_eq. fold M. set (g := fvec rho nx x). set (be := p_beta (l_par lv)). set (q := lq done). set (s2 := l_s2 ys lv).
  rewrite (rsum_ext q _ (fun b => s2 * (rsum q (fun a => g a * M a b) * g b) + dot q g be * (g b * be b))).
  - rewrite rsum_plus, !rsum_scal_l. fold (dot q g be). ring.
  - intros b Hb. rewrite (rsum_ext q _ (fun a => s2 * (g a * M a b) + (g a * be a) * be b)) by (intros; ring). rewrite rsum_plus, rsum_scal_l, rsum_scal_r. fold (dot q g be). ring.
Qed.
Lemma sr_nonneg x : 0 <= sigma2_rho nx po rho inv (y_scale all) lv x.
Proof.
  rewrite sr_eq. apply Rplus_le_le_0_compat; [apply pow2_ge_0|]. apply Rmult_le_pos; [apply ls2_nonneg|]. rewrite (sub_form N (lq done) M) by lia. apply (inv_form (mm N (tr (p_G (l_par lv))) (p_G (l_par lv))) M); [exact GG_pd|exact M_inv].
Qed.
(** M is the inverse of F' R^-1 F *)
Lemma M_info : info_inverse (d_nt d) N Rm (lF done d) M.
Proof.
  pose proof (fo_C _ _ _ _ _ _ O) as FC. pose proof (corr_matrix_sym (d_k d) nx (d_nt d) Z nugget (d_noise d)) as Sy. fold Rm in Sy. set (n := d_nt d) in *. set (C := p_C (l_par lv)) in *. set (Ft := p_Ft (l_par lv)).
  set (A := fun a j => bsub n (tr C) (fun i => Ft i j) n a).
  assert (EA : forall i j, (i < n)%nat -> mv n (tr C) (fun a => A a j) i = Ft i j) by (intros; apply (bsub_solves n (tr C) (fun i => Ft i j)); [apply (chol_upper_tr _ _ _ FC)|apply (chol_diag_tr _ _ _ FC)|assumption]).
  assert (EF : forall i j, (i < n)%nat -> mv n C (fun a => Ft a j) i = lF done d i j) by (intros; apply (fo_Ft _ _ _ _ _ _ O); assumption).
  exists A. split.
  - intros i j Hi Hj. change (mv n Rm (fun a => A a j) i = lF done d i j). rewrite <- (chol_mv n Rm C _ Sy FC i Hi).
    rewrite (mv_ext n C C _ (fun a => Ft a j) i) by (first [reflexivity|intros; apply EA; assumption]). apply EF. exact Hi.
  - assert (E : forall a b, (a < N)%nat -> (b < N)%nat -> rsum n (fun i => lF done d i a * A i b) = mm N (tr (p_G (l_par lv))) (p_G (l_par lv)) a b).
    { intros a b Ha Hb. transitivity (dot n (fun i => Ft i a) (fun i => Ft i b)).
      - transitivity (dot n (mv n C (fun i => Ft i a)) (fun i => A i b)); [unfold dot; apply rsum_ext; intros i Hi; rewrite EF by exact Hi; reflexivity|].
        rewrite dot_mv_tr. apply dot_ext; [reflexivity|]. intros i Hi. apply EA. exact Hi.
      - set (e := fun j k : nat => if Nat.eqb k j then 1 else 0).
        assert (Ee : forall (B : mat) i j, (j < N)%nat -> mv N B (e j) i = B i j). { intros B i j Hj. unfold mv, e. rewrite (rsum_ext N _ (fun k => if Nat.eqb k j then B i k else 0)); [apply (rsum_single N (B i) j Hj)|]. intros k _. destruct (Nat.eqb k j); ring. }
        transitivity (dot n (mv N Ft (e a)) (mv N Ft (e b))); [apply dot_ext; intros; rewrite Ee by assumption; reflexivity|].
        rewrite (Ft_form n N Rm (lF done d) (lv_y all d) (l_par lv) O). unfold dot, mm, tr. apply rsum_ext. intros k Hk. rewrite !Ee by assumption. reflexivity. }
    intros i j Hi Hj. destruct (M_inv i j Hi Hj) as [I1 I2]. split; [rewrite <- I1|rewrite <- I2]; apply rsum_ext; intros k Hk; rewrite E by assumption; reflexivity.
Qed.
Lemma gls_ok : gls_opt (d_nt d) N Rm (lF done d) (lv_y all d) (p_beta (l_par lv)) (dot (d_nt d) (rho_of (d_nt d) N (lv_y all d) (l_par lv)) (rho_of (d_nt d) N (lv_y all d) (l_par lv))).
Proof.
  pose proof (corr_matrix_sym (d_k d) nx (d_nt d) Z nugget (d_noise d)) as Sy. fold Rm in Sy. split.
  - exists (p_gamma (l_par lv)). split; [intros; apply (R_gamma _ _ Rm (lF done d) (lv_y all d) (l_par lv) Sy O); assumption|]. symmetry. apply (gamma_rho _ _ Rm (lF done d) (lv_y all d) (l_par lv) Sy O).
  - intros b v'. apply (gls_min _ _ Rm (lF done d) (lv_y all d) (l_par lv) Sy O).
Qed.
(** ** variance of the level *)
Hypotheses (Ko : k_ok (d_k d) nx) (Nn : forall i, (i < d_nt d)%nat -> 0 <= nugget + d_noise d i).
Lemma first_eq x : lq done = 0%nat -> first_mse nx po (y_scale all) lv x = l_s2 (y_scale all) lv * mse (d_nt d) Rm (gr nx (d_k d) Z x) (wstar (d_nt d) N (l_par lv) (gr nx (d_k d) Z x) (fvec po nx x)).
Proof.
  intros E. unfold first_mse. rewrite q_eq, nt_eq, rt_eq', u_eq'. f_equal. apply (g_mse nx (d_nt d) N (d_k d) Z nugget (d_noise d) (lF done d) (lv_y all d) (l_par lv) O).
Qed.
Lemma next_eq mu v x : next_mse nx po rho inv false (y_scale all) mu v lv x = sigma2_rho nx po rho inv (y_scale all) lv x * v
  + l_s2 (y_scale all) lv * mse (d_nt d) Rm (gr nx (d_k d) Z x) (wstar (d_nt d) N (l_par lv) (gr nx (d_k d) Z x) (basis nx po rho (Some mu) x)).
Proof.
  unfold next_mse. cbv zeta. rewrite q_eq, nt_eq, rt_eq', u_eq'. f_equal. f_equal. apply (g_mse nx (d_nt d) N (d_k d) Z nugget (d_noise d) (lF done d) (lv_y all d) (l_par lv) O).
Qed.
(** what the PLS variant computes: the process term is halved *)
Lemma next_pls_eq mu v x : let u := gu nx (d_nt d) N (d_k d) Z (l_par lv) (basis nx po rho (Some mu) x) x in let rt := grt nx (d_nt d) (d_k d) Z (l_par lv) x in
  next_mse nx po rho inv true (y_scale all) mu v lv x = sigma2_rho nx po rho inv (y_scale all) lv x * v
  + l_s2 (y_scale all) lv / 2 * (1 - dot (d_nt d) rt rt) + l_s2 (y_scale all) lv * dot N u u.
Proof.
  cbv zeta. unfold next_mse. cbv zeta. rewrite q_eq, nt_eq, rt_eq', u_eq'. f_equal. f_equal. f_equal.
  assert (E : l_yn lv = lv_y all d) by (rewrite (lk_lv _ _ _ K); reflexivity). rewrite E, <- (lk_Ft _ _ _ K). unfold l_s2. rewrite (lk_s2 _ _ _ K). unfold rho_of, solve_triangular. pose proof dof_pos as D. pose proof ys_nz as Y. set (a := dot _ _ _). field. split; [lra|exact Y].
Qed.
Lemma next_nonneg pls mu v x : 0 <= v -> 0 <= next_mse nx po rho inv pls (y_scale all) mu v lv x.
Proof.
  intros Hv. pose proof (sr_nonneg x) as P1. pose proof ls2_nonneg as P2. pose proof (g_rt_bound nx (d_nt d) N (d_k d) Z nugget (d_noise d) (lF done d) (lv_y all d) (l_par lv) O Ko Nn x) as P3.
  destruct pls.
  - rewrite next_pls_eq. cbv zeta. apply Rplus_le_le_0_compat; [apply Rplus_le_le_0_compat|]; apply Rmult_le_pos; try assumption; try lra. apply dot_self_nonneg.
  - rewrite next_eq. apply Rplus_le_le_0_compat; apply Rmult_le_pos; try assumption. apply (g_mse_nonneg nx (d_nt d) (d_k d) Z nugget (d_noise d) Ko Nn).
Qed.
Lemma first_nonneg x : lq done = 0%nat -> 0 <= first_mse nx po (y_scale all) lv x.
Proof. intros E. rewrite first_eq by exact E. apply Rmult_le_pos; [apply ls2_nonneg|]. apply (g_mse_nonneg nx (d_nt d) (d_k d) Z nugget (d_noise d) Ko Nn). Qed.
End L.
End Tr.
End M.
