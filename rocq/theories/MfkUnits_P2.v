(** One level trained on reordered data in other units gives the same level. *)
From Coq Require Import Reals Arith Bool List Lia Lra.
From Verif Require Import RSum Mat Tri_M Tri_P Kernels_M Krg_M Krg_S Krg_P Krg_P2 Krg_P3 Krg_P4 Krg_P5 Het_S Het_P4 Order_S Order_P1 Order_P2 Order_P3 Mfk_M Mfk_S Mfk_P Mfk_P2 Rmtc_S MfkUnits_S MfkUnits_P.
Import ListNotations.
Open Scope list_scope.
Open Scope R_scope.
Lemma inv_uniq n (A A' B B' : mat) : (forall i j, (i < n)%nat -> (j < n)%nat -> A i j = A' i j) -> is_inverse n A B -> is_inverse n A' B' -> forall i j, (i < n)%nat -> (j < n)%nat -> B i j = B' i j.
Proof.
  intros E I I' i j Hi Hj.
  transitivity (rsum n (fun k => rsum n (fun l => B' i l * A l k) * B k j)).
  - rewrite (rsum_ext n _ (fun k => if Nat.eqb k i then B k j else 0)); [symmetry; apply (rsum_single n (fun k => B k j) i Hi)|].
    intros k Hk. rewrite (rsum_ext n _ (fun l => B' i l * A' l k)) by (intros l Hl; rewrite E by assumption; reflexivity). destruct (I' i k Hi Hk) as [_ ->]. rewrite (Nat.eqb_sym k i). destruct (Nat.eqb i k); ring.
  - rewrite (rsum_ext n _ (fun k => rsum n (fun l => B' i l * (A l k * B k j)))) by (intros k Hk; rewrite <- rsum_scal_r; apply rsum_ext; intros; ring). rewrite rsum_swap.
    rewrite (rsum_ext n _ (fun l => if Nat.eqb l j then B' i l else 0)); [apply (rsum_single n (fun l => B' i l) j Hj)|].
    intros l Hl. rewrite rsum_scal_l. destruct (I l j Hl Hj) as [-> _]. destruct (Nat.eqb l j); ring.
Qed.
Lemma mse_reorder n f Rm Rm' r r' w : reorder n f -> (forall i j, (i < n)%nat -> (j < n)%nat -> Rm' i j = Rm (f i) (f j)) -> (forall i, (i < n)%nat -> r' i = r (f i)) -> mse n Rm' r' (fun i => w (f i)) = mse n Rm r w.
Proof.
  intros RO HA Hr. unfold mse. f_equal. f_equal.
  - unfold dot. rewrite (rsum_ext n _ (fun i => (fun i => w i * mv n Rm w i) (f i))); [apply (rsum_reorder n f (fun i => w i * mv n Rm w i) RO)|]. intros i Hi. rewrite (two_mv n f Rm Rm' RO HA w i Hi). reflexivity.
  - f_equal. unfold dot. rewrite (rsum_ext n _ (fun i => (fun i => w i * r i) (f i))); [apply (rsum_reorder n f (fun i => w i * r i) RO)|]. intros i Hi. rewrite Hr by exact Hi. reflexivity.
Qed.
Lemma unb_reorder n p f F F' u u' w : reorder n f -> (forall i j, (i < n)%nat -> (j < p)%nat -> F' i j = F (f i) j) -> (forall j, (j < p)%nat -> u' j = u j) -> unbiased n p F' u' (fun i => w (f i)) <-> unbiased n p F u w.
Proof.
  intros RO HF Hu. assert (E : forall j, (j < p)%nat -> rsum n (fun i => F' i j * w (f i)) = rsum n (fun i => F i j * w i)).
  { intros j Hj. rewrite (rsum_ext n _ (fun i => (fun i => F i j * w i) (f i))); [apply (rsum_reorder n f (fun i => F i j * w i) RO)|]. intros i Hi. rewrite HF by assumption. reflexivity. }
  unfold unbiased. split; intros H j Hj; [rewrite <- (E j Hj), (H j Hj); apply Hu; exact Hj|rewrite (E j Hj), (H j Hj); symmetry; apply Hu; exact Hj].
Qed.
Lemma unb_pt n p F u w w' : (forall i, (i < n)%nat -> w i = w' i) -> unbiased n p F u w -> unbiased n p F u w'.
Proof. intros E H j Hj. rewrite <- (H j Hj). apply rsum_ext. intros i Hi. rewrite E by exact Hi. reflexivity. Qed.
Lemma mse_pt n Rm r w w' : (forall i, (i < n)%nat -> w i = w' i) -> mse n Rm r w = mse n Rm r w'.
Proof. intros E. unfold mse. rewrite (dot_ext n w r w' r E (fun _ _ => eq_refl)). rewrite (dot_ext n w (mv n Rm w) w' (mv n Rm w') E); [reflexivity|]. intros i Hi. apply mv_ext; [reflexivity|exact E]. Qed.
Lemma blup_reorder n p f Rm Rm' F F' r r' u u' w : reorder n f -> (forall i j, (i < n)%nat -> (j < n)%nat -> Rm' i j = Rm (f i) (f j)) -> (forall i j, (i < n)%nat -> (j < p)%nat -> F' i j = F (f i) j) ->
  (forall i, (i < n)%nat -> r' i = r (f i)) -> (forall j, (j < p)%nat -> u' j = u j) -> blup n p Rm F r u w -> blup n p Rm' F' r' u' (fun i => w (f i)).
Proof.
  intros RO HA HF Hr Hu [U M]. split; [apply (unb_reorder n p f F F' u u' w RO HF Hu); exact U|]. intros w' U'. destruct (reorder_inv n f RO) as (g & RG & FG & GF).
  rewrite (mse_reorder n f Rm Rm' r r' w RO HA Hr).
  assert (E : forall i, (i < n)%nat -> w' i = (fun i => (fun k => w' (g k)) (f i)) i) by (intros i Hi; cbn beta; rewrite GF by exact Hi; reflexivity).
  rewrite (mse_pt n Rm' r' w' _ E), (mse_reorder n f Rm Rm' r r' (fun k => w' (g k)) RO HA Hr). apply M. apply (unb_reorder n p f F F' u u' (fun k => w' (g k)) RO HF Hu). exact (unb_pt n p F' u' w' _ E U').
Qed.
(** equal levels, up to the order of their points; [ys], [ys']: the two output scales *)
Section Eq.
Variables (nx : nat) (po rho : poly) (ys ys' : R).
Definition agree (x x' : vec) : Prop := forall c, (c < nx)%nat -> x' c = x c.
Record lv_eq (lv lv' : level) : Prop := {
  le_mean : forall prev x x', agree x x' -> level_mean nx po rho prev lv' x' = level_mean nx po rho prev lv x;
  le_deriv : forall dp x x' kx, agree x x' -> (kx < nx)%nat -> level_deriv nx po rho dp lv' x' kx = level_deriv nx po rho dp lv x kx;
  le_first : forall x x', agree x x' -> first_mse nx po ys' lv' x' = first_mse nx po ys lv x;
  le_next : forall inv pls mu v x x', inv_contract inv -> agree x x' -> next_mse nx po rho inv pls ys' mu v lv' x' = next_mse nx po rho inv pls ys mu v lv x }.
Lemma means_eq l l' x x' : List.Forall2 lv_eq l l' -> agree x x' -> forall prev, means nx po rho prev l' x' = means nx po rho prev l x.
Proof. intros H Ax. induction H as [|v v' l l' E _ IH]; intros prev; [reflexivity|]. cbn [means]. rewrite (le_mean _ _ E prev x x' Ax), IH. reflexivity. Qed.
Lemma last_eq l l' x x' : List.Forall2 lv_eq l l' -> agree x x' -> last_mean nx po rho l' x' = last_mean nx po rho l x.
Proof. intros H Ax. unfold last_mean. rewrite (means_eq l l' x x' H Ax). reflexivity. Qed.
Lemma derivs_eq l l' x x' kx : List.Forall2 lv_eq l l' -> agree x x' -> (kx < nx)%nat -> forall dp, derivs nx po rho dp l' x' kx = derivs nx po rho dp l x kx.
Proof. intros H Ax Hk. induction H as [|v v' l l' E _ IH]; intros prev; [reflexivity|]. cbn [derivs]. rewrite (le_deriv _ _ E prev x x' kx Ax Hk), IH. reflexivity. Qed.
Lemma nexts_eq inv pls l l' x x' : inv_contract inv -> List.Forall2 lv_eq l l' -> agree x x' -> forall mu v, next_mses nx po rho inv pls ys' mu v l' x' = next_mses nx po rho inv pls ys mu v l x.
Proof. intros HI H Ax. induction H as [|v v' l l' E _ IH]; intros mu w; [reflexivity|]. cbn [next_mses]. rewrite (le_next _ _ E inv pls mu w x x' HI Ax), IH. reflexivity. Qed.
Lemma mses_eq inv pls l l' x x' : inv_contract inv -> List.Forall2 lv_eq l l' -> agree x x' -> mses nx po rho inv pls ys' l' x' = mses nx po rho inv pls ys l x.
Proof.
  intros HI H Ax. destruct H as [|v v' l l' E H]; [reflexivity|]. cbn [mses]. rewrite (le_first _ _ E x x' Ax), (le_mean _ _ E None x x' Ax), (nexts_eq inv pls l l' x x' HI H Ax). reflexivity.
Qed.
Lemma basis_eq prev x x' j : agree x x' -> basis nx po rho prev x' j = basis nx po rho prev x j.
Proof. intros Ax. unfold basis. destruct prev as [mu|]; [destruct (Nat.ltb j (nq nx rho)); [f_equal|]|]; apply fvec_ext; exact Ax. Qed.
End Eq.
Section Step.
Variables (nx : nat) (po rho : poly) (qr : nat -> nat -> mat -> mat * mat) (rcond : nat -> mat -> R) (condF : nat -> nat -> mat -> R) (nugget : R).
Hypotheses (HQ : qr_contract qr) (HR : rcond_contract rcond) (HG : rcond_gram rcond) (HC : cond_rows condF).
Variables (A B : vec) (a b : R) (all all' : list data).
Hypotheses (HA : forall c, (c < nx)%nat -> 0 < A c) (Ha : 0 < a) (D : same_data nx A B a b all all').
Hypotheses (VX : forall c, (c < nx)%nat -> varies all (fun d i => d_X d i c)) (VY : varies all d_y).
Notation ys := (y_scale all).
Notation ys' := (y_scale all').
Variables (done done' : list level) (d d' : data) (f : nat -> nat).
Hypotheses (HD : List.Forall2 (lv_eq nx po rho ys ys') done done') (En : d_nt d' = d_nt d) (Ek : d_k d' = d_k d) (RO : reorder (d_nt d) f).
Hypothesis Hd : forall i, (i < d_nt d)%nat -> (forall c, (c < nx)%nat -> d_X d' i c = A c * d_X d (f i) c + B c) /\ d_y d' i = a * d_y d (f i) + b /\ d_noise d' i = d_noise d (f i).
Let n := d_nt d.
Let Z := fun i => stdx all (d_X d i).
Let Z' := fun i => stdx all' (d_X d' i).
Lemma Zeq i : (i < n)%nat -> agree nx (Z (f i)) (Z' i).
Proof. intros Hi c Hc. unfold Z, Z'. apply (std_query nx A B a b all all' HA D VX (d_X d (f i)) (d_X d' i) c Hc). apply (Hd i Hi). exact Hc. Qed.
Lemma qeq : lq nx rho done' = lq nx rho done.
Proof. destruct HD; reflexivity. Qed.
Let N := (lq nx rho done + np nx po)%nat.
Lemma Feq i j : (i < n)%nat -> lF nx po rho all' done' d' i j = lF nx po rho all done d (f i) j.
Proof.
  intros Hi. unfold lF. rewrite (last_eq nx po rho ys ys' done done' (Z (f i)) (stdx all' (d_X d' i)) HD (Zeq i Hi)). apply (basis_eq nx po rho _ (Z (f i)) (stdx all' (d_X d' i)) j (Zeq i Hi)).
Qed.
Let Rm := corr_matrix (d_k d) nx n Z nugget (d_noise d).
Let Rm' := corr_matrix (d_k d) nx n Z' nugget (d_noise d').
Lemma Req i j : (i < n)%nat -> (j < n)%nat -> Rm' i j = Rm (f i) (f j).
Proof.
  intros Hi Hj. unfold Rm, Rm'. rewrite !corr_matrix_spec by (try apply RO; assumption). destruct (Nat.eqb_spec i j) as [-> | Ne].
  - rewrite Nat.eqb_refl. rewrite (proj2 (proj2 (Hd j Hj))). reflexivity.
  - destruct (Nat.eqb_spec (f i) (f j)) as [E|_]; [exfalso; apply Ne; apply RO; assumption|]. apply kd_ext. intros c Hc. rewrite (Zeq i Hi c Hc), (Zeq j Hj c Hc). reflexivity.
Qed.
Lemma Yeq i : (i < n)%nat -> lv_y all' d' i = lv_y all d (f i).
Proof. intros Hi. apply (std_y nx A B a b all all' Ha D VY d d' f i Hd Hi). Qed.
Lemma step_trains lv : train_level nx po rho qr rcond condF nugget all done d = Some lv -> exists lv', train_level nx po rho qr rcond condF nugget all' done' d' = Some lv'.
Proof.
  unfold train_level. cbv zeta. change (match done with [] => 0%nat | _ :: _ => nq nx rho end) with (lq nx rho done). change (match done' with [] => 0%nat | _ :: _ => nq nx rho end) with (lq nx rho done'). rewrite qeq, En, Ek. fold n N.
  destruct (Nat.leb_spec n (np nx po + lq nx rho done)) as [|Hp]; [discriminate|].
  change (fun i j => basis nx po rho (last_mean nx po rho done (stdx all (d_X d i))) (stdx all (d_X d i)) j) with (lF nx po rho all done d).
  change (fun i j => basis nx po rho (last_mean nx po rho done' (stdx all' (d_X d' i))) (stdx all' (d_X d' i)) j) with (lF nx po rho all' done' d').
  change (fun i => (d_y d i - y_off all) / ys) with (lv_y all d). change (fun i => (d_y d' i - y_off all') / ys') with (lv_y all' d').
  fold Z Z'. fold Rm Rm'. set (dof := INR n - INR (np nx po) - INR (lq nx rho done)). intros E.
  pose proof (outcome qr rcond condF HQ HR HG HC n N f dof ys Rm (lF nx po rho all done d) Rm' (lF nx po rho all' done' d') (lv_y all d) (lv_y all' d') ltac:(unfold N; lia) RO (corr_matrix_sym _ _ _ _ _ _) Req (fun i j Hi _ => Feq i j Hi) Yeq) as SO.
  pose proof (rl_ext qr rcond condF n N dof Rm' Rm' (lF nx po rho all' done' d') (lF nx po rho all' done' d') (lv_y all' d') (lv_y all' d') ys ys' (scale1_nz _ _) (fun _ _ _ _ => eq_refl) (fun _ _ _ => eq_refl) (fun _ _ => eq_refl) eq_refl) as SX.
  destruct (reduced_likelihood qr rcond condF n N dof Rm _ _ ys); try discriminate. destruct (reduced_likelihood qr rcond condF n N dof Rm' _ _ ys); try contradiction. cbn [map_fit] in SX.
  rewrite SX. eexists. reflexivity.
Qed.
Section Both.
Variables (lv lv' : level).
Hypotheses (K : lvl_ok nx po rho nugget all done d lv) (K' : lvl_ok nx po rho nugget all' done' d' lv').
Let O : fit_ok n N Rm (lF nx po rho all done d) (lv_y all d) (l_par lv) := lk_fit _ _ _ _ _ _ _ _ K.
Let O' : fit_ok n N Rm' (lF nx po rho all' done' d') (lv_y all' d') (l_par lv').
Proof. pose proof (lk_fit _ _ _ _ _ _ _ _ K') as H. rewrite qeq, En, Ek in H. exact H. Qed.
Let Sy : msym n Rm := corr_matrix_sym (d_k d) nx n Z nugget (d_noise d).
Let HF : forall i j, (i < n)%nat -> (j < N)%nat -> lF nx po rho all' done' d' i j = lF nx po rho all done d (f i) j := fun i j Hi _ => Feq i j Hi.
Lemma beq j : (j < N)%nat -> p_beta (l_par lv') j = p_beta (l_par lv) j.
Proof. exact (f_beta n N f _ _ _ _ _ _ _ _ RO Sy Req HF Yeq O O' j). Qed.
Lemma geq i : (i < n)%nat -> p_gamma (l_par lv') i = p_gamma (l_par lv) (f i).
Proof. exact (f_gamma n N f _ _ _ _ _ _ _ _ RO Sy Req HF Yeq O O' i). Qed.
Lemma s2eq : l_s2 ys' lv' = l_s2 ys lv.
Proof.
  unfold l_s2. rewrite (lk_s2 _ _ _ _ _ _ _ _ K), (lk_s2 _ _ _ _ _ _ _ _ K'). rewrite qeq, En. fold n N. rewrite (f_rho n N f _ _ _ _ _ _ _ _ RO Sy Req HF Yeq O O').
  assert (ys <> 0) by apply scale1_nz. assert (ys' <> 0) by apply scale1_nz. pose proof (dof_pos nx po rho nugget all done d lv K) as P. fold n in P. set (q := dot n _ _). field. repeat split; try assumption; lra.
Qed.
Lemma req x x' i : agree nx x x' -> (i < n)%nat -> gr nx (d_k d) Z' x' i = gr nx (d_k d) Z x (f i).
Proof. intros Ax Hi. unfold gr, kf. apply kd_ext. intros c Hc. rewrite (Ax c Hc), (Zeq i Hi c Hc). reflexivity. Qed.
Lemma mean_lv prev x x' : agree nx x x' -> level_mean nx po rho prev lv' x' = level_mean nx po rho prev lv x.
Proof.
  intros Ax. rewrite (mean_eq nx po rho nugget all done d lv K), (mean_eq nx po rho nugget all' done' d' lv' K'). rewrite qeq, En, Ek. fold n N. change (fun i => stdx all (d_X d i)) with Z. change (fun i => stdx all' (d_X d' i)) with Z'. f_equal.
  - apply dot_ext; [intros j Hj; apply (basis_eq nx po rho prev x x' j Ax)|exact beq].
  - unfold dot. rewrite (rsum_ext n _ (fun i => (fun i => gr nx (d_k d) Z x i * p_gamma (l_par lv) i) (f i))); [apply (rsum_reorder n f (fun i => gr nx (d_k d) Z x i * p_gamma (l_par lv) i) RO)|].
    intros i Hi. rewrite (req x x' i Ax Hi), geq by exact Hi. reflexivity.
Qed.
Lemma lvs : l_nt lv = n /\ l_q lv = lq nx rho done /\ l_k lv = d_k d /\ l_Xn lv = Z.
Proof. rewrite (lk_lv _ _ _ _ _ _ _ _ K). cbn. repeat split. Qed.
Lemma lvs' : l_nt lv' = n /\ l_q lv' = lq nx rho done /\ l_k lv' = d_k d /\ l_Xn lv' = Z'.
Proof. rewrite (lk_lv _ _ _ _ _ _ _ _ K'). cbn [l_nt l_q l_k l_Xn]. rewrite qeq, En, Ek. repeat split. Qed.
Lemma deriv_lv dp x x' kx : agree nx x x' -> (kx < nx)%nat -> level_deriv nx po rho dp lv' x' kx = level_deriv nx po rho dp lv x kx.
Proof.
  intros Ax Hk. unfold level_deriv, lr. destruct lvs as (-> & -> & -> & ->). destruct lvs' as (-> & -> & -> & ->). fold N. f_equal; [|f_equal].
  - apply dot_ext; [|exact beq]. intros j Hj. unfold dbasis. destruct dp; [|reflexivity]. destruct (Nat.ltb j (nq nx rho)); [|reflexivity]. f_equal. apply fvec_ext. exact Ax.
  - unfold dot. rewrite (rsum_ext n _ (fun i => (fun i => (x kx - Z i kx) * kf (d_k d) nx x (Z i) * p_gamma (l_par lv) i) (f i))); [apply (rsum_reorder n f (fun i => (x kx - Z i kx) * kf (d_k d) nx x (Z i) * p_gamma (l_par lv) i) RO)|].
    intros i Hi. pose proof (req x x' i Ax Hi) as E. unfold gr in E. rewrite E, geq, (Ax kx Hk), (Zeq i Hi kx Hk) by exact Hi. reflexivity.
Qed.
Lemma rtrt x x' : agree nx x x' -> dot n (grt nx n (d_k d) Z' (l_par lv') x') (grt nx n (d_k d) Z' (l_par lv') x') = dot n (grt nx n (d_k d) Z (l_par lv) x) (grt nx n (d_k d) Z (l_par lv) x).
Proof. intros Ax. unfold grt. apply (two_dot n f Rm Rm' _ _ RO Sy Req (fo_C _ _ _ _ _ _ O) (fo_C _ _ _ _ _ _ O')); intros i Hi; apply req; assumption. Qed.
Lemma mse_lv u u' x x' : agree nx x x' -> (forall j, (j < N)%nat -> u' j = u j) ->
  1 - dot n (grt nx n (d_k d) Z' (l_par lv') x') (grt nx n (d_k d) Z' (l_par lv') x') + dot N (gu nx n N (d_k d) Z' (l_par lv') u' x') (gu nx n N (d_k d) Z' (l_par lv') u' x')
  = 1 - dot n (grt nx n (d_k d) Z (l_par lv) x) (grt nx n (d_k d) Z (l_par lv) x) + dot N (gu nx n N (d_k d) Z (l_par lv) u x) (gu nx n N (d_k d) Z (l_par lv) u x).
Proof.
  intros Ax Hu. pose proof (w_blup n N Rm _ _ (l_par lv) Sy O (gr nx (d_k d) Z x) u) as W. set (w := wstar n N (l_par lv) (gr nx (d_k d) Z x) u) in W.
  rewrite (g_blup_mse nx n N (d_k d) Z nugget (d_noise d) _ _ (l_par lv) O u x w W).
  rewrite (g_blup_mse nx n N (d_k d) Z' nugget (d_noise d') _ _ (l_par lv') O' u' x' (fun i => w (f i))).
  - apply mse_reorder; [exact RO|exact Req|]. intros i Hi. apply req; assumption.
  - apply (blup_reorder n N f Rm Rm' (lF nx po rho all done d) _ (gr nx (d_k d) Z x) _ u u' w RO Req HF); [intros i Hi; apply req; assumption|exact Hu|exact W].
Qed.
Lemma sr_lv inv x x' : inv_contract inv -> agree nx x x' -> sigma2_rho nx po rho inv ys' lv' x' = sigma2_rho nx po rho inv ys lv x.
Proof.
  intros HI Ax. rewrite (sr_eq nx po rho nugget all done d lv K inv ys x), (sr_eq nx po rho nugget all' done' d' lv' K' inv ys' x'). rewrite qeq, s2eq. fold N.
  assert (EF : forall j, fvec rho nx x' j = fvec rho nx x j) by (intros j; apply fvec_ext; exact Ax). f_equal.
  - f_equal. apply dot_ext; intros j Hj; [apply EF|apply beq; unfold N; lia].
  - f_equal. apply rsum_ext. intros k Hk. rewrite EF. f_equal. apply rsum_ext. intros j Hj. rewrite EF. f_equal.
    apply (inv_uniq N (mm N (tr (p_G (l_par lv'))) (p_G (l_par lv'))) (mm N (tr (p_G (l_par lv))) (p_G (l_par lv)))); [| | |unfold N; lia|unfold N; lia].
    + intros i l Hi Hl. unfold mm, tr. symmetry. exact (f_gram n N f _ _ _ _ _ _ _ _ RO Sy Req HF O O' i l Hi Hl).
    + pose proof (M_inv nx po rho nugget all' done' d' lv' K' inv HI) as H. rewrite qeq in H. exact H.
    + exact (M_inv nx po rho nugget all done d lv K inv HI).
Qed.
Lemma eq_lv : lv_eq nx po rho ys ys' lv lv'.
Proof.
  destruct lvs as (L1 & L2 & _). destruct lvs' as (L1' & L2' & _).
  assert (RT : forall x, l_rt nx lv x = grt nx n (d_k d) Z (l_par lv) x) by exact (rt_eq' nx po rho nugget all done d lv K).
  assert (RT' : forall x, l_rt nx lv' x = grt nx n (d_k d) Z' (l_par lv') x) by (intros x; rewrite (rt_eq' nx po rho nugget all' done' d' lv' K'), En, Ek; reflexivity).
  assert (U : forall g x, l_u nx po lv g x = gu nx n N (d_k d) Z (l_par lv) g x) by exact (u_eq' nx po rho nugget all done d lv K).
  assert (U' : forall g x, l_u nx po lv' g x = gu nx n N (d_k d) Z' (l_par lv') g x) by (intros g x; rewrite (u_eq' nx po rho nugget all' done' d' lv' K'), En, Ek, qeq; reflexivity).
  split.
  - exact mean_lv.
  - exact deriv_lv.
  - intros x x' Ax. unfold first_mse. rewrite L1, L2, L1', L2', s2eq, RT, RT', U, U'. fold N. f_equal. apply mse_lv; [exact Ax|]. intros j Hj. apply fvec_ext. exact Ax.
  - intros inv pls mu v x x' HI Ax. assert (EU : forall j, (j < N)%nat -> basis nx po rho (Some mu) x' j = basis nx po rho (Some mu) x j) by (intros j Hj; apply (basis_eq nx po rho (Some mu) x x' j Ax)).
    pose proof (mse_lv (basis nx po rho (Some mu) x) (basis nx po rho (Some mu) x') x x' Ax EU) as EM. destruct pls.
    + rewrite (next_pls_eq nx po rho nugget all done d lv K inv mu v x), (next_pls_eq nx po rho nugget all' done' d' lv' K' inv mu v x'). rewrite qeq, En, Ek, s2eq, (sr_lv inv x x' HI Ax). fold n N.
      change (fun i => stdx all (d_X d i)) with Z. change (fun i => stdx all' (d_X d' i)) with Z'. rewrite (rtrt x x' Ax) in EM |- *. f_equal. f_equal. lra.
    + unfold next_mse. cbv zeta. rewrite L1, L2, L1', L2', s2eq, RT, RT', U, U', (sr_lv inv x x' HI Ax). fold N. f_equal. f_equal. exact EM.
Qed.
End Both.
Lemma step lv : train_level nx po rho qr rcond condF nugget all done d = Some lv -> exists lv', train_level nx po rho qr rcond condF nugget all' done' d' = Some lv' /\ lv_eq nx po rho ys ys' lv lv'.
Proof.
  intros E. destruct (step_trains lv E) as (lv' & E'). exists lv'. split; [exact E'|].
  apply eq_lv; [apply (train_level_ok nx po rho qr rcond condF nugget all HQ HR done d lv E)|apply (train_level_ok nx po rho qr rcond condF nugget all' HQ HR done' d' lv' E')].
Qed.
End Step.
