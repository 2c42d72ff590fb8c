(** The contracts used in C104 are met by the routines of Krg_Qr.v. *)
From Coq Require Import Reals Arith Bool List Lia Lra.
From Verif Require Import RSum Mat Tri_M Tri_P Kernels_M Krg_M Krg_S Krg_P Krg_P2 Krg_P3 Krg_Qr Het_S Het_P4 Order_S Order_P1 Order_P2 Order_P3 Order_P4.
Import ListNotations.
Open Scope list_scope.
Open Scope R_scope.
Lemma gram_nz p G G' : (forall i j, (i < p)%nat -> (j < i)%nat -> G i j = 0) -> (forall i j, (i < p)%nat -> (j < i)%nat -> G' i j = 0) ->
  (forall i j, (i < p)%nat -> (j < p)%nat -> rsum p (fun k => G k i * G k j) = rsum p (fun k => G' k i * G' k j)) -> rprod p (fun i => G i i) <> 0 -> rprod p (fun i => G' i i) <> 0.
Proof.
  intros U U' E N. apply rprod_nz. apply (upper_diagnz p G' U'). intros x Hx. apply (upper_inj p G U (proj2 (rprod_nz p (fun i => G i i)) N)). apply dot_self_zero.
  assert (FF : forall H : mat, dot p (mv p H x) (mv p H x) = rsum p (fun a => rsum p (fun c => x a * x c * rsum p (fun k => H k a * H k c)))).
  { intros H. unfold dot, mv. rewrite (rsum_ext p _ (fun k => rsum p (fun a => rsum p (fun c => x a * x c * (H k a * H k c))))).
    - rewrite rsum_swap. apply rsum_ext. intros a Ha. rewrite rsum_swap. apply rsum_ext. intros c Hc. rewrite rsum_scal_l. reflexivity.
    - intros k Hk. rewrite <- rsum_scal_r. apply rsum_ext. intros a Ha. rewrite <- rsum_scal_l. apply rsum_ext. intros c Hc. ring. }
  rewrite FF. rewrite (rsum_ext p _ (fun a => rsum p (fun c => x a * x c * rsum p (fun k => G' k a * G' k c)))) by (intros a Ha; apply rsum_ext; intros c Hc; rewrite E by assumption; reflexivity).
  rewrite <- FF. apply dot_zero_r. exact Hx.
Qed.
Lemma rcond01_gram : rcond_gram rcond01.
Proof.
  intros p G G' U U' E. unfold rcond01. destruct (Req_EM_T (rprod p (fun i => G i i)) 0) as [Z|N]; destruct (Req_EM_T (rprod p (fun i => G' i i)) 0) as [Z'|N']; try reflexivity; exfalso.
  - apply (gram_nz p G' G U' U (fun i j Hi Hj => eq_sym (E i j Hi Hj)) N'). exact Z.
  - apply (gram_nz p G G' U U' E N). exact Z'.
Qed.
Lemma cond0_rows : cond_rows cond0.
Proof. intros n p F F' f _ _. reflexivity. Qed.
Lemma t_order qr rcond condF nx nt po s nugget noise X y f m : qr_contract qr -> rcond_contract rcond -> rcond_gram rcond -> cond_rows condF -> reorder nt f ->
  krg_train qr rcond condF nx nt po s nugget noise X y = Some m ->
  exists m', krg_train qr rcond condF nx nt po s nugget (fun i => noise (f i)) (fun i => X (f i)) (fun i => y (f i)) = Some m' /\
    p_sigma2 (m_par m') = p_sigma2 (m_par m) /\
    forall x, predict_value m' x = predict_value m x /\ predict_variance m' x = predict_variance m x /\
      forall kx, predict_derivative m' x kx = predict_derivative m x kx /\ predict_variance_derivative m' x kx = predict_variance_derivative m x kx.
Proof.
  intros HQ HR HG HC RO E. destruct (k_trains nx nt po s nugget noise X y f RO qr rcond condF HQ HR HG HC m E) as (m' & E'). exists m'. split; [exact E'|].
  pose proof (train_inv _ _ _ _ _ _ _ _ _ _ _ _ HQ HR E) as T. pose proof (train_inv _ _ _ _ _ _ _ _ _ _ _ _ HQ HR E') as T'.
  split; [exact (k_s2 nx nt po s nugget noise X y f RO m m' T T')|]. intros x.
  split; [exact (k_value nx nt po s nugget noise X y f RO m m' T T' x)|]. split; [exact (k_variance nx nt po s nugget noise X y f RO m m' T T' x)|].
  intros kx. split; [exact (k_deriv nx nt po s nugget noise X y f RO m m' T T' x kx)|exact (k_vderiv nx nt po s nugget noise X y f RO m m' T T' x kx)].
Qed.
