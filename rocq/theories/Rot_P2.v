(** C124: change of coordinates, LS and QP. *)
From Coq Require Import Reals Arith Bool List Lia Lra FunctionalExtensionality.
From Coquelicot Require Import Coquelicot.
From Verif Require Import RSum Mat Poly_M Poly_P Poly_P2 Units_P2 Units_P3 Rot_M Rot_P.
Open Scope R_scope.

Lemma unplace n P Q t x k : invertible_by n P Q -> (k < n)%nat -> rsum n (fun l => P k l * (place n Q t x l - t l)) = x k.
Proof. intros H Hk. rewrite <- (inv_mul n P Q x k H Hk). apply rsum_ext. intros l Hl. unfold place. ring. Qed.

Section LsRot.
Variables (lstsq : nat -> nat -> mat -> vec -> vec) (nx nt : nat) (xt : nat -> vec) (yt t : vec) (P Q : mat).
Hypothesis lstsq_ok : forall (X : mat) (y : vec) k, (k < nx)%nat -> mv nt (tr X) (fun e => mv nx X (lstsq nt nx X y) e - y e) k = 0.
Hypothesis nt_pos : (0 < nt)%nat.
Hypothesis HP : invertible_by nx P Q.
Notation xt' := (fun e => place nx Q t (xt e)).
Let m := ls_fit lstsq nx nt xt yt.
Let m' := ls_fit lstsq nx nt xt' yt.
Definition fwdr : vec * R := (fun k => rsum nx (fun j => fst m j * P j k), snd m - rsum nx (fun k => rsum nx (fun j => fst m j * P j k) * t k)).
Definition bwdr : vec * R := (fun j => rsum nx (fun k => Q k j * fst m' k), snd m' + rsum nx (fun k => t k * fst m' k)).
Lemma fwdr_value x : ls_value nx fwdr (place nx Q t x) = ls_value nx m x.
Proof.
  unfold ls_value, fwdr, dot. cbn [fst snd].
  assert (E : rsum nx (fun k => place nx Q t x k * rsum nx (fun j => fst m j * P j k)) = rsum nx (fun j => x j * fst m j) + rsum nx (fun k => rsum nx (fun j => fst m j * P j k) * t k)).
  { rewrite (rsum_ext nx (fun j => x j * fst m j) (fun j => rsum nx (fun k => fst m j * P j k * (place nx Q t x k - t k)))).
    - rewrite rsum_swap, <- rsum_plus. apply rsum_ext. intros k Hk. rewrite rsum_scal_r. ring.
    - intros j Hj. rewrite <- (unplace nx P Q t x j HP Hj) at 1. rewrite <- rsum_scal_r. apply rsum_ext. intros. ring. }
  rewrite E. ring.
Qed.
Lemma bwdr_value x : ls_value nx bwdr x = ls_value nx m' (place nx Q t x).
Proof.
  unfold ls_value, bwdr, dot. cbn [fst snd].
  rewrite (rsum_ext nx (fun k => place nx Q t x k * fst m' k) (fun k => rsum nx (fun j => x j * (Q k j * fst m' k)) + t k * fst m' k)).
  - rewrite rsum_plus, rsum_swap. rewrite (rsum_ext nx (fun j => x j * rsum nx (fun k => Q k j * fst m' k)) (fun j => rsum nx (fun k => x j * (Q k j * fst m' k)))) by (intros; rewrite rsum_scal_l; reflexivity). ring.
  - intros k Hk. unfold place. rewrite Rmult_plus_distr_r, <- rsum_scal_r. f_equal. apply rsum_ext. intros. ring.
Qed.
Lemma ls_rot_points e : (e < nt)%nat -> ls_value nx m' (place nx Q t (xt e)) = ls_value nx m (xt e).
Proof.
  intros He. rewrite <- fwdr_value.
  pose proof (ls_diff lstsq nx nt xt' yt lstsq_ok nt_pos (snd fwdr) (fst fwdr)) as D || pose proof (ls_diff lstsq nx nt xt' yt lstsq_ok nt_pos (fst fwdr) (snd fwdr)) as D. fold m' in D.
  assert (EF : train_err nt (ls_value nx (fst fwdr, snd fwdr)) xt' yt = train_err nt (ls_value nx m) xt yt).
  { unfold train_err. apply rsum_ext. intros f Hf. rewrite <- surjective_pairing, fwdr_value. reflexivity. }
  assert (LE : train_err nt (ls_value nx m) xt yt <= train_err nt (ls_value nx m') xt' yt).
  { pose proof (ls_optimal lstsq nx nt xt yt lstsq_ok nt_pos (fst bwdr) (snd bwdr)) as O. fold m in O. rewrite <- surjective_pairing in O.
    eapply Rle_trans; [exact O|]. apply Req_le. unfold train_err. apply rsum_ext. intros f Hf. rewrite bwdr_value. reflexivity. }
  rewrite EF in D.
  assert (Z : rsum nt (fun e => (ls_value nx (fst fwdr, snd fwdr) (xt' e) - ls_value nx m' (xt' e)) ^ 2) = 0).
  { pose proof (rsum_nonneg nt (fun e => (ls_value nx (fst fwdr, snd fwdr) (xt' e) - ls_value nx m' (xt' e)) ^ 2) (fun e _ => pow2_ge_0 _)). lra. }
  pose proof (rsum_zero_inv nt _ (fun e _ => pow2_ge_0 _) Z e He) as W. cbn beta in W. rewrite <- surjective_pairing in W. nra.
Qed.
Lemma ls_rot : (forall a' (b' : vec), (forall i, (i < nt)%nat -> a' + rsum nx (fun k => b' k * xt i k) = 0) -> a' = 0 /\ forall k, (k < nx)%nat -> b' k = 0) ->
  forall x, ls_value nx m' (place nx Q t x) = ls_value nx m x /\ forall j, (j < nx)%nat -> rsum nx (fun k => Q k j * ls_derivative m' k (place nx Q t x)) = ls_derivative m j x.
Proof.
  intros F.
  assert (W : forall x, ls_value nx bwdr x - ls_value nx m x = (snd bwdr - snd m) + rsum nx (fun k => (fst bwdr k - fst m k) * x k)).
  { intros z. unfold ls_value, dot. rewrite (rsum_ext nx (fun k => (fst bwdr k - fst m k) * z k) (fun k => z k * fst bwdr k - z k * fst m k)) by (intros; ring).
    rewrite rsum_minus. ring. }
  destruct (F (snd bwdr - snd m) (fun k => fst bwdr k - fst m k)) as [F1 F2].
  { intros e He. rewrite <- W, bwdr_value, (ls_rot_points e He). ring. }
  intros x. split.
  - rewrite <- bwdr_value. apply Rminus_diag_uniq. rewrite W, F1. rewrite rsum_zero; [ring|]. intros k Hk. rewrite (F2 k Hk). ring.
  - intros j Hj. unfold ls_derivative. rewrite Rmult_1_l. rewrite (rsum_ext nx _ (fun k => Q k j * fst m' k)) by (intros; ring). apply Rminus_diag_uniq. exact (F2 j Hj).
Qed.
End LsRot.

Section Class.
Variable dim : nat.
Notation isq := (isq dim).
Lemma isq_sum m (F : nat -> vec -> R) : (forall l, (l < m)%nat -> isq (F l)) -> isq (fun x => rsum m (fun l => F l x)).
Proof. induction m as [|m IH]; intros H; cbn [rsum]; [apply isq_const|]. apply isq_plus; [apply IH; intros; apply H; lia|apply H; lia]. Qed.
Lemma isq_lin (q : vec) b : isq (fun x => rsum dim (fun l => q l * x l) + b).
Proof. apply isq_plus; [|apply isq_const]. apply (isq_sum dim (fun l x => q l * x l)). intros l Hl. apply isq_scal, isq_x. exact Hl. Qed.
Lemma isq_prod (q r : vec) b d : isq (fun x => (rsum dim (fun l => q l * x l) + b) * (rsum dim (fun l => r l * x l) + d)).
Proof.
  apply (isq_ext dim (fun x => rsum dim (fun l => rsum dim (fun m => (q l * r m) * (x l * x m))) + ((rsum dim (fun l => (d * q l) * x l) + b * d) + (rsum dim (fun l => (b * r l) * x l) + 0)))).
  - intros x. rewrite (rsum_ext dim (fun l => d * q l * x l) (fun l => d * (q l * x l))) by (intros; ring). rewrite (rsum_ext dim (fun l => b * r l * x l) (fun l => b * (r l * x l))) by (intros; ring). rewrite !rsum_scal_l.
    rewrite (rsum_ext dim (fun l => rsum dim (fun m => q l * r m * (x l * x m))) (fun l => (q l * x l) * rsum dim (fun m => r m * x m))) by (intros; rewrite <- rsum_scal_l; apply rsum_ext; intros; ring).
    rewrite rsum_scal_r. ring.
  - apply isq_plus; [|apply isq_plus; apply isq_lin]. apply (isq_sum dim (fun l x => rsum dim (fun m => (q l * r m) * (x l * x m)))). intros l Hl.
    apply (isq_sum dim (fun m x => (q l * r m) * (x l * x m))). intros m Hm. apply isq_scal, isq_xx; assumption.
Qed.
Lemma isq_place (Q : mat) (t : vec) c : isq (fun x => qp_value dim c (place dim Q t x)).
Proof.
  unfold qp_value at 1, dot. apply (isq_sum _ (fun a x => qp_row dim (place dim Q t x) a * c a)). intros a Ha.
  apply (isq_ext dim (fun x => c a * qp_row dim (place dim Q t x) a)); [intros; ring|]. apply isq_scal.
  destruct (row_cases dim a Ha) as [-> |[(i & Hi & ->)|[(i & Hi & ->)|(i & j & Hi & Hj & ->)]]].
  - apply (isq_ext dim (fun _ => 1)); [intros; rewrite row_const; reflexivity|apply isq_const].
  - apply (isq_ext dim (fun x => rsum dim (fun l => Q i l * x l) + t i)); [intros; rewrite row_linear by exact Hi; reflexivity|apply isq_lin].
  - apply (isq_ext dim (fun x => (rsum dim (fun l => Q i l * x l) + t i) * (rsum dim (fun l => Q i l * x l) + t i))); [intros; rewrite row_square by exact Hi; unfold place; ring|apply isq_prod].
  - apply (isq_ext dim (fun x => (rsum dim (fun l => Q i l * x l) + t i) * (rsum dim (fun l => Q j l * x l) + t j))); [intros; rewrite row_cross by assumption; reflexivity|apply isq_prod].
Qed.
(** f has gradient g, in every direction *)
Definition chain (f : vec -> R) (g : nat -> vec -> R) : Prop := forall x v, is_derive (fun s => f (fun k => x k + s * v k)) 0 (rsum dim (fun k => v k * g k x)).
Lemma chain_const a : chain (fun _ => a) (fun _ _ => 0).
Proof. intros x v. evar_last; [apply Rbf_P.derive_cst|]. symmetry. apply rsum_zero. intros. ring. Qed.
Lemma chain_x i : (i < dim)%nat -> chain (fun x => x i) (fun k _ => if Nat.eqb k i then 1 else 0).
Proof.
  intros H x v. evar_last; [auto_derive; [exact I|reflexivity]|]. rewrite (rsum_ext dim _ (fun k => if Nat.eqb k i then v k else 0)) by (intros k _; destruct (Nat.eqb k i); ring).
  rewrite (rsum_single dim v i H). ring.
Qed.
Lemma chain_plus f g f' g' : chain f f' -> chain g g' -> chain (fun x => f x + g x) (fun k x => f' k x + g' k x).
Proof.
  intros Hf Hg x v. evar_last; [apply (is_derive_plus (K := R_AbsRing) (V := R_NormedModule)); [apply Hf|apply Hg]|]. unfold plus. cbn. rewrite <- rsum_plus. apply rsum_ext. intros. ring.
Qed.
Lemma chain_mul f g f' g' : chain f f' -> chain g g' -> chain (fun x => f x * g x) (fun k x => f' k x * g x + f x * g' k x).
Proof.
  intros Hf Hg x v. evar_last; [apply derive_mul; [apply Hf|apply Hg]|]. cbv beta.
  assert (E : (fun k => x k + 0 * v k) = x) by (apply functional_extensionality; intros; ring). rewrite !E.
  rewrite <- rsum_scal_r, <- rsum_scal_l, <- rsum_plus. apply rsum_ext. intros. ring.
Qed.
Lemma chain_ext f h f' : (forall x, f x = h x) -> chain f f' -> chain h f'.
Proof. intros E H x v. apply (is_derive_ext (fun s => f (fun k => x k + s * v k))); [intros; apply E|apply H]. Qed.
Lemma chain_sum m (F : nat -> vec -> R) : (forall l, (l < m)%nat -> exists g, chain (F l) g) -> exists g, chain (fun x => rsum m (fun l => F l x)) g.
Proof.
  induction m as [|m IH]; intros H; cbn [rsum]; [exists (fun _ _ => 0); apply chain_const|]. destruct IH as [g1 G1]; [intros; apply H; lia|]. destruct (H m ltac:(lia)) as [g2 G2].
  exists (fun k x => g1 k x + g2 k x). apply chain_plus; assumption.
Qed.
Lemma chain_qp c : exists g, chain (qp_value dim c) g.
Proof.
  unfold qp_value, dot. apply (chain_sum _ (fun a x => qp_row dim x a * c a)). intros a Ha.
  assert (R : exists g, chain (fun x => qp_row dim x a) g).
  { destruct (row_cases dim a Ha) as [-> |[(i & Hi & ->)|[(i & Hi & ->)|(i & j & Hi & Hj & ->)]]].
    - eexists. apply (chain_ext (fun _ => 1)); [intros; rewrite row_const; reflexivity|apply chain_const].
    - eexists. apply (chain_ext (fun x => x i)); [intros; rewrite row_linear by exact Hi; reflexivity|apply chain_x; exact Hi].
    - eexists. apply (chain_ext (fun x => x i * x i)); [intros; rewrite row_square by exact Hi; ring|apply chain_mul; apply chain_x; exact Hi].
    - eexists. apply (chain_ext (fun x => x i * x j)); [intros; rewrite row_cross by assumption; reflexivity|apply chain_mul; apply chain_x; lia]. }
  destruct R as [g G]. eexists. apply (chain_mul (fun x => qp_row dim x a) (fun _ => c a)); [exact G|apply chain_const].
Qed.
Lemma chain_partial f g x k : (k < dim)%nat -> chain f g -> is_partial f x k (g k x).
Proof.
  intros Hk H. unfold is_partial. specialize (H x (fun i => if Nat.eqb i k then 1 else 0)).
  apply (is_derive_ext (fun s => f (fun i => x i + (s - x k) * (if Nat.eqb i k then 1 else 0)))).
  { intros s. f_equal. apply functional_extensionality. intros i. unfold upd. destruct (Nat.eqb_spec i k) as [-> | N]; ring. }
  evar_last.
  - apply (is_derive_comp (fun u => f (fun i => x i + u * (if Nat.eqb i k then 1 else 0))) (fun s => s - x k) (x k)).
    + replace (x k - x k) with 0 by ring. exact H.
    + auto_derive; [exact I|reflexivity].
  - unfold scal. cbn. unfold mult. cbn. rewrite Rmult_1_l. rewrite (rsum_ext dim _ (fun i => if Nat.eqb i k then g i x else 0)) by (intros i _; destruct (Nat.eqb i k); ring).
    apply (rsum_single dim (fun i => g i x) k Hk).
Qed.
(** the derivative of the predictions along any direction *)
Lemma qp_direction c x v : is_derive (fun s => qp_value dim c (fun k => x k + s * v k)) 0 (rsum dim (fun k => v k * qp_derivative dim c k x)).
Proof.
  destruct (chain_qp c) as [g G]. evar_last; [apply G|]. apply rsum_ext. intros k Hk. f_equal.
  pose proof (chain_partial _ _ x k Hk G) as D1. pose proof (qp_partial dim c k x Hk) as D2. unfold is_partial in *.
  apply is_derive_unique in D1, D2. rewrite <- D1, <- D2. reflexivity.
Qed.
End Class.

Section QpRot.
Variables (inv : mat -> mat) (dim nt : nat) (xt : nat -> vec) (yt t : vec) (P Q : mat).
Notation xt' := (fun e => place dim Q t (xt e)).
Hypothesis HP : invertible_by dim P Q.
Hypothesis Hi : forall i j, (i < qp_napp dim)%nat -> (j < qp_napp dim)%nat -> mm (qp_napp dim) (gram dim nt xt) (inv (gram dim nt xt)) i j = idm i j.
Hypothesis Hi' : forall i j, (i < qp_napp dim)%nat -> (j < qp_napp dim)%nat -> mm (qp_napp dim) (inv (gram dim nt xt')) (gram dim nt xt') i j = idm i j.
Lemma qp_rot coef coef' : qp_train inv dim nt xt yt = Some coef -> qp_train inv dim nt xt' yt = Some coef' ->
  forall x, qp_value dim coef' (place dim Q t x) = qp_value dim coef x /\
    forall j, (j < dim)%nat -> rsum dim (fun k => Q k j * qp_derivative dim coef' k (place dim Q t x)) = qp_derivative dim coef j x.
Proof.
  intros T T'. assert (V : forall x, qp_value dim coef' (place dim Q t x) = qp_value dim coef x).
  { destruct (isq_place dim P (fun k => - rsum dim (fun l => P k l * t l)) coef) as [c1 E1].
    assert (E : forall x, qp_value dim c1 (place dim Q t x) = qp_value dim coef x).
    { intros x. rewrite <- E1. apply qp_value_ext. intros k Hk. rewrite <- (unplace dim P Q t x k HP Hk). unfold place at 1.
      rewrite (rsum_ext dim (fun l => P k l * (place dim Q t x l - t l)) (fun l => P k l * place dim Q t x l - P k l * t l)) by (intros; ring). rewrite rsum_minus. ring. }
    intros x. rewrite <- E. apply (qp_unique inv dim nt xt' yt coef' c1 Hi' T').
    intros d. destruct (isq_place dim Q t d) as [d1 Ed]. rewrite (rsum_ext nt _ (fun e => qp_value dim d1 (xt e) * (qp_value dim coef (xt e) - yt e))).
    - apply (qp_orth inv dim nt xt yt coef Hi T d1).
    - intros e He. rewrite E, <- Ed. ring. }
  intros x. split; [apply V|]. intros j Hj.
  pose proof (qp_direction dim coef' (place dim Q t x) (fun k => Q k j)) as D1.
  pose proof (qp_direction dim coef x (fun k => if Nat.eqb k j then 1 else 0)) as D2.
  assert (D3 : is_derive (fun s => qp_value dim coef' (fun k => place dim Q t x k + s * Q k j)) 0 (rsum dim (fun k => (if Nat.eqb k j then 1 else 0) * qp_derivative dim coef k x))).
  { revert D2. apply is_derive_ext. intros s. rewrite <- V. apply qp_value_ext. intros k Hk. unfold place.
    rewrite (rsum_ext dim _ (fun l => Q k l * x l + (if Nat.eqb l j then s * Q k l else 0))) by (intros l _; destruct (Nat.eqb l j); ring).
    rewrite rsum_plus, (rsum_single dim (fun l => s * Q k l) j Hj). ring. }
  apply is_derive_unique in D1, D3. rewrite D1 in D3. rewrite D3.
  rewrite (rsum_ext dim _ (fun k => if Nat.eqb k j then qp_derivative dim coef k x else 0)) by (intros k _; destruct (Nat.eqb k j); ring).
  apply (rsum_single dim (fun k => qp_derivative dim coef k x) j Hj).
Qed.
End QpRot.
