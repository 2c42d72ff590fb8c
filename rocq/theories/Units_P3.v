(** C112: change of units, QP and LS. *)
From Coq Require Import Reals Arith Bool List Lia Lra FunctionalExtensionality.
From Coquelicot Require Import Coquelicot.
From Verif Require Import RSum Mat Poly_M Poly_P Poly_P2 Units_P2.
Open Scope R_scope.

(** the quadratic polynomials are closed under affine changes of the variables *)
Section Class.
Variable dim : nat.
Definition isq (f : vec -> R) : Prop := exists c, forall x, f x = qp_value dim c x.
Lemma isq_plus f g : isq f -> isq g -> isq (fun x => f x + g x).
Proof. intros [c E] [d F]. exists (fun k => c k + d k). intros x. rewrite E, F. unfold qp_value, dot. rewrite <- rsum_plus. apply rsum_ext. intros. ring. Qed.
Lemma isq_scal a f : isq f -> isq (fun x => a * f x).
Proof. intros [c E]. exists (fun k => a * c k). intros x. rewrite E. unfold qp_value, dot. rewrite <- rsum_scal_l. apply rsum_ext. intros. ring. Qed.
Lemma isq_ext f g : (forall x, f x = g x) -> isq f -> isq g.
Proof. intros E [c F]. exists c. intros x. rewrite <- E. apply F. Qed.
Lemma isq_row k : (k < qp_napp dim)%nat -> isq (fun x => qp_row dim x k).
Proof.
  intros H. exists (fun a => if Nat.eqb a k then 1 else 0). intros x. unfold qp_value, dot. rewrite (rsum_ext _ _ (fun a => if Nat.eqb a k then qp_row dim x a else 0)).
  - rewrite (rsum_single _ _ k H). reflexivity.
  - intros a _. destruct (Nat.eqb a k); ring.
Qed.
Lemma napp_lo : (2 * dim + 1 <= qp_napp dim)%nat.
Proof. destruct dim as [|d] eqn:E; [cbn; lia|]. rewrite napp_eq by lia. lia. Qed.
Lemma isq_const a : isq (fun _ => a).
Proof. apply (isq_ext (fun x => a * qp_row dim x 0%nat)); [intros x; rewrite row_const; ring|]. apply isq_scal, isq_row. pose proof napp_lo. lia. Qed.
Lemma isq_x i : (i < dim)%nat -> isq (fun x => x i).
Proof. intros H. apply (isq_ext (fun x => qp_row dim x (1 + i)%nat)); [intros x; apply row_linear; exact H|]. apply isq_row. pose proof napp_lo. lia. Qed.
Lemma isq_xx i j : (i < dim)%nat -> (j < dim)%nat -> isq (fun x => x i * x j).
Proof.
  intros Hi Hj. destruct (Nat.lt_trichotomy i j) as [L|[E|L]].
  - apply (isq_ext (fun x => qp_row dim x (qp_k dim i j))); [intros x; apply row_cross; assumption|]. apply isq_row. apply (qp_k_range dim i j L Hj).
  - subst j. apply (isq_ext (fun x => qp_row dim x (1 + dim + i)%nat)); [intros x; rewrite row_square by exact Hi; ring|]. apply isq_row. pose proof napp_lo. lia.
  - apply (isq_ext (fun x => qp_row dim x (qp_k dim j i))); [intros x; rewrite row_cross by assumption; ring|]. apply isq_row. apply (qp_k_range dim j i L Hi).
Qed.
Lemma row_cases k : (k < qp_napp dim)%nat -> k = 0%nat \/ (exists i, (i < dim)%nat /\ k = (1 + i)%nat) \/ (exists i, (i < dim)%nat /\ k = (1 + dim + i)%nat) \/ exists i j, (i < j)%nat /\ (j < dim)%nat /\ k = qp_k dim i j.
Proof.
  intros H. destruct (Nat.eq_dec k 0) as [E|N]; [left; exact E|]. destruct (Nat.le_gt_cases k dim) as [L|L]; [right; left; exists (k - 1)%nat; lia|].
  destruct (Nat.le_gt_cases k (2 * dim)) as [L2|L2]; [right; right; left; exists (k - 1 - dim)%nat; lia|]. right. right. right. apply qp_k_onto. lia.
Qed.
Lemma row_ext x y k : (k < qp_napp dim)%nat -> (forall i, (i < dim)%nat -> x i = y i) -> qp_row dim x k = qp_row dim y k.
Proof.
  intros H E. destruct (row_cases k H) as [-> |[(i & Hi & ->)|[(i & Hi & ->)|(i & j & Hi & Hj & ->)]]].
  - rewrite !row_const. reflexivity.
  - rewrite !row_linear by exact Hi. apply E. exact Hi.
  - rewrite !row_square by exact Hi. rewrite (E i Hi). reflexivity.
  - rewrite !row_cross by assumption. rewrite !E by lia. reflexivity.
Qed.
Lemma qp_value_ext c x y : (forall i, (i < dim)%nat -> x i = y i) -> qp_value dim c x = qp_value dim c y.
Proof. intros E. unfold qp_value, dot. apply rsum_ext. intros k Hk. rewrite (row_ext x y k Hk E). reflexivity. Qed.
Lemma isq_affine (A B : vec) c : isq (fun x => qp_value dim c (fun k => A k * x k + B k)).
Proof.
  unfold qp_value at 1, dot.
  assert (Q : forall m, (m <= qp_napp dim)%nat -> isq (fun x => rsum m (fun a => qp_row dim (fun k => A k * x k + B k) a * c a))).
  { induction m as [|m IH]; intros Hm; cbn [rsum]; [apply isq_const|]. apply isq_plus; [apply IH; lia|].
    apply (isq_ext (fun x => c m * qp_row dim (fun k => A k * x k + B k) m)); [intros; ring|]. apply isq_scal.
    destruct (row_cases m ltac:(lia)) as [-> |[(i & Hi & ->)|[(i & Hi & ->)|(i & j & Hi & Hj & ->)]]].
    - apply (isq_ext (fun _ => 1)); [intros; rewrite row_const; reflexivity|apply isq_const].
    - apply (isq_ext (fun x => A i * x i + B i)); [intros; rewrite row_linear by exact Hi; reflexivity|]. apply isq_plus; [apply isq_scal, isq_x; exact Hi|apply isq_const].
    - apply (isq_ext (fun x => A i ^ 2 * (x i * x i) + (2 * A i * B i * x i + B i ^ 2))); [intros; rewrite row_square by exact Hi; ring|].
      apply isq_plus; [apply isq_scal, isq_xx; exact Hi|]. apply isq_plus; [apply isq_scal, isq_x; exact Hi|apply isq_const].
    - apply (isq_ext (fun x => A i * A j * (x i * x j) + (A i * B j * x i + (A j * B i * x j + B i * B j)))); [intros; rewrite row_cross by assumption; ring|].
      apply isq_plus; [apply isq_scal, isq_xx; lia|]. apply isq_plus; [apply isq_scal, isq_x; lia|]. apply isq_plus; [apply isq_scal, isq_x; lia|apply isq_const]. }
  apply Q. lia.
Qed.
End Class.

Notation gram dim nt xt := (mm nt (tr (fun e a => qp_row dim (xt e) a)) (fun e a => qp_row dim (xt e) a)).
Lemma qp_orth inv dim nt (xt : nat -> vec) yt coef : (forall i j, (i < qp_napp dim)%nat -> (j < qp_napp dim)%nat -> mm (qp_napp dim) (gram dim nt xt) (inv (gram dim nt xt)) i j = idm i j) ->
  qp_train inv dim nt xt yt = Some coef -> forall d, rsum nt (fun e => qp_value dim d (xt e) * (qp_value dim coef (xt e) - yt e)) = 0.
Proof.
  intros I T d. unfold qp_train in T. destruct (Nat.ltb (2 * nt) ((dim + 1) * (dim + 2))); [discriminate|]. injection T as T.
  pose proof (inv_normal (qp_napp dim) nt (fun e a => qp_row dim (xt e) a) (inv (gram dim nt xt)) yt I) as N. rewrite T in N.
  transitivity (rsum (qp_napp dim) (fun a => d a * mv nt (tr (fun e a => qp_row dim (xt e) a)) (fun e => mv (qp_napp dim) (fun e a => qp_row dim (xt e) a) coef e - yt e) a)).
  - unfold mv at 1. rewrite (rsum_ext (qp_napp dim) _ (fun a => rsum nt (fun e => d a * (qp_row dim (xt e) a * (qp_value dim coef (xt e) - yt e))))).
    + rewrite rsum_swap. apply rsum_ext. intros e He. unfold qp_value at 1, dot. rewrite <- rsum_scal_r. apply rsum_ext. intros. ring.
    + intros a Ha. rewrite <- rsum_scal_l. apply rsum_ext. intros e He. unfold tr. reflexivity.
  - apply rsum_zero. intros a Ha. rewrite (N a Ha). ring.
Qed.
Lemma qp_unique inv dim nt (xt : nat -> vec) yt coef c1 : (forall i j, (i < qp_napp dim)%nat -> (j < qp_napp dim)%nat -> mm (qp_napp dim) (inv (gram dim nt xt)) (gram dim nt xt) i j = idm i j) ->
  qp_train inv dim nt xt yt = Some coef -> (forall d, rsum nt (fun e => qp_value dim d (xt e) * (qp_value dim c1 (xt e) - yt e)) = 0) -> forall x, qp_value dim coef x = qp_value dim c1 x.
Proof.
  intros I T O x. set (y1 := fun e => qp_value dim c1 (xt e)).
  destruct (qp_train inv dim nt xt y1) as [coef1|] eqn:T1; [|apply qp_train_none in T1; apply qp_train_none with (inv := inv) (xt := xt) (yt := yt) in T1; rewrite T in T1; discriminate].
  rewrite <- (qp_reproduces inv dim nt xt y1 coef1 c1 I T1 (fun e _ => eq_refl) x).
  unfold qp_train in T, T1. destruct (Nat.ltb (2 * nt) ((dim + 1) * (dim + 2))); [discriminate|]. injection T as <-. injection T1 as <-.
  unfold qp_value. apply dot_ext; [reflexivity|]. intros a Ha. apply mv_ext; [reflexivity|]. intros b Hb.
  specialize (O (fun a => if Nat.eqb a b then 1 else 0)). apply Rminus_diag_uniq. unfold mv, tr. rewrite <- rsum_minus.
  transitivity (- rsum nt (fun e => qp_value dim (fun a => if Nat.eqb a b then 1 else 0) (xt e) * (qp_value dim c1 (xt e) - yt e))); [|rewrite O; ring].
  rewrite <- rsum_opp. apply rsum_ext. intros e He.
  assert (qp_value dim (fun a => if Nat.eqb a b then 1 else 0) (xt e) = qp_row dim (xt e) b) as ->.
  { unfold qp_value, dot. rewrite (rsum_ext _ _ (fun a => if Nat.eqb a b then qp_row dim (xt e) a else 0)); [apply (rsum_single _ (fun a => qp_row dim (xt e) a) b Hb)|]. intros c _. destruct (Nat.eqb c b); ring. }
  unfold y1. ring.
Qed.
Section QpUnits.
Variables (inv : mat -> mat) (dim nt : nat) (xt : nat -> vec) (yt A B : vec) (a b : R).
Notation xt' := (fun e k => A k * xt e k + B k).
Hypothesis HA : forall k, (k < dim)%nat -> A k <> 0.
Hypothesis Hi : forall i j, (i < qp_napp dim)%nat -> (j < qp_napp dim)%nat -> mm (qp_napp dim) (gram dim nt xt) (inv (gram dim nt xt)) i j = idm i j.
Hypothesis Hi' : forall i j, (i < qp_napp dim)%nat -> (j < qp_napp dim)%nat -> mm (qp_napp dim) (inv (gram dim nt xt')) (gram dim nt xt') i j = idm i j.
Lemma qp_units coef coef' : qp_train inv dim nt xt yt = Some coef -> qp_train inv dim nt xt' (fun e => a * yt e + b) = Some coef' ->
  forall x, qp_value dim coef' (fun k => A k * x k + B k) = a * qp_value dim coef x + b /\
    forall kx, (kx < dim)%nat -> qp_derivative dim coef' kx (fun k => A k * x k + B k) = a * qp_derivative dim coef kx x / A kx.
Proof.
  intros T T'. assert (V : forall x, qp_value dim coef' (fun k => A k * x k + B k) = a * qp_value dim coef x + b).
  { destruct (isq_affine dim (fun k => / A k) (fun k => - B k / A k) coef) as [c0 E0].
    destruct (isq_plus dim (fun z => a * qp_value dim c0 z) (fun _ => b)) as [c1 E1]; [apply isq_scal; exists c0; reflexivity|apply isq_const|].
    assert (E : forall x, qp_value dim c1 (fun k => A k * x k + B k) = a * qp_value dim coef x + b).
    { intros x. rewrite <- E1, <- E0. f_equal. f_equal. apply qp_value_ext. intros k Hk. pose proof (HA k Hk). field. assumption. }
    intros x. rewrite <- E. apply (qp_unique inv dim nt xt' (fun e => a * yt e + b) coef' c1 Hi' T').
    intros d. destruct (isq_affine dim A B d) as [d1 Ed]. rewrite (rsum_ext nt _ (fun e => a * (qp_value dim d1 (xt e) * (qp_value dim coef (xt e) - yt e)))).
    - rewrite rsum_scal_l, (qp_orth inv dim nt xt yt coef Hi T d1). ring.
    - intros e He. rewrite E, <- Ed. ring. }
  intros x. split; [apply V|]. intros kx Hk.
  apply (partial_affine (qp_value dim coef) (qp_value dim coef') a b A B x kx); [exact V|apply HA; exact Hk|apply qp_partial; exact Hk|apply qp_partial; exact Hk].
Qed.
End QpUnits.

Section LsUnits.
Variables (lstsq : nat -> nat -> mat -> vec -> vec) (nx nt : nat) (xt : nat -> vec) (yt A B : vec) (a b : R).
Hypothesis lstsq_ok : forall (X : mat) (y : vec) k, (k < nx)%nat -> mv nt (tr X) (fun e => mv nx X (lstsq nt nx X y) e - y e) k = 0.
Hypothesis nt_pos : (0 < nt)%nat.
Hypothesis HA : forall k, (k < nx)%nat -> A k <> 0.
Notation xt' := (fun e k => A k * xt e k + B k).
Let m := ls_fit lstsq nx nt xt yt.
Let m' := ls_fit lstsq nx nt xt' (fun e => a * yt e + b).
(** the wanted model in the new units, and the new model in the old units *)
Definition fwd : vec * R := (fun k => a * fst m k / A k, a * snd m + b - rsum nx (fun k => a * fst m k * B k / A k)).
Definition bwd : vec * R := (fun k => A k * fst m' k, snd m' + rsum nx (fun k => B k * fst m' k)).
Lemma fwd_value x : ls_value nx fwd (fun k => A k * x k + B k) = a * ls_value nx m x + b.
Proof.
  unfold ls_value, fwd, dot. cbn [fst snd]. rewrite (rsum_ext nx _ (fun k => a * (x k * fst m k) + a * fst m k * B k / A k)); [rewrite rsum_plus, rsum_scal_l; ring|].
  intros k Hk. pose proof (HA k Hk). field. assumption.
Qed.
Lemma bwd_value x : ls_value nx bwd x = ls_value nx m' (fun k => A k * x k + B k).
Proof.
  unfold ls_value, bwd, dot. cbn [fst snd]. rewrite (rsum_ext nx (fun i => (A i * x i + B i) * fst m' i) (fun k => x k * (A k * fst m' k) + B k * fst m' k)) by (intros; ring).
  rewrite rsum_plus. ring.
Qed.
Lemma ls_units_points e : (e < nt)%nat -> ls_value nx m' (fun k => A k * xt e k + B k) = a * ls_value nx m (xt e) + b.
Proof.
  intros He. rewrite <- fwd_value.
  pose proof (ls_diff lstsq nx nt xt' (fun e => a * yt e + b) lstsq_ok nt_pos (fst fwd) (snd fwd)) as D. fold m' in D.
  assert (EF : train_err nt (ls_value nx (fst fwd, snd fwd)) xt' (fun e => a * yt e + b) = a ^ 2 * train_err nt (ls_value nx m) xt yt).
  { unfold train_err. rewrite <- rsum_scal_l. apply rsum_ext. intros f Hf. rewrite <- surjective_pairing, fwd_value. ring. }
  assert (LE : a ^ 2 * train_err nt (ls_value nx m) xt yt <= train_err nt (ls_value nx m') xt' (fun e => a * yt e + b)).
  { destruct (Req_dec a 0) as [Z|Z].
    - rewrite Z. replace (0 ^ 2 * _) with 0 by ring. apply rsum_nonneg. intros. apply pow2_ge_0.
    - pose proof (ls_optimal lstsq nx nt xt yt lstsq_ok nt_pos (fun k => fst bwd k / a) ((snd bwd - b) / a)) as O. fold m in O.
      assert (train_err nt (ls_value nx m') xt' (fun e => a * yt e + b) = a ^ 2 * train_err nt (ls_value nx (fun k => fst bwd k / a, (snd bwd - b) / a)) xt yt) as ->.
      { unfold train_err. rewrite <- rsum_scal_l. apply rsum_ext. intros f Hf. rewrite <- bwd_value.
        assert (ls_value nx (fun k => fst bwd k / a, (snd bwd - b) / a) (xt f) = (ls_value nx bwd (xt f) - b) / a) as ->.
        { unfold ls_value, dot. cbn [fst snd]. rewrite (rsum_ext nx (fun i => xt f i * (fst bwd i / a)) (fun i => / a * (xt f i * fst bwd i))) by (intros; field; exact Z). rewrite rsum_scal_l. field. exact Z. }
        field. exact Z. }
      apply Rmult_le_compat_l; [apply pow2_ge_0|exact O]. }
  rewrite EF in D.
  assert (Z : rsum nt (fun e => (ls_value nx (fst fwd, snd fwd) (xt' e) - ls_value nx m' (xt' e)) ^ 2) = 0).
  { pose proof (rsum_nonneg nt (fun e => (ls_value nx (fst fwd, snd fwd) (xt' e) - ls_value nx m' (xt' e)) ^ 2) (fun e _ => pow2_ge_0 _)). lra. }
  pose proof (rsum_zero_inv nt _ (fun e _ => pow2_ge_0 _) Z e He) as Q. cbn beta in Q. rewrite <- surjective_pairing in Q. nra.
Qed.
Lemma ls_units : (forall a' (b' : vec), (forall i, (i < nt)%nat -> a' + rsum nx (fun k => b' k * xt i k) = 0) -> a' = 0 /\ forall k, (k < nx)%nat -> b' k = 0) ->
  forall x, ls_value nx m' (fun k => A k * x k + B k) = a * ls_value nx m x + b /\ forall kx, (kx < nx)%nat -> ls_derivative m' kx (fun k => A k * x k + B k) = a * ls_derivative m kx x / A kx.
Proof.
  intros F. assert (V : forall x, ls_value nx m' (fun k => A k * x k + B k) = a * ls_value nx m x + b).
  { intros x. rewrite <- bwd_value.
    assert (Q : forall x, ls_value nx bwd x - (a * ls_value nx m x + b) = (snd bwd - a * snd m - b) + rsum nx (fun k => (fst bwd k - a * fst m k) * x k)).
    { intros z. unfold ls_value, dot. rewrite (rsum_ext nx (fun k => (fst bwd k - a * fst m k) * z k) (fun k => z k * fst bwd k - a * (z k * fst m k))) by (intros; ring).
      rewrite rsum_minus, rsum_scal_l. ring. }
    destruct (F (snd bwd - a * snd m - b) (fun k => fst bwd k - a * fst m k)) as [F1 F2].
    - intros e He. rewrite <- Q, bwd_value, (ls_units_points e He). ring.
    - apply Rminus_diag_uniq. rewrite Q, F1. rewrite rsum_zero; [ring|]. intros k Hk. rewrite (F2 k Hk). ring. }
  intros x. split; [apply V|]. intros kx Hk. apply (partial_affine (ls_value nx m) (ls_value nx m') a b A B x kx); [exact V|apply HA; exact Hk|apply ls_partial; exact Hk|apply ls_partial; exact Hk].
Qed.
End LsUnits.
