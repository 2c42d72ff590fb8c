(** LS and QP with the input variables in another order. *)
From Coq Require Import Reals Arith Bool List Lia Lra FunctionalExtensionality.
From Coquelicot Require Import Coquelicot.
From Verif Require Import RSum Mat Poly_M Poly_P Poly_P2 Krg_M Het_S Het_P4 Order_P1 Order_P2 Trend_T Inp_S Inp_P2.
Import ListNotations.
Open Scope list_scope.
Open Scope R_scope.
(** ** LS *)
Section Ls.
Variables (lstsq : nat -> nat -> mat -> vec -> vec) (nx nt : nat) (xt : nat -> vec) (yt : vec) (f : nat -> nat).
Hypothesis lstsq_ok : forall (X : mat) (y : vec) k, (k < nx)%nat -> mv nt (tr X) (fun e => mv nx X (lstsq nt nx X y) e - y e) k = 0.
Hypotheses (P : (0 < nt)%nat) (RO : reorder nx f).
Let xt' : nat -> vec := fun i => swap_in f (xt i).
Let m := ls_fit lstsq nx nt xt yt.
Let m' := ls_fit lstsq nx nt xt' yt.
Lemma lsv_swap b a x : ls_value nx (fun k => b (f k), a) (swap_in f x) = ls_value nx (b, a) x.
Proof. unfold ls_value. cbn [fst snd]. f_equal. apply (rsum_reorder nx f (fun k => x k * b k) RO). Qed.
Lemma ls_train_swap e : (e < nt)%nat -> ls_value nx m' (xt' e) = ls_value nx m (xt e).
Proof.
  destruct (reorder_inv nx f RO) as (q & RQ & FQ & QF).
  set (n := (fun k => fst m' (q k), snd m') : vec * R).
  assert (N : forall x, ls_value nx m' (swap_in f x) = ls_value nx n x).
  { intros x. unfold n. rewrite <- lsv_swap. unfold ls_value. cbn [fst snd]. f_equal. apply dot_ext; [reflexivity|]. intros k Hk. rewrite QF by exact Hk. reflexivity. }
  pose proof (ls_optimal lstsq nx nt xt' yt lstsq_ok P (fun k => fst m (f k)) (snd m)) as A. fold m' in A.
  assert (T1 : train_err nt (ls_value nx m') xt' yt = train_err nt (ls_value nx n) xt yt) by (apply rsum_ext; intros i Hi; unfold xt'; rewrite N; reflexivity).
  assert (T2 : train_err nt (ls_value nx (fun k => fst m (f k), snd m)) xt' yt = train_err nt (ls_value nx m) xt yt) by (apply rsum_ext; intros i Hi; unfold xt'; rewrite lsv_swap, <- surjective_pairing; reflexivity).
  rewrite T1, T2 in A. pose proof (ls_diff lstsq nx nt xt yt lstsq_ok P (fst n) (snd n)) as B. fold m in B. rewrite <- surjective_pairing in B.
  assert (Z : rsum nt (fun e => (ls_value nx n (xt e) - ls_value nx m (xt e)) ^ 2) = 0).
  { apply Rle_antisym; [lra|]. apply rsum_nonneg. intros; apply pow2_ge_0. }
  intros He. pose proof (rsum_zero_inv nt (fun e => (ls_value nx n (xt e) - ls_value nx m (xt e)) ^ 2) (fun e _ => pow2_ge_0 _) Z e He) as Q. cbn beta in Q. unfold xt'. rewrite N. nra.
Qed.
Hypothesis FR : forall a' (b' : vec), (forall i, (i < nt)%nat -> a' + rsum nx (fun k => b' k * xt i k) = 0) -> a' = 0 /\ forall k, (k < nx)%nat -> b' k = 0.
Lemma ls_coef_swap : snd m' = snd m /\ forall k, (k < nx)%nat -> fst m' k = fst m (f k).
Proof.
  destruct (reorder_inv nx f RO) as (q & RQ & FQ & QF).
  destruct (FR (snd m' - snd m) (fun k => fst m' (q k) - fst m k)) as [F1 F2].
  - intros i Hi. pose proof (ls_train_swap i Hi) as E. unfold ls_value, dot in E.
    rewrite (rsum_ext nx _ (fun k => xt i k * fst m' (q k) - xt i k * fst m k)) by (intros; ring). rewrite rsum_minus.
    rewrite <- (rsum_reorder nx f (fun k => xt i k * fst m' (q k)) RO). rewrite (rsum_ext nx (fun k => xt i (f k) * fst m' (q (f k))) (fun k => xt' i k * fst m' k)) by (intros k Hk; rewrite QF by exact Hk; reflexivity). lra.
  - split; [lra|]. intros k Hk. specialize (F2 (f k) (proj1 RO k Hk)). cbn beta in F2. rewrite QF in F2 by exact Hk. lra.
Qed.
Lemma ls_swap x : ls_value nx m' (swap_in f x) = ls_value nx m x.
Proof.
  destruct ls_coef_swap as [E1 E2]. rewrite (surjective_pairing m). rewrite <- lsv_swap. unfold ls_value. cbn [fst snd]. f_equal; [|exact E1]. apply dot_ext; [reflexivity|exact E2].
Qed.
Lemma ls_dswap x kx : (kx < nx)%nat -> ls_derivative m' kx (swap_in f x) = ls_derivative m (f kx) x.
Proof. intros Hk. unfold ls_derivative. rewrite (proj2 ls_coef_swap kx Hk). reflexivity. Qed.
End Ls.
(** ** QP *)
Definition idx (dim : nat) (m : mono) : nat := match m with M1 => 0 | MX i => 1 + i | MXX i j => if Nat.eqb i j then 1 + dim + i else qp_k dim i j end%nat.
Lemma idx_row dim m x : (0 < dim)%nat -> in_monos PQuadratic dim m -> qp_row dim x (idx dim m) = meval x m.
Proof.
  intros Hd. destruct m as [|i|i j]; cbn [idx in_monos meval].
  - intros _. apply row_const.
  - intros [_ H]. apply row_linear. exact H.
  - intros [_ H]. destruct (Nat.eqb_spec i j) as [<- |N]; [rewrite row_square by lia; ring|]. apply row_cross; lia.
Qed.
Lemma idx_lt dim m : (0 < dim)%nat -> in_monos PQuadratic dim m -> (idx dim m < qp_napp dim)%nat.
Proof.
  intros Hd. pose proof (napp_eq dim Hd) as E. destruct m as [|i|i j]; cbn [idx in_monos].
  - intros _. lia.
  - intros [_ H]. lia.
  - intros [_ H]. destruct (Nat.eqb_spec i j) as [<- |N]; [lia|]. apply qp_k_range; lia.
Qed.
Lemma idx_inj dim m m' : (0 < dim)%nat -> in_monos PQuadratic dim m -> in_monos PQuadratic dim m' -> idx dim m = idx dim m' -> m = m'.
Proof.
  intros Hd. assert (R : forall i j, (i < j)%nat -> (j < dim)%nat -> (2 * dim + 1 <= qp_k dim i j)%nat) by (intros i j H1 H2; apply qp_k_range; assumption).
  destruct m as [|i|i j]; destruct m' as [|i'|i' j']; cbn [idx in_monos]; intros H H' E; try reflexivity; try (exfalso; lia).
  - exfalso. destruct (Nat.eqb_spec i' j'); [lia|]. specialize (R i' j' ltac:(lia) ltac:(lia)). lia.
  - f_equal. lia.
  - exfalso. destruct (Nat.eqb_spec i' j'); [lia|]. specialize (R i' j' ltac:(lia) ltac:(lia)). lia.
  - exfalso. destruct (Nat.eqb_spec i j); [lia|]. specialize (R i j ltac:(lia) ltac:(lia)). lia.
  - exfalso. destruct (Nat.eqb_spec i j); [lia|]. specialize (R i j ltac:(lia) ltac:(lia)). lia.
  - destruct (Nat.eqb_spec i j); destruct (Nat.eqb_spec i' j').
    + f_equal; lia.
    + specialize (R i' j' ltac:(lia) ltac:(lia)). lia.
    + specialize (R i j ltac:(lia) ltac:(lia)). lia.
    + destruct (qp_k_inj dim i j i' j' ltac:(lia) ltac:(lia) ltac:(lia) ltac:(lia) E) as [-> ->]. reflexivity.
Qed.
Lemma idx_onto dim a : (0 < dim)%nat -> (a < qp_napp dim)%nat -> exists m, in_monos PQuadratic dim m /\ idx dim m = a.
Proof.
  intros Hd Ha. destruct (Nat.eq_dec a 0) as [-> |N0]; [exists M1; split; [exact I|reflexivity]|].
  destruct (le_lt_dec a dim) as [L|L]; [exists (MX (a - 1)); cbn; split; [split; [discriminate|lia]|lia]|].
  destruct (le_lt_dec a (2 * dim)) as [L2|L2].
  - exists (MXX (a - 1 - dim) (a - 1 - dim)). cbn [in_monos idx]. rewrite Nat.eqb_refl. split; [split; [reflexivity|lia]|lia].
  - destruct (qp_k_onto dim a ltac:(lia)) as (i & j & H1 & H2 & ->). exists (MXX i j). cbn [in_monos idx]. destruct (Nat.eqb_spec i j); [lia|]. split; [split; [reflexivity|lia]|reflexivity].
Qed.
Definition qmono (dim a : nat) : mono := match find (fun m => Nat.eqb (idx dim m) a) (monos PQuadratic dim) with Some m => m | None => M1 end.
Lemma qmono_ok dim a : (0 < dim)%nat -> (a < qp_napp dim)%nat -> in_monos PQuadratic dim (qmono dim a) /\ idx dim (qmono dim a) = a.
Proof.
  intros Hd Ha. unfold qmono. destruct (find _ _) as [m|] eqn:E.
  - apply find_some in E. destruct E as [E1 E2]. apply monos_in in E1. apply Nat.eqb_eq in E2. split; assumption.
  - exfalso. destruct (idx_onto dim a Hd Ha) as (m & M & I). pose proof (find_none _ _ E m (proj2 (monos_in _ _ _) M)) as Q. cbn beta in Q. apply Nat.eqb_neq in Q. contradiction.
Qed.
Section Qp.
Variables (dim nt : nat) (f : nat -> nat) (xt : nat -> vec) (yt : vec).
Hypotheses (Hd : (0 < dim)%nat) (RO : reorder dim f).
Let n := qp_napp dim.
Let g (a : nat) : nat := idx dim (act f (qmono dim a)).
Lemma act_ok m : in_monos PQuadratic dim m -> in_monos PQuadratic dim (act f m).
Proof. rewrite <- !monos_in. apply (act_in dim f RO). Qed.
Lemma qp_reorder_g : reorder n g.
Proof.
  split.
  - intros a Ha. apply idx_lt; [exact Hd|]. apply act_ok. apply qmono_ok; assumption.
  - intros a b Ha Hb E. destruct (qmono_ok dim a Hd Ha) as [A1 A2]. destruct (qmono_ok dim b Hd Hb) as [B1 B2]. unfold g in E. apply (idx_inj dim _ _ Hd (act_ok _ A1) (act_ok _ B1)) in E.
    apply (act_inj dim f RO PQuadratic) in E; [|apply monos_in; assumption|apply monos_in; assumption]. congruence.
Qed.
Lemma qp_row_swap x a : (a < n)%nat -> qp_row dim (swap_in f x) a = qp_row dim x (g a).
Proof.
  intros Ha. destruct (qmono_ok dim a Hd Ha) as [A1 A2]. rewrite <- A2 at 1. rewrite (idx_row dim _ _ Hd A1). unfold g. rewrite (idx_row dim _ x Hd (act_ok _ A1)). apply act_eval.
Qed.
Let X : mat := fun e a => qp_row dim (xt e) a.
Let X' : mat := fun e a => qp_row dim (swap_in f (xt e)) a.
Variables (c c' : vec).
Hypotheses (N : forall a, (a < n)%nat -> mv nt (tr X) (fun e => mv n X c e - yt e) a = 0) (N' : forall a, (a < n)%nat -> mv nt (tr X') (fun e => mv n X' c' e - yt e) a = 0).
Hypothesis J : forall z, (forall a, (a < n)%nat -> mv n (mm nt (tr X) X) z a = 0) -> forall a, (a < n)%nat -> z a = 0.
Lemma qp_coef_swap a : (a < n)%nat -> c' a = c (g a).
Proof.
  destruct (reorder_inv n g qp_reorder_g) as (h & RH & GH & HG).
  assert (XE : forall e a, (a < n)%nat -> X' e a = X e (g a)) by (intros e b Hb; apply qp_row_swap; exact Hb).
  assert (XC : forall e, mv n X' c' e = mv n X (fun b => c' (h b)) e).
  { intros e. unfold mv. rewrite <- (rsum_reorder n g (fun b => X e b * c' (h b)) qp_reorder_g). apply rsum_ext. intros b Hb. rewrite XE by exact Hb. rewrite HG by exact Hb. reflexivity. }
  assert (Z : forall b, (b < n)%nat -> (fun b => c' (h b) - c b) b = 0).
  { apply J. intros b Hb. rewrite mv_minus. rewrite !mv_mm. pose proof (N b Hb) as A. pose proof (N' (h b) (proj1 RH b Hb)) as B. rewrite mv_minus in A, B.
    assert (TE : forall v, mv nt (tr X') v (h b) = mv nt (tr X) v b) by (intros v; unfold mv, tr; apply rsum_ext; intros e He; rewrite XE by (apply RH; exact Hb); rewrite GH by exact Hb; reflexivity).
    rewrite !TE in B. rewrite (mv_ext nt (tr X) (tr X) (mv n X' c') (mv n X (fun b => c' (h b))) b) in B by (intros; (apply XC || reflexivity)). lra. }
  intros Ha. specialize (Z (g a) (proj1 qp_reorder_g a Ha)). cbn beta in Z. rewrite HG in Z by exact Ha. lra.
Qed.
Lemma qp_value_swap x : qp_value dim c' (swap_in f x) = qp_value dim c x.
Proof.
  unfold qp_value, dot. fold n. rewrite <- (rsum_reorder n g (fun a => qp_row dim x a * c a) qp_reorder_g). apply rsum_ext. intros a Ha. rewrite qp_row_swap by exact Ha. rewrite qp_coef_swap by exact Ha. reflexivity.
Qed.
Lemma qp_value_ext co x x' : (forall k, (k < dim)%nat -> x k = x' k) -> qp_value dim co x = qp_value dim co x'.
Proof.
  intros E. unfold qp_value, dot. apply rsum_ext. intros a Ha. f_equal. destruct (qmono_ok dim a Hd Ha) as [A1 A2]. rewrite <- A2. rewrite !(idx_row dim _ _ Hd A1).
  destruct (qmono dim a) as [|i|i j]; cbn [meval in_monos] in *; [reflexivity|apply E; lia|]. rewrite !E by lia. reflexivity.
Qed.
Lemma qp_deriv_swap x kx : (kx < dim)%nat -> qp_derivative dim c' kx (swap_in f x) = qp_derivative dim c (f kx) x.
Proof.
  intros Hk. pose proof (qp_partial dim c' kx (swap_in f x) Hk) as A. pose proof (qp_partial dim c (f kx) x (proj1 RO kx Hk)) as B. unfold is_partial in A, B.
  apply is_derive_unique in A. apply is_derive_unique in B. rewrite <- A, <- B. unfold swap_in at 2. apply Derive_ext. intros t. rewrite <- qp_value_swap. apply qp_value_ext. intros k Hk'. unfold upd, swap_in. rewrite (eqb_f dim f RO k kx Hk' Hk). reflexivity.
Qed.
End Qp.
Lemma qp_swap inv dim nt f xt yt coef coef' : let X := fun e a => qp_row dim (xt e) a in let X' := fun e a => qp_row dim (swap_in f (xt e)) a in let XtX := mm nt (tr X) X in let XtX' := mm nt (tr X') X' in
  (0 < dim)%nat -> reorder dim f ->
  (forall i j, (i < qp_napp dim)%nat -> (j < qp_napp dim)%nat -> mm (qp_napp dim) XtX (inv XtX) i j = idm i j) -> (forall i j, (i < qp_napp dim)%nat -> (j < qp_napp dim)%nat -> mm (qp_napp dim) XtX' (inv XtX') i j = idm i j) ->
  qp_train inv dim nt xt yt = Some coef -> qp_train inv dim nt (fun e => swap_in f (xt e)) yt = Some coef' ->
  forall x, qp_value dim coef' (swap_in f x) = qp_value dim coef x /\ forall kx, (kx < dim)%nat -> qp_derivative dim coef' kx (swap_in f x) = qp_derivative dim coef (f kx) x.
Proof.
  intros X X' XtX XtX' Hd RO I I' T T' x. unfold qp_train in T, T'. destruct (Nat.ltb (2 * nt) ((dim + 1) * (dim + 2))); [discriminate|]. injection T as <-. injection T' as <-.
  pose proof (inv_normal (qp_napp dim) nt X (inv XtX) yt I) as N. pose proof (inv_normal (qp_napp dim) nt X' (inv XtX') yt I') as N'.
  assert (J : forall z, (forall a, (a < qp_napp dim)%nat -> mv (qp_napp dim) XtX z a = 0) -> forall a, (a < qp_napp dim)%nat -> z a = 0).
  { intros z Hz a Ha. set (n := qp_napp dim) in *. assert (Sy : forall i j, XtX i j = XtX j i) by (intros i j; unfold XtX, mm, tr; apply rsum_ext; intros; ring).
    set (w := fun j => inv XtX j a). assert (W : forall i, (i < n)%nat -> mv n XtX w i = idm i a) by (intros i Hi; exact (I i a Hi Ha)).
    assert (Q : dot n z (mv n XtX w) = dot n (mv n XtX z) w). { rewrite (dot_sym n (mv n XtX z) w). rewrite (dot_mv_tr n n XtX z w) || idtac. unfold dot, mv. rewrite (rsum_ext n _ (fun i => rsum n (fun j => z i * (XtX i j * w j)))) by (intros i Hi; rewrite rsum_scal_l; reflexivity). rewrite rsum_swap. apply rsum_ext. intros j Hj. rewrite <- rsum_scal_l. apply rsum_ext. intros i Hi. rewrite (Sy i j). ring. }
    rewrite (dot_ext n (mv n XtX z) w (fun _ => 0) w) in Q by (intros; ((apply Hz; assumption) || reflexivity)). rewrite (dot_ext n z (mv n XtX w) z (fun i => idm i a)) in Q by (intros; ((apply W; assumption) || reflexivity)).
    unfold dot in Q. rewrite (rsum_zero n (fun i => 0 * w i)) in Q by (intros; ring). rewrite (rsum_ext n _ (fun i => if Nat.eqb i a then z i else 0)) in Q by (intros i Hi; unfold idm; destruct (Nat.eqb i a); ring). rewrite (rsum_single n z a Ha) in Q. exact Q. }
  split; [exact (qp_value_swap dim nt f xt yt Hd RO _ _ N N' J x)|]. intros kx Hk. exact (qp_deriv_swap dim nt f xt yt Hd RO _ _ N N' J x kx Hk).
Qed.
