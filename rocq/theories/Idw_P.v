From Coq Require Import Reals Arith Bool List Lia Lra.
From Coquelicot Require Import Coquelicot.
From Verif Require Import RSum Idw_M.
Import ListNotations.
Open Scope list_scope.
Open Scope R_scope.
Section P.
Variables (nx nt : nat) (p : R) (xt : nat -> nat -> R).
Notation r2 := (idw_r2 nx xt). Notation w := (idw_w nx p xt).
Lemma r2_nonneg x it : 0 <= r2 x it.
Proof. apply rsum_nonneg. intros. cbn. rewrite Rmult_1_r. apply Rle_0_sqr. Qed.
Definition on_data (x : nat -> R) (it : nat) := forall k, (k < nx)%nat -> x k = xt it k.
Lemma r2_zero x it : r2 x it = 0 <-> on_data x it.
Proof.
  split.
  - intros H k Hk. assert (E := rsum_zero_inv nx (fun k => (x k - xt it k) ^ 2)). cbv beta in E.
    specialize (E ltac:(intros; cbn; rewrite Rmult_1_r; apply Rle_0_sqr) H k Hk). cbn in E. nra.
  - intros H. apply rsum_zero. intros k Hk. rewrite H by exact Hk. ring.
Qed.
Lemma min_inv x m : let acc := fold_left (fun acc it => if Rlt_dec (r2 x it) (fst acc) then (r2 x it, it) else acc) (seq 0 m) (1, 0%nat) in
  (fst acc = 0 /\ (snd acc < m)%nat /\ r2 x (snd acc) = 0 /\ (forall j, (j < snd acc)%nat -> r2 x j <> 0)) \/
  (0 < fst acc /\ forall j, (j < m)%nat -> r2 x j <> 0).
Proof.
  induction m as [|m IH]; cbn zeta in *; [right; split; [cbn; lra|intros; lia]|].
  rewrite seq_S, fold_left_app. cbn [fold_left]. set (acc := fold_left _ (seq 0 m) _) in *.
  change (0 + m)%nat with m. pose proof (r2_nonneg x m) as N.
  destruct IH as [(A & B & C & D)|(A & B)].
  - destruct (Rlt_dec (r2 x m) (fst acc)) as [L|L]; [lra|]. left. repeat split; try assumption; lia.
  - destruct (Rlt_dec (r2 x m) (fst acc)) as [L|L]; cbn [fst snd].
    + destruct (Req_dec (r2 x m) 0) as [Z|Z].
      * left. repeat split; auto; lia.
      * right. split; [lra|]. intros j Hj. destruct (Nat.eq_dec j m) as [->|]; [exact Z|apply B; lia].
    + right. split; [exact A|]. intros j Hj. destruct (Nat.eq_dec j m) as [->|]; [lra|apply B; lia].
Qed.
Lemma min_on x i : (i < nt)%nat -> on_data x i -> (forall j, (j < i)%nat -> ~ on_data x j) -> fst (idw_min nx nt xt x) = 0 /\ snd (idw_min nx nt xt x) = i.
Proof.
  intros Hi O F. apply r2_zero in O. destruct (min_inv x nt) as [(A & B & C & D)|(A & B)]; fold (idw_min nx nt xt x) in *.
  - split; [exact A|]. destruct (Nat.lt_trichotomy (snd (idw_min nx nt xt x)) i) as [L|[E|L]]; [|exact E|].
    + exfalso. apply (F _ L). apply r2_zero. exact C.
    + exfalso. apply (D i L). exact O.
  - exfalso. apply (B i Hi O).
Qed.
Lemma min_off x : (forall i, (i < nt)%nat -> ~ on_data x i) -> fst (idw_min nx nt xt x) <> 0.
Proof.
  intros F. destruct (min_inv x nt) as [(A & B & C & D)|(A & B)]; fold (idw_min nx nt xt x) in *; [|lra].
  exfalso. apply (F _ B). apply r2_zero. exact C.
Qed.
Lemma first_or_none x m : (forall i, (i < m)%nat -> ~ on_data x i) \/ exists i, (i < m)%nat /\ on_data x i /\ forall j, (j < i)%nat -> ~ on_data x j.
Proof.
  induction m as [|m [IH|(i & Hi & A & B)]]; [left; intros; lia| |right; exists i; split; [lia|auto]].
  destruct (Req_dec (r2 x m) 0) as [Z|Z].
  - right. exists m. split; [lia|]. split; [apply r2_zero; exact Z|exact IH].
  - left. intros i Hi O. destruct (Nat.eq_dec i m) as [->|]; [apply Z; apply r2_zero; exact O|apply (IH i); [lia|exact O]].
Qed.
Lemma value_on yt x i : (i < nt)%nat -> on_data x i -> (forall j, (j < i)%nat -> ~ on_data x j) -> idw_value nx nt p xt yt x = yt i.
Proof.
  intros Hi O F. destruct (min_on x i Hi O F) as (A & B). unfold idw_value, idw_jac. rewrite A, B.
  rewrite <- (rsum_single nt yt i Hi). apply rsum_ext. intros j Hj. destruct (Req_EM_T 0 0) as [_|C]; [|lra]. destruct (Nat.eqb j i); ring.
Qed.
Lemma w_pos x it : 0 < w x it.
Proof. apply exp_pos. Qed.
Lemma sum_pos x : (0 < nt)%nat -> 0 < rsum nt (w x).
Proof. intros H. apply (rsum_pos nt _ 0%nat); [intros; apply Rlt_le, w_pos|exact H|apply w_pos]. Qed.
Lemma value_off yt x : (forall i, (i < nt)%nat -> ~ on_data x i) -> idw_value nx nt p xt yt x = rsum nt (fun it => w x it * yt it) / rsum nt (w x).
Proof.
  intros F. unfold idw_value, idw_jac. destruct (Req_EM_T _ 0) as [C|_]; [apply min_off in F; contradiction|].
  unfold Rdiv. rewrite <- rsum_scal_r. apply rsum_ext. intros. ring.
Qed.
Lemma jac_convex x : (0 < nt)%nat -> (forall it, (it < nt)%nat -> 0 <= idw_jac nx nt p xt x it) /\ rsum nt (idw_jac nx nt p xt x) = 1.
Proof.
  intros Hn. unfold idw_jac. destruct (first_or_none x nt) as [F|(i & Hi & O & F)].
  - pose proof (min_off x F). destruct (Req_EM_T _ 0) as [C|_]; [contradiction|]. pose proof (sum_pos x Hn). split.
    + intros it _. apply Rlt_le. apply Rdiv_lt_0_compat; [apply w_pos|assumption].
    + unfold Rdiv. rewrite rsum_scal_r. field. lra.
  - destruct (min_on x i Hi O F) as (A & B). rewrite A, B. destruct (Req_EM_T 0 0) as [_|C]; [|lra]. split.
    + intros it _. destruct (Nat.eqb it i); lra.
    + apply (rsum_single nt (fun _ => 1) i Hi).
Qed.
Lemma value_bounds yt x l u : (0 < nt)%nat -> (forall it, (it < nt)%nat -> l <= yt it <= u) -> l <= idw_value nx nt p xt yt x <= u.
Proof.
  intros Hn B. destruct (jac_convex x Hn) as (P & S). unfold idw_value. split.
  - replace l with (rsum nt (fun it => idw_jac nx nt p xt x it * l)) by (rewrite rsum_scal_r, S; ring).
    apply rsum_le. intros it Hi. apply Rmult_le_compat_l; [apply P; exact Hi|apply B; exact Hi].
  - replace u with (rsum nt (fun it => idw_jac nx nt p xt x it * u)) by (rewrite rsum_scal_r, S; ring).
    apply rsum_le. intros it Hi. apply Rmult_le_compat_l; [apply P; exact Hi|apply B; exact Hi].
Qed.
(** one coordinate moves *)
Lemma r2_upd x k t it : (k < nx)%nat -> r2 (upd x k t) it = r2 x it - (x k - xt it k) ^ 2 + (t - xt it k) ^ 2.
Proof.
  intros Hk. unfold idw_r2. rewrite (rsum_split nx (fun ix => (upd x k t ix - xt it ix) ^ 2) k Hk), (rsum_split nx (fun ix => (x ix - xt it ix) ^ 2) k Hk).
  rewrite upd_eq. rewrite (rsum_ext nx (fun i => if Nat.eqb i k then 0 else (upd x k t i - xt it i) ^ 2) (fun i => if Nat.eqb i k then 0 else (x i - xt it i) ^ 2)); [ring|].
  intros i Hi. destruct (Nat.eqb_spec i k); [reflexivity|]. rewrite upd_neq by assumption. reflexivity.
Qed.
Lemma w_derive x k it : (k < nx)%nat -> r2 x it <> 0 -> is_derive (fun t => w (upd x k t) it) (x k) (idw_dw nx p xt x k it).
Proof.
  intros Hk N. pose proof (r2_nonneg x it).
  set (c := r2 x it - (x k - xt it k) ^ 2). 
  apply (is_derive_ext (fun t : R => exp (- p / 2 * ln (c + (t - xt it k) ^ 2)))).
  - intros t. unfold idw_w, Rpower. rewrite r2_upd by exact Hk. reflexivity.
  - assert (E : c + (x k - xt it k) ^ 2 = r2 x it) by (unfold c; ring).
    unfold idw_dw, Rpower. rewrite <- E at 1. set (a := xt it k) in *. set (s := x k) in *.
    assert (P : 0 < c + (s - a) ^ 2) by (rewrite E; lra).
    auto_derive; [exact P|].
    replace ((- p / 2 - 1) * ln (c + (s - a) ^ 2)) with (- p / 2 * ln (c + (s - a) ^ 2) + - ln (c + (s - a) ^ 2)) by ring.
    rewrite exp_plus, exp_Ropp, exp_ln by exact P.
    replace (c + (s + - a) * ((s + - a) * 1)) with (c + (s - a) ^ 2) by ring.
    generalize (exp (- p / 2 * ln (c + (s - a) ^ 2))). intros e. generalize P. generalize (c + (s - a) ^ 2). intros v Pv. field. lra.
Qed.
Lemma off_near x k : (k < nx)%nat -> (forall i, (i < nt)%nat -> ~ on_data x i) ->
  locally (x k) (fun t => forall i, (i < nt)%nat -> ~ on_data (upd x k t) i).
Proof.
  intros Hk F.
  assert (G : forall m, (m <= nt)%nat -> locally (x k) (fun t => forall i, (i < m)%nat -> ~ on_data (upd x k t) i)).
  { induction m as [|m IH]; intros Hm; [apply filter_forall; intros t i Hi; lia|].
    assert (L : locally (x k) (fun t => ~ on_data (upd x k t) m)).
    { assert (C : continuous (fun t => r2 (upd x k t) m) (x k)).
      { apply (continuous_ext (fun t : R => r2 x m - (x k - xt m k) ^ 2 + (t - xt m k) ^ 2)); [intros t; rewrite r2_upd by exact Hk; reflexivity|].
        apply (ex_derive_continuous (fun t : R => r2 x m - (x k - xt m k) ^ 2 + (t - xt m k) ^ 2)). auto_derive. exact I. }
      assert (P : 0 < r2 (upd x k (x k)) m).
      { rewrite r2_upd by exact Hk. pose proof (r2_nonneg x m). assert (r2 x m <> 0) by (intros Z; apply (F m); [lia|apply r2_zero; exact Z]). lra. }
      specialize (C (fun y => 0 < y) (open_gt 0 _ P)). unfold filtermap in C.
      refine (filter_imp _ _ _ C). intros t Ht O. apply r2_zero in O. lra. }
    specialize (IH ltac:(lia)). pose proof (filter_and _ _ L IH) as LL. refine (filter_imp _ _ _ LL). intros t (A & B) i Hi.
    destruct (Nat.eq_dec i m) as [->|]; [exact A|apply B; lia]. }
  apply G. lia.
Qed.
Lemma derivative_off yt x k : (0 < nt)%nat -> (k < nx)%nat -> (forall i, (i < nt)%nat -> ~ on_data x i) ->
  is_partial (idw_value nx nt p xt yt) x k (idw_derivative nx nt p xt yt k x).
Proof.
  intros Hn Hk F. unfold is_partial.
  apply (is_derive_ext_loc (fun t => rsum nt (fun it => w (upd x k t) it * yt it) / rsum nt (w (upd x k t)))).
  - refine (filter_imp _ _ _ (off_near x k Hk F)). intros t Ht. symmetry. apply value_off. exact Ht.
  - assert (N : forall it, (it < nt)%nat -> r2 x it <> 0) by (intros it Hi Z; apply (F it Hi); apply r2_zero; exact Z).
    assert (W : forall it, w (upd x k (x k)) it = w x it).
    { intros it. unfold idw_w. rewrite r2_upd by exact Hk. f_equal. ring. }
    assert (D1 : is_derive (fun t => rsum nt (fun it => w (upd x k t) it * yt it)) (x k) (rsum nt (fun it => idw_dw nx p xt x k it * yt it))).
    { apply (is_derive_rsum nt (fun it t => w (upd x k t) it * yt it)). intros it Hi. apply (is_derive_scal_l (fun t => w (upd x k t) it) (x k) (idw_dw nx p xt x k it) (yt it)). apply w_derive; auto. }
    assert (D2 : is_derive (fun t => rsum nt (w (upd x k t))) (x k) (rsum nt (idw_dw nx p xt x k))).
    { apply (is_derive_rsum nt (fun it t => w (upd x k t) it)). intros it Hi. apply w_derive; auto. }
    pose proof (sum_pos x Hn) as S.
    assert (S1 : rsum nt (w (upd x k (x k))) = rsum nt (w x)) by (apply rsum_ext; intros; apply W).
    evar_last.
    + apply (is_derive_div _ _ _ _ _ D1 D2). rewrite S1. lra.
    + rewrite S1. rewrite (rsum_ext nt (fun it => w (upd x k (x k)) it * yt it) (fun it => w x it * yt it)) by (intros; rewrite W; reflexivity).
      unfold idw_derivative, idw_djac. destruct (Req_EM_T _ 0) as [C|_]; [apply min_off in F; contradiction|].
      set (s := rsum nt (w x)) in *. set (ds := rsum nt (idw_dw nx p xt x k)).
      rewrite (rsum_ext nt (fun it => (idw_dw nx p xt x k it * s - w x it * ds) / s ^ 2 * yt it) (fun it => (s * / s ^ 2) * (idw_dw nx p xt x k it * yt it) - (ds * / s ^ 2) * (w x it * yt it))) by (intros; field; lra).
      rewrite rsum_minus, !rsum_scal_l. field. lra.
Qed.
End P.
