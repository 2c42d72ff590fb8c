(** A QR factorisation and a condition number meeting the contracts of Krg_S.v: Gram-Schmidt with
    completion.  Used only to show that the theorems of Krg_T.v are about something. *)
From Coq Require Import Reals Arith Bool List Lia Lra.
From Verif Require Import RSum Mat Tri_M Tri_P Kernels_M Kernels_P3 Krg_M Krg_S Krg_P Krg_P2 Krg_P3.
Open Scope R_scope.

Definition col (A : mat) (j : nat) : vec := fun a => A a j.
Definition ortho (n k : nat) (Q : mat) : Prop := forall i j, (i < k)%nat -> (j < k)%nat -> dot n (col Q i) (col Q j) = if Nat.eqb i j then 1 else 0.
(** the part of v orthogonal to the first k columns *)
Definition resid (n k : nat) (Q : mat) (v : vec) : vec := fun a => v a - rsum k (fun l => dot n (col Q l) v * Q a l).
Lemma resid_orth n k Q v l : ortho n k Q -> (l < k)%nat -> dot n (col Q l) (resid n k Q v) = 0.
Proof.
  intros O Hl. unfold resid. rewrite dot_minus_r. rewrite (dot_rsum_r n k (col Q l) (fun c a => dot n (col Q c) v * Q a c)).
  rewrite (rsum_ext k _ (fun c => if Nat.eqb c l then dot n (col Q c) v else 0)).
  - rewrite rsum_single by exact Hl. ring.
  - intros c Hc. rewrite dot_scal_r. change (fun i => Q i c) with (col Q c). rewrite O by assumption. rewrite (Nat.eqb_sym c l). destruct (Nat.eqb l c); ring.
Qed.
Lemma resid_self n k Q v : ortho n k Q -> dot n (resid n k Q v) (resid n k Q v) = dot n v v - rsum k (fun l => (dot n (col Q l) v) ^ 2).
Proof.
  intros O. unfold resid at 1. rewrite dot_minus_l. rewrite (dot_rsum_l n k (resid n k Q v) (fun c a => dot n (col Q c) v * Q a c)).
  rewrite (rsum_zero k). 2:{ intros c Hc. rewrite dot_scal_l. change (fun i => Q i c) with (col Q c). rewrite resid_orth by assumption. ring. }
  unfold resid. rewrite dot_minus_r. rewrite (dot_rsum_r n k v (fun c a => dot n (col Q c) v * Q a c)). rewrite Rminus_0_r. f_equal. apply rsum_ext. intros c Hc. rewrite dot_scal_r. change (fun i => Q i c) with (col Q c). rewrite (dot_sym n v). ring.
Qed.
Definition unit_vec (i : nat) : vec := fun a => if Nat.eqb a i then 1 else 0.
Lemma dot_unit n v i : (i < n)%nat -> dot n v (unit_vec i) = v i.
Proof. intros Hi. unfold dot, unit_vec. rewrite (rsum_ext n _ (fun a => if Nat.eqb a i then v a else 0)) by (intros a _; destruct (Nat.eqb a i); ring). apply (rsum_single n v i Hi). Qed.
(** first index with a positive value *)
Fixpoint findpos (n : nat) (f : vec) : nat := match n with O => O | S m => if Rlt_dec 0 (f m) then m else findpos m f end.
Lemma findpos_spec n f : 0 < rsum n f -> (findpos n f < n)%nat /\ 0 < f (findpos n f).
Proof.
  induction n as [|n IH]; cbn [rsum findpos]; intros H; [lra|]. destruct (Rlt_dec 0 (f n)) as [P|P]; [split; [lia|exact P]|]. destruct IH as [A B]; [lra|]. split; [lia|exact B].
Qed.
Definition cand (n k : nat) (Q : mat) (i : nat) : vec := resid n k Q (unit_vec i).
Definition fresh (n k : nat) (Q : mat) : vec := cand n k Q (findpos n (fun i => dot n (cand n k Q i) (cand n k Q i))).
Lemma fresh_pos n k Q : ortho n k Q -> (k < n)%nat -> 0 < dot n (fresh n k Q) (fresh n k Q).
Proof.
  intros O H. unfold fresh. apply (findpos_spec n (fun i => dot n (cand n k Q i) (cand n k Q i))).
  rewrite (rsum_ext n _ (fun i => 1 - rsum k (fun l => Q i l * Q i l))).
  2:{ intros i Hi. unfold cand. rewrite resid_self by exact O. rewrite dot_unit by exact Hi. unfold unit_vec at 1. rewrite Nat.eqb_refl. f_equal. apply rsum_ext. intros l Hl. rewrite dot_unit by exact Hi. unfold col. ring. }
  rewrite rsum_minus, rsum_const, rsum_swap. rewrite (rsum_ext k _ (fun _ => 1)).
  - rewrite rsum_const. assert (INR k < INR n) by (apply lt_INR; exact H). lra.
  - intros l Hl. pose proof (O l l Hl Hl) as E. rewrite Nat.eqb_refl in E. exact E.
Qed.
Definition setcol (A : mat) (k : nat) (v : vec) : mat := fun a j => if Nat.eqb j k then v a else A a j.
Fixpoint gs (n : nat) (A : mat) (k : nat) : mat * mat :=
  match k with
  | O => (fun _ _ => 0, fun _ _ => 0)
  | S k => let (Q, G) := gs n A k in
      let v := resid n k Q (col A k) in
      let d := dot n v v in
      let w := if Rlt_dec 0 d then v else fresh n k Q in
      (setcol Q k (fun a => w a / sqrt (dot n w w)),
       setcol G k (fun i => if Nat.ltb i k then dot n (col Q i) (col A k) else if Nat.eqb i k then sqrt d else 0))
  end.
Lemma gs_out n A k : forall a j, (k <= j)%nat -> fst (gs n A k) a j = 0.
Proof. induction k as [|k IH]; intros a j H; [reflexivity|]. cbn [gs]. destruct (gs n A k) as [Q G]. cbn [fst] in *. unfold setcol. destruct (Nat.eqb_spec j k); [lia|apply IH; lia]. Qed.
Lemma gs_ok n A k : (k <= n)%nat -> ortho n k (fst (gs n A k)) /\
  (forall a j, (a < n)%nat -> (j < k)%nat -> A a j = rsum k (fun l => fst (gs n A k) a l * snd (gs n A k) l j)) /\
  (forall i j, (j < i)%nat -> snd (gs n A k) i j = 0).
Proof.
  induction k as [|k IH]; intros Hk; [split; [|split]; intros i j; intros; try lia; reflexivity|]. destruct (IH ltac:(lia)) as (O & E & U). cbn [gs]. destruct (gs n A k) as [Q G]. cbn [fst snd] in *. cbv zeta.
  set (v := resid n k Q (col A k)). set (d := dot n v v). set (w := if Rlt_dec 0 d then v else fresh n k Q).
  assert (Wp : 0 < dot n w w) by (unfold w; destruct (Rlt_dec 0 d); [assumption|apply fresh_pos; [exact O|lia]]).
  assert (Wo : forall l, (l < k)%nat -> dot n (col Q l) w = 0) by (intros l Hl; unfold w; destruct (Rlt_dec 0 d); [|unfold fresh, cand]; apply resid_orth; assumption).
  assert (Sp : 0 < sqrt (dot n w w)) by (apply sqrt_lt_R0; exact Wp).
  assert (Dn : 0 <= d) by apply dot_self_nonneg.
  assert (V : forall a, (a < n)%nat -> v a = sqrt d * (w a / sqrt (dot n w w))).
  { intros a Ha. unfold w in *. destruct (Rlt_dec 0 d) as [P|P].
    - fold d. fold d in Sp. field. lra.
    - assert (D0 : d = 0) by lra. rewrite D0, sqrt_0, Rmult_0_l. apply (dot_self_zero n v); [exact D0|exact Ha]. }
  assert (CQ : forall l, (l < k)%nat -> col (setcol Q k (fun a => w a / sqrt (dot n w w))) l = col Q l).
  { intros l Hl. unfold col, setcol. destruct (Nat.eqb_spec l k); [lia|reflexivity]. }
  assert (CK : col (setcol Q k (fun a => w a / sqrt (dot n w w))) k = fun a => / sqrt (dot n w w) * w a).
  { unfold col, setcol. rewrite Nat.eqb_refl. apply FunctionalExtensionality.functional_extensionality. intros a. unfold Rdiv. ring. }
  split; [|split].
  - intros i j Hi Hj. destruct (Nat.eq_dec i k) as [-> | Ni]; destruct (Nat.eq_dec j k) as [-> | Nj].
    + rewrite CK, dot_scal_l, dot_scal_r, Nat.eqb_refl. rewrite <- (sqrt_sqrt (dot n w w)) at 3 by lra. field. lra.
    + rewrite CK, CQ by lia. rewrite dot_scal_l, (dot_sym n w (col Q j)), Wo by lia. destruct (Nat.eqb_spec k j); [lia|ring].
    + rewrite CK, CQ by lia. rewrite dot_scal_r, Wo by lia. destruct (Nat.eqb_spec i k); [lia|ring].
    + rewrite !CQ by lia. apply O; lia.
  - intros a j Ha Hj. destruct (Nat.eq_dec j k) as [-> | Nj]; cbn [rsum].
    + unfold setcol. rewrite !Nat.eqb_refl, Nat.ltb_irrefl. rewrite (rsum_ext k _ (fun l => dot n (col Q l) (col A k) * Q a l)).
      * pose proof (V a Ha) as E1. unfold v, resid in E1. change (A a k) with (col A k a). fold d. lra.
      * intros l Hl. destruct (Nat.eqb_spec l k); [lia|]. destruct (Nat.ltb_spec l k); [ring|lia].
    + rewrite (rsum_ext k _ (fun l => Q a l * G l j)).
      * unfold setcol. destruct (Nat.eqb_spec j k); [lia|]. rewrite (U k j) by lia. rewrite Rmult_0_r, Rplus_0_r. apply E; [exact Ha|lia].
      * intros l Hl. unfold setcol. destruct (Nat.eqb_spec l k); [lia|]. destruct (Nat.eqb_spec j k); [lia|reflexivity].
  - intros i j Hij. unfold setcol. destruct (Nat.eqb_spec j k) as [-> | Nj]; [|apply U; exact Hij]. destruct (Nat.ltb_spec i k); [lia|]. destruct (Nat.eqb_spec i k); [lia|reflexivity].
Qed.
Definition gs_qr (n p : nat) (A : mat) : mat * mat := gs n A p.
Lemma gs_contract : qr_contract gs_qr.
Proof.
  intros n p A H. unfold gs_qr. destruct (gs_ok n A p H) as (O & E & U). destruct (gs n A p) as [Q G]. cbn [fst snd] in *. split; [|split]; [exact O|exact E|]. intros; apply U; assumption.
Qed.
(** 1 if the triangular matrix is regular, else 0 *)
Definition rcond01 (p : nat) (G : mat) : R := if Req_EM_T (rprod p (fun i => G i i)) 0 then 0 else 1.
Lemma rprod_nz n f : (forall i, (i < n)%nat -> f i <> 0) <-> rprod n f <> 0.
Proof.
  induction n as [|n IH]; cbn [rprod]; [split; [intros _; lra|intros _ i Hi; lia]|]. split.
  - intros H. apply Rmult_integral_contrapositive_currified; [apply IH; intros; apply H; lia|apply H; lia].
  - intros H i Hi. destruct (Nat.eq_dec i n) as [-> | N]; [intros E; apply H; rewrite E; ring|]. apply IH; [|lia]. intros E. apply H. rewrite E. ring.
Qed.
Lemma rcond01_contract : rcond_contract rcond01.
Proof.
  intros p G U (x & (i & Hi & Nz) & Hx). unfold rcond01. destruct (Req_EM_T _ 0) as [|N]; [reflexivity|]. exfalso. apply Nz. apply (upper_inj p G U); [|exact Hx|exact Hi]. intros k Hk. apply (proj2 (rprod_nz p (fun i => G i i)) N k Hk).
Qed.
(** with these, training succeeds exactly when it should *)
Definition cond0 (n p : nat) (F : mat) : R := 0.
Lemma gs_regular n p A : (p <= n)%nat -> (forall b : vec, (forall a, (a < n)%nat -> mv p A b a = 0) -> forall j, (j < p)%nat -> b j = 0) -> diagnz p (snd (gs n A p)).
Proof.
  intros Hp Hr. destruct (gs_ok n A p Hp) as (_ & E & U). apply upper_diagnz; [intros i j _ H; apply U; exact H|]. intros x Hx. apply Hr. intros a Ha. unfold mv.
  rewrite (rsum_ext p _ (fun j => rsum p (fun l => fst (gs n A p) a l * (snd (gs n A p) l j * x j)))). 2:{ intros j Hj. rewrite (E a j Ha Hj), <- rsum_scal_r. apply rsum_ext. intros; ring. }
  rewrite rsum_swap. apply rsum_zero. intros l Hl. rewrite rsum_scal_l. pose proof (Hx l Hl) as Z. unfold mv in Z. rewrite Z. ring.
Qed.
Lemma train_gs nx nt po s nugget noise X y : (2 <= nt)%nat -> (n_regr po nx <= nt)%nat -> mpd nt (corr_matrix s nx nt (Xnorm nt X) nugget noise) ->
  (forall b : vec, (forall a, (a < nt)%nat -> mv (n_regr po nx) (Fmat po nx nt X) b a = 0) -> forall j, (j < n_regr po nx)%nat -> b j = 0) ->
  exists m, krg_train gs_qr rcond01 cond0 nx nt po s nugget noise X y = Some m.
Proof.
  intros Ht Hp PD Hr. unfold krg_train. cbv zeta. destruct (Nat.leb_spec nt 1); [lia|]. destruct (Nat.ltb_spec nt (n_regr po nx)); [lia|]. unfold reduced_likelihood.
  destruct (chol_complete nt _ (corr_matrix_sym s nx nt (Xnorm nt X) nugget noise) PD) as [C EC]. rewrite EC. cbv zeta. unfold gs_qr. pose proof (chol_sound _ _ _ EC) as FC.
  set (Ft := fun i j : nat => _). pose proof (gs_regular nt (n_regr po nx) Ft Hp) as Rg. destruct (gs nt Ft (n_regr po nx)) as [Q G]. cbn [snd] in Rg.
  destruct (Rlt_dec (rcond01 _ G) _) as [L|L]; [exfalso|eexists; reflexivity]. unfold rcond01 in L. destruct (Req_EM_T _ 0) as [Z|Z].
  - revert Z. apply rprod_nz. apply Rg. intros b Hb. apply Hr. intros a Ha. transitivity (mv nt C (mv (n_regr po nx) Ft b) a).
    + unfold mv. rewrite (rsum_ext nt _ (fun k => rsum (n_regr po nx) (fun j => C a k * Ft k j * b j))) by (intros k Hk; rewrite <- rsum_scal_l; apply rsum_ext; intros; ring). rewrite rsum_swap. apply rsum_ext. intros j Hj. rewrite rsum_scal_r. f_equal. unfold Ft, Fmat. symmetry. apply (fsub_solves nt C (fun a => fvec po nx (Xnorm nt X a) j)); [apply (chol_lower _ _ _ FC)|apply (chol_diag _ _ _ FC)|exact Ha].
    + apply mv_zero. exact Hb.
  - assert (1 / 10 ^ 10 < 1); [|lra]. unfold Rdiv. rewrite Rmult_1_l. rewrite <- Rinv_1. apply Rinv_lt_contravar; [|]; assert (1 < 10 ^ 10) by (apply Rlt_pow_R1; [lra|lia]); lra.
Qed.
Lemma constant_regular nx nt X : (1 <= nt)%nat -> forall b : vec, (forall a, (a < nt)%nat -> mv (n_regr PConstant nx) (Fmat PConstant nx nt X) b a = 0) -> forall j, (j < n_regr PConstant nx)%nat -> b j = 0.
Proof. intros H b Hb j Hj. cbn in Hj. assert (j = 0%nat) as -> by lia. pose proof (Hb 0%nat ltac:(lia)) as E. unfold mv, Fmat in E. cbn in E. lra. Qed.
