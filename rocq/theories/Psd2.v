(** Strict positive definiteness of the Gaussian kernel at distinct points. *)
From Coq Require Import Reals Arith Bool List Lia Lra.
From Coquelicot Require Import Coquelicot.
From Verif Require Import RSum Mat Psd.
Open Scope R_scope.

Lemma quad_zero b c : (forall t, 0 <= 2 * t * b + t ^ 2 * c) -> b = 0.
Proof.
  intros H. destruct (Rtotal_order b 0) as [N|[E|P]]; [|exact E|].
  - destruct (Rle_dec c 0) as [C|C].
    + specialize (H 1). nra.
    + specialize (H (- b / c)). replace (2 * (- b / c) * b + (- b / c) ^ 2 * c) with (- (b ^ 2) / c) in H by (field; lra).
      assert (0 < b ^ 2 / c) by (apply Rdiv_lt_0_compat; nra). lra.
  - destruct (Rle_dec c 0) as [C|C].
    + specialize (H (-1)). nra.
    + specialize (H (- b / c)). replace (2 * (- b / c) * b + (- b / c) ^ 2 * c) with (- (b ^ 2) / c) in H by (field; lra).
      assert (0 < b ^ 2 / c) by (apply Rdiv_lt_0_compat; nra). lra.
Qed.
(** a zero of the form of a symmetric positive semidefinite matrix is in its kernel *)
Lemma psd_kernel n A x : msym n A -> mpsd n A -> dot n x (mv n A x) = 0 -> forall i, (i < n)%nat -> mv n A x i = 0.
Proof.
  intros S P Z i Hi. set (e := fun j => if Nat.eqb j i then 1 else 0).
  assert (De : forall y, dot n e y = y i).
  { intros y. unfold dot, e. rewrite (rsum_ext n _ (fun j => if Nat.eqb j i then y j else 0)); [apply rsum_single; exact Hi|].
    intros j Hj. destruct (Nat.eqb j i); ring. }
  rewrite <- (De (mv n A x)). apply (quad_zero _ (dot n e (mv n A e))). intros t.
  pose proof (P (fun j => x j + t * e j)) as Q.
  rewrite (dot_ext n _ (mv n A (fun j => x j + t * e j)) (fun j => x j + t * e j) (fun j => mv n A x j + t * mv n A e j)) in Q;
    [|reflexivity|intros j Hj; rewrite mv_plus, mv_scal; reflexivity].
  rewrite dot_plus_l, !dot_plus_r, !dot_scal_l, !dot_scal_r, Z, (dot_mv_sym n A x e S) in Q. lra.
Qed.

Definition distinct (nx n : nat) (p : nat -> vec) : Prop :=
  forall i j, (i < n)%nat -> (j < n)%nat -> i <> j -> ~ (forall k, (k < nx)%nat -> p i k = p j k).

(** an index of a nonzero coefficient maximising a real function *)
Lemma max_nonzero n (c : vec) (g : vec) : (exists i, (i < n)%nat /\ c i <> 0) ->
  exists i, (i < n)%nat /\ c i <> 0 /\ forall j, (j < n)%nat -> c j <> 0 -> g j <= g i.
Proof.
  induction n as [|n IH]; intros (i & Hi & Ci); [lia|].
  destruct (nonzero_dec n c) as [W|W].
  - destruct (IH W) as (m & Hm & Cm & M).
    destruct (Req_EM_T (c n) 0) as [E|E].
    + exists m. repeat split; [lia|exact Cm|]. intros j Hj Cj. destruct (Nat.eq_dec j n) as [-> | N]; [contradiction|apply M; [lia|exact Cj]].
    + destruct (Rle_dec (g n) (g m)) as [L|L].
      * exists m. repeat split; [lia|exact Cm|]. intros j Hj Cj. destruct (Nat.eq_dec j n) as [-> | N]; [exact L|apply M; [lia|exact Cj]].
      * exists n. repeat split; [lia|exact E|]. intros j Hj Cj. destruct (Nat.eq_dec j n) as [-> | N]; [lra|]. specialize (M j ltac:(lia) Cj). lra.
  - assert (i = n) as -> by (destruct (Nat.eq_dec i n) as [E|N]; [exact E|exfalso; apply Ci, W; lia]).
    exists n. repeat split; [lia|exact Ci|]. intros j Hj Cj. destruct (Nat.eq_dec j n) as [-> | N]; [lra|]. exfalso. apply Cj, W. lia.
Qed.
Lemma exp_neg_lim a : a < 0 -> is_lim_seq (fun m => exp (INR m * a)) 0.
Proof.
  intros Ha. apply (is_lim_seq_ext (fun m => (exp a) ^ m)).
  - intros m. induction m as [|m IH]; [cbn; rewrite Rmult_0_l, exp_0; reflexivity|].
    cbn [pow]. rewrite IH, S_INR, <- exp_plus. f_equal. ring.
  - apply is_lim_seq_geom. rewrite Rabs_right; [|apply Rle_ge, Rlt_le, exp_pos]. rewrite <- exp_0. apply exp_increasing. exact Ha.
Qed.
(** exponentials of distinct linear forms are linearly independent *)
Lemma exp_independent nx n (b : nat -> vec) (c : vec) : distinct nx n b ->
  (forall x, rsum n (fun i => c i * exp (dot nx x (b i))) = 0) -> forall i, (i < n)%nat -> c i = 0.
Proof.
  intros D H. destruct (nonzero_dec n c) as [W|W]; [|exact W]. exfalso.
  destruct (max_nonzero n c (fun i => dot nx (b i) (b i)) W) as (i & Hi & Ci & M).
  assert (Neg : forall j, (j < n)%nat -> j <> i -> c j <> 0 -> dot nx (b i) (b j) - dot nx (b i) (b i) < 0).
  { intros j Hj N Cj. specialize (M j Hj Cj).
    destruct (nonzero_dec nx (fun k => b i k - b j k)) as [(k & Hk & E)|E].
    - pose proof (dot_self_pos nx (fun k => b i k - b j k) k Hk E) as P.
      rewrite dot_minus_l, !dot_minus_r, (dot_sym nx (b j) (b i)) in P. lra.
    - exfalso. apply (D i j Hi Hj); [congruence|]. intros k Hk. specialize (E k Hk). cbn in E. lra. }
  assert (L : is_lim_seq (fun m => rsum n (fun j => c j * exp (INR m * (dot nx (b i) (b j) - dot nx (b i) (b i))))) (rsum n (fun j => if Nat.eqb j i then c j else 0))).
  { apply (is_lim_seq_rsum n (fun m j => c j * exp (INR m * (dot nx (b i) (b j) - dot nx (b i) (b i))))). intros j Hj.
    destruct (Nat.eqb_spec j i) as [-> | N].
    - apply (is_lim_seq_ext (fun _ => c i)); [|apply is_lim_seq_const]. intros m. rewrite Rminus_eq_0, Rmult_0_r, exp_0. ring.
    - destruct (Req_EM_T (c j) 0) as [Z|Z].
      + apply (is_lim_seq_ext (fun _ => 0)); [|apply is_lim_seq_const]. intros m. rewrite Z. ring.
      + replace (Finite 0) with (Rbar_mult (Finite (c j)) (Finite 0)) by (cbn; f_equal; ring).
        apply is_lim_seq_scal_l. apply exp_neg_lim. apply Neg; assumption. }
  rewrite (rsum_single n c i Hi) in L.
  apply (is_lim_seq_ext _ (fun _ => 0)) in L.
  - apply is_lim_seq_unique in L. rewrite Lim_seq_const in L. injection L as L. apply Ci. symmetry. exact L.
  - intros m. specialize (H (fun k => INR m * b i k)).
    rewrite (rsum_ext n _ (fun j => exp (- (INR m * dot nx (b i) (b i))) * (c j * exp (dot nx (fun k => INR m * b i k) (b j))))).
    + rewrite rsum_scal_l, H. ring.
    + intros j Hj. rewrite dot_scal_l.
      transitivity (c j * (exp (- (INR m * dot nx (b i) (b i))) * exp (INR m * dot nx (b i) (b j)))); [|ring].
      rewrite <- exp_plus. f_equal. f_equal. ring.
Qed.

(** the Gaussian kernel with one precision per dimension *)
Definition gauss (nx : nat) (th : vec) (x y : vec) : R := exp (- rsum nx (fun k => th k * (x k - y k) ^ 2)).
Lemma gauss_factor nx th x y : gauss nx th x y =
  exp (- rsum nx (fun k => th k * x k ^ 2)) * exp (- rsum nx (fun k => th k * y k ^ 2)) * exp (rsum nx (fun k => 2 * th k * (x k * y k))).
Proof.
  unfold gauss. rewrite <- !exp_plus. f_equal. rewrite <- !rsum_opp, <- !rsum_plus. apply rsum_ext. intros k _. ring.
Qed.
Lemma gauss_sym nx th x y : gauss nx th x y = gauss nx th y x.
Proof. unfold gauss. do 2 f_equal. apply rsum_ext. intros. ring. Qed.
Lemma gauss_smul nx th n (p : nat -> vec) : (forall k, (k < nx)%nat -> 0 <= th k) -> smul n (fun i j => gauss nx th (p i) (p j)).
Proof.
  intros Ht. apply (smul_ext n (fun i j => (exp (- rsum nx (fun k => th k * p i k ^ 2)) * exp (- rsum nx (fun k => th k * p j k ^ 2))) * rprod nx (fun k => exp (2 * th k * (p i k * p j k))))).
  - intros i j _ _. rewrite gauss_factor, rprod_exp. reflexivity.
  - apply (smul_mult n (fun i j => exp (- rsum nx (fun k => th k * p i k ^ 2)) * exp (- rsum nx (fun k => th k * p j k ^ 2))) (fun i j => rprod nx (fun k => exp (2 * th k * (p i k * p j k))))).
    + apply (smul_rank1 n (fun i => exp (- rsum nx (fun k => th k * p i k ^ 2)))).
    + apply (smul_rprod n nx (fun k i j => exp (2 * th k * (p i k * p j k)))). intros k Hk.
      apply (smul_exp_prod n (fun i => p i k) (2 * th k)). specialize (Ht k Hk). lra.
Qed.
(** a kernel (symmetric, positive semidefinite on every finite family) whose form vanishes at c is
    annihilated by c at every point *)
Lemma kernel_annihilates (K : vec -> vec -> R) n (p : nat -> vec) c : (forall x y, K x y = K y x) ->
  (forall m (q : nat -> vec), mpsd m (fun i j => K (q i) (q j))) ->
  dot n c (mv n (fun i j => K (p i) (p j)) c) = 0 -> forall x, rsum n (fun i => c i * K x (p i)) = 0.
Proof.
  intros S P Z x. set (q := fun i => if Nat.ltb i n then p i else x). set (d := fun i => if Nat.ltb i n then c i else 0).
  assert (Qp : forall i, (i < n)%nat -> q i = p i) by (intros i Hi; unfold q; apply Nat.ltb_lt in Hi; rewrite Hi; reflexivity).
  assert (Dc : forall i, (i < n)%nat -> d i = c i) by (intros i Hi; unfold d; apply Nat.ltb_lt in Hi; rewrite Hi; reflexivity).
  assert (Qn : q n = x) by (unfold q; rewrite Nat.ltb_irrefl; reflexivity).
  assert (Dn : d n = 0) by (unfold d; rewrite Nat.ltb_irrefl; reflexivity).
  assert (Q := psd_kernel (Datatypes.S n) (fun i j => K (q i) (q j)) d (fun i j _ _ => S _ _) (P _ q)).
  assert (F : dot (Datatypes.S n) d (mv (Datatypes.S n) (fun i j => K (q i) (q j)) d) = 0).
  { unfold dot. cbn [rsum]. rewrite Dn, Rmult_0_l, Rplus_0_r. rewrite <- Z. apply rsum_ext. intros i Hi. rewrite Dc by exact Hi. f_equal.
    unfold mv. cbn [rsum]. rewrite Dn, Rmult_0_r, Rplus_0_r. apply rsum_ext. intros j Hj. rewrite !Qp, Dc by assumption. reflexivity. }
  specialize (Q F n ltac:(lia)). rewrite <- Q. unfold mv. cbn [rsum]. rewrite Dn, Rmult_0_r, Rplus_0_r. apply rsum_ext. intros i Hi.
  rewrite Qn, Qp, Dc by exact Hi. ring.
Qed.
Lemma gauss_mpsd nx th n (p : nat -> vec) : (forall k, (k < nx)%nat -> 0 <= th k) -> mpsd n (fun i j => gauss nx th (p i) (p j)).
Proof. intros H. apply smul_psd. apply gauss_smul. exact H. Qed.
Lemma gauss_pd nx th n (p : nat -> vec) : (forall k, (k < nx)%nat -> 0 < th k) -> distinct nx n p -> mpd n (fun i j => gauss nx th (p i) (p j)).
Proof.
  intros Ht D c W. assert (P0 : forall m (q : nat -> vec), mpsd m (fun i j => gauss nx th (q i) (q j))).
  { intros m q. apply gauss_mpsd. intros k Hk. apply Rlt_le, Ht, Hk. }
  destruct (Rle_lt_or_eq_dec _ _ (P0 n p c)) as [L|E]; [exact L|]. exfalso.
  pose proof (kernel_annihilates (gauss nx th) n p c (gauss_sym nx th) P0 (eq_sym E)) as A.
  assert (Z : forall i, (i < n)%nat -> c i * exp (- rsum nx (fun k => th k * p i k ^ 2)) = 0).
  { apply (exp_independent nx n (fun i k => 2 * th k * p i k)).
    - intros i j Hi Hj N E'. apply (D i j Hi Hj N). intros k Hk. specialize (E' k Hk). cbn in E'. specialize (Ht k Hk). nra.
    - intros x. specialize (A x).
      rewrite (rsum_ext n _ (fun i => exp (- rsum nx (fun k => th k * x k ^ 2)) * (c i * exp (- rsum nx (fun k => th k * p i k ^ 2)) * exp (dot nx x (fun k => 2 * th k * p i k))))) in A.
      + rewrite rsum_scal_l in A. apply Rmult_integral in A. destruct A as [A|A]; [exfalso; pose proof (exp_pos (- rsum nx (fun k => th k * x k ^ 2))); lra|exact A].
      + intros i Hi. rewrite gauss_factor. replace (rsum nx (fun k => 2 * th k * (x k * p i k))) with (dot nx x (fun k => 2 * th k * p i k)); [ring|].
        unfold dot. apply rsum_ext. intros. ring. }
  destruct W as (i & Hi & Ci). specialize (Z i Hi). apply Rmult_integral in Z. destruct Z as [Z|Z]; [contradiction|].
  pose proof (exp_pos (- rsum nx (fun k => th k * p i k ^ 2))). lra.
Qed.
