From Coq Require Import Reals Arith Bool List Lia Lra.
From Coquelicot Require Import Coquelicot.
From Verif Require Import RSum Mat Psd Psd2 Tri_M Tri_P Kernels_M Kernels_P Kernels_P2 Kernels_P3 Krg_M.
Import ListNotations.
Open Scope list_scope.
Open Scope R_scope.

(** ** cross distances *)
Fixpoint off (n k : nat) : nat := match k with O => O | S k' => (off n k' + n - k' - 1)%nat end.
Lemma off_mono n i m : (i <= m)%nat -> (m <= n)%nat -> (off n i <= off n m)%nat.
Proof. intros H Hm. induction H as [|m H IH]; [lia|]. cbn [off]. specialize (IH ltac:(lia)). lia. Qed.
Lemma off_S n i : (i < n)%nat -> (off n (S i) = off n i + (n - i - 1))%nat.
Proof. intros H. cbn [off]. lia. Qed.
Lemma off_closed n k : (k <= n)%nat -> (2 * off n k + k * k + k = 2 * (k * n))%nat.
Proof. induction k as [|k IH]; intros H; [reflexivity|]. rewrite off_S by lia. specialize (IH ltac:(lia)). nia. Qed.
Lemma off_all n : (0 < n)%nat -> off n (n - 1) = n_cross n.
Proof. intros H. pose proof (off_closed n (n - 1) ltac:(lia)) as E. unfold n_cross. apply Nat.div_unique with 0%nat; [lia|]. nia. Qed.
Lemma off_inj n i i' a a' : (i < n)%nat -> (i' < n)%nat -> (a < n - i - 1)%nat -> (a' < n - i' - 1)%nat -> (off n i + a = off n i' + a')%nat -> i = i'.
Proof.
  intros H H' A A' E. destruct (lt_eq_lt_dec i i') as [[L|Q]|L]; [|exact Q|]; exfalso.
  - pose proof (off_mono n (S i) i' L ltac:(lia)). rewrite off_S in H0 by lia. lia.
  - pose proof (off_mono n (S i') i L ltac:(lia)). rewrite off_S in H0 by lia. lia.
Qed.
Section CD.
Variables (n : nat) (X : nat -> vec).
Definition cdI (m : nat) (st : (nat -> nat * nat) * (nat -> vec) * nat) : Prop :=
  let '(ij, D, ll) := st in
  ll = off n m /\ forall p, (p < off n m)%nat -> exists i j, ij p = (i, j) /\ (i < m)%nat /\ (i < j < n)%nat /\ (p = off n i + (j - i - 1))%nat /\ forall c, D p c = X i c - X j c.
Lemma cd_fold m : (m <= n - 1)%nat -> cdI m (fold_left (cd_step n X) (seq 0 m) ((fun _ => (0, 0)%nat), (fun _ _ => 0), 0%nat)).
Proof.
  induction m as [|m IH]; intros H.
  - cbn. split; [reflexivity|]. intros p Hp. lia.
  - rewrite seq_S, fold_left_app. cbn [fold_left Nat.add]. specialize (IH ltac:(lia)).
    destruct (fold_left (cd_step n X) (seq 0 m) _) as [[ij D] ll]. destruct IH as [-> P]. unfold cd_step. split; [cbn [off]; reflexivity|].
    intros p Hp. rewrite off_S in Hp by lia.
    destruct (Nat.leb_spec (off n m) p) as [L|L].
    + replace (Nat.ltb p (off n m + n - m - 1)) with true by (symmetry; apply Nat.ltb_lt; lia). cbn [andb].
      exists m, (m + 1 + (p - off n m))%nat. repeat split; try lia. 
    + cbn [andb]. destruct (P p L) as (i & j & E & A & B & C & F). exists i, j. repeat split; try assumption; try lia.
Qed.
Lemma cd_spec : (0 < n)%nat -> cdI (n - 1) (cross_distances n X).
Proof. intros H. apply cd_fold. lia. Qed.
End CD.
Lemma cd_rows n X : (0 < n)%nat -> snd (cross_distances n X) = n_cross n.
Proof. intros H. pose proof (cd_spec n X H) as S. destruct (cross_distances n X) as [[ij D] ll]. destruct S as [-> _]. apply off_all. exact H. Qed.
Lemma cd_each n X p : (p < n_cross n)%nat -> let '(ij, D, _) := cross_distances n X in
  (fst (ij p) < snd (ij p) < n)%nat /\ forall c, D p c = X (fst (ij p)) c - X (snd (ij p)) c.
Proof.
  intros Hp. assert (H : (0 < n)%nat) by (destruct n; [cbn in Hp; lia|lia]). pose proof (cd_spec n X H) as S. destruct (cross_distances n X) as [[ij D] ll]. destruct S as [_ P].
  rewrite off_all in P by exact H. destruct (P p Hp) as (i & j & E & A & B & C & F). rewrite E. cbn [fst snd]. split; [lia|exact F].
Qed.
Lemma cd_pair n X i j : (i < j < n)%nat -> let '(ij, D, _) := cross_distances n X in
  exists p, (p < n_cross n)%nat /\ ij p = (i, j) /\ forall q, (q < n_cross n)%nat -> ij q = (i, j) -> q = p.
Proof.
  intros Hij. assert (H : (0 < n)%nat) by lia. pose proof (cd_spec n X H) as S. destruct (cross_distances n X) as [[ij D] ll]. destruct S as [_ P].
  rewrite off_all in P by exact H. exists (off n i + (j - i - 1))%nat.
  assert (L : (off n i + (j - i - 1) < n_cross n)%nat). { rewrite <- off_all by exact H. pose proof (off_mono n (S i) (n - 1) ltac:(lia) ltac:(lia)). rewrite off_S in H0 by lia. lia. }
  split; [exact L|]. split.
  - destruct (P _ L) as (i' & j' & E & A & B & C & _). assert (i = i') by (apply (off_inj n i i' (j - i - 1) (j' - i' - 1)); lia). subst i'. rewrite E. f_equal. lia.
  - intros q Hq Eq. destruct (P q Hq) as (i' & j' & E & A & B & C & _). rewrite Eq in E. injection E as <- <-. exact C.
Qed.
(** ** assembly *)
Lemma assign_hit rows idx r A a b v : (exists p, (p < rows)%nat /\ idx p = (a, b)) -> (forall p, (p < rows)%nat -> idx p = (a, b) -> r p = v) -> assign rows idx r A a b = v.
Proof.
  unfold assign. induction rows as [|k IH]; intros (p & Hp & E) H; [lia|].
  rewrite seq_S, fold_left_app. cbn [fold_left Nat.add]. destruct (Nat.eqb_spec a (fst (idx k))) as [Ea|Na]; [destruct (Nat.eqb_spec b (snd (idx k))) as [Eb|Nb]|]; cbn [andb].
  - apply H; [lia|]. rewrite Ea, Eb. apply surjective_pairing.
  - apply IH; [|intros; apply H; [lia|assumption]]. exists p. split; [|exact E]. destruct (Nat.eq_dec p k) as [-> | ]; [rewrite E in Nb; cbn in Nb; congruence|lia].
  - apply IH; [|intros; apply H; [lia|assumption]]. exists p. split; [|exact E]. destruct (Nat.eq_dec p k) as [-> | ]; [rewrite E in Na; cbn in Na; congruence|lia].
Qed.
Lemma assign_miss rows idx r A a b : (forall p, (p < rows)%nat -> idx p <> (a, b)) -> assign rows idx r A a b = A a b.
Proof.
  unfold assign. induction rows as [|k IH]; intros H; [reflexivity|].
  rewrite seq_S, fold_left_app. cbn [fold_left Nat.add]. destruct (Nat.eqb_spec a (fst (idx k))) as [Ea|Na]; [destruct (Nat.eqb_spec b (snd (idx k))) as [Eb|Nb]|]; cbn [andb]; try (apply IH; intros; apply H; lia).
  exfalso. apply (H k ltac:(lia)). rewrite Ea, Eb. apply surjective_pairing.
Qed.
Lemma kf_sym s nx x y : kf s nx x y = kf s nx y x.
Proof.
  destruct s as [c th|c nc co th]; unfold kf, kd; [apply corr_sym|].
  assert (E : forall D D', (forall j, Rabs (D j) = Rabs (D' j)) -> comp_dist_pls c nx co D = comp_dist_pls c nx co D' \/ forall l, comp_dist_pls c nx co D l = comp_dist_pls c nx co D' l).
  { intros D D' H. right. intros l. unfold comp_dist_pls. destruct c; apply rsum_ext; intros j _; try (rewrite H; reflexivity). rewrite <- (pow2_abs (D j)), H, pow2_abs. reflexivity. }
  assert (K : forall d d' : vec, (forall l, d l = d' l) -> kernel c nc 0 th d None None = kernel c nc 0 th d' None None).
  { intros d d' H. destruct c; cbn [kernel]; unfold k_exp, k_m52, k_m32, k_act, act_dA; repeat (f_equal; try (apply rsum_ext; intros; rewrite ?H; reflexivity); try (apply rprod_ext; intros; rewrite ?H; reflexivity)). }
  apply K. intros l. destruct (E (fun j => x j - y j) (fun j => y j - x j)) as [Q|Q]; [intros j; rewrite Rabs_minus_sym; reflexivity|rewrite Q; reflexivity|apply Q].
Qed.
Lemma kd_ext s nx D D' : (forall j, (j < nx)%nat -> D j = D' j) -> kd s nx D = kd s nx D'.
Proof.
  intros H. destruct s as [c th|c nc co th]; unfold kd.
  - destruct c; cbn [kernel]; unfold k_exp, k_m52, k_m32, k_act, act_dA, comp_dist; repeat (f_equal; try (apply rsum_ext; intros; rewrite ?H by assumption; reflexivity); try (apply rprod_ext; intros; rewrite ?H by assumption; reflexivity)).
  - assert (E : forall l, comp_dist_pls c nx co D l = comp_dist_pls c nx co D' l) by (intros l; unfold comp_dist_pls; destruct c; apply rsum_ext; intros; rewrite H by assumption; reflexivity).
    destruct c; cbn [kernel]; unfold k_exp, k_m52, k_m32, k_act, act_dA; repeat (f_equal; try (apply rsum_ext; intros; rewrite ?E; reflexivity); try (apply rprod_ext; intros; rewrite ?E; reflexivity)).
Qed.
Lemma corr_matrix_spec s nx nt X nugget noise i j : (i < nt)%nat -> (j < nt)%nat ->
  corr_matrix s nx nt X nugget noise i j = if Nat.eqb i j then 1 + nugget + noise i else kf s nx (X i) (X j).
Proof.
  intros Hi Hj. unfold corr_matrix. pose proof (cd_each nt X) as EA. pose proof (cd_pair nt X) as PA. destruct (cross_distances nt X) as [[ij D] ll]. cbv zeta.
  assert (V : forall p a b, (p < n_cross nt)%nat -> ij p = (a, b) -> kd s nx (D p) = kf s nx (X a) (X b)).
  { intros p a b Hp E. destruct (EA p Hp) as [_ Q]. rewrite E in Q. cbn [fst snd] in Q. apply kd_ext. intros c _. apply Q. }
  destruct (Nat.eqb_spec i j) as [<- | N].
  - rewrite !assign_miss. { rewrite Nat.eqb_refl. ring. }
    + intros p Hp E. destruct (EA p Hp) as [L _]. rewrite E in L. cbn in L. lia.
    + intros p Hp E. destruct (EA p Hp) as [L _]. injection E as E1 E2. rewrite E1, E2 in L. lia.
  - destruct (lt_dec i j) as [L|L].
    + rewrite assign_miss by (intros p Hp E; destruct (EA p Hp) as [L' _]; injection E as E1 E2; rewrite E1, E2 in L'; lia).
      apply assign_hit.
      * destruct (PA i j ltac:(lia)) as (p & Hp & E & _). exists p. split; assumption.
      * intros p Hp E. apply V; assumption.
    + apply assign_hit.
      * destruct (PA j i ltac:(lia)) as (p & Hp & E & _). exists p. split; [exact Hp|]. rewrite E. reflexivity.
      * intros p Hp E. rewrite kf_sym. apply V; [exact Hp|]. injection E as E1 E2. rewrite (surjective_pairing (ij p)), E1, E2. reflexivity.
Qed.
Lemma kf_diag s nx x : kf s nx x x = 1.
Proof.
  destruct s as [c th|c nc co th]; unfold kf, kd; [apply corr_diag|].
  assert (Z : forall l, comp_dist_pls c nx co (fun j => x j - x j) l = 0).
  { intros l. unfold comp_dist_pls. destruct c; apply rsum_zero; intros; rewrite Rminus_eq_0; try rewrite Rabs_R0; ring. }
  destruct c; try (rewrite kernel_prod by congruence; apply rprod_one; intros; rewrite Z, Rmult_0_r; apply kap_0).
  cbn [kernel]. unfold k_act. cbn [rsum]. rewrite Rmult_0_r. apply exp_0.
Qed.
Lemma corr_matrix_sym s nx nt X nugget noise : msym nt (corr_matrix s nx nt X nugget noise).
Proof.
  intros i j Hi Hj. rewrite !corr_matrix_spec by assumption. rewrite (Nat.eqb_sym j i). destruct (Nat.eqb_spec i j) as [-> | N]; [reflexivity|apply kf_sym].
Qed.
