From Coq Require Import Reals Arith Bool List Lia Lra.
From Coquelicot Require Import Coquelicot.
From Verif Require Import RSum Mat Psd Psd2 Tri_M Tri_P Kernels_M Kernels_P Kernels_P2 Kernels_P3 Krg_M Krg_S Krg_P Krg_P2 Rbf_P Poly_P LikGrad_M.
Import ListNotations.
Open Scope list_scope.
Open Scope R_scope.

(** ** the table of pairs written back into a matrix *)
Definition row_of (n i j : nat) : nat := (Krg_P.off n (min i j) + (max i j - min i j - 1))%nat.
Lemma row_of_sym n i j : row_of n i j = row_of n j i.
Proof. unfold row_of. rewrite Nat.min_comm, Nat.max_comm. reflexivity. Qed.
Lemma row_ij n X i j : (i < j < n)%nat -> (row_of n i j < n_cross n)%nat /\ fst (fst (cross_distances n X)) (row_of n i j) = (i, j) /\
  forall q, (q < n_cross n)%nat -> fst (fst (cross_distances n X)) q = (i, j) -> q = row_of n i j.
Proof.
  intros Hij. assert (H : (0 < n)%nat) by lia. pose proof (cd_spec n X H) as P0. destruct (cross_distances n X) as [[ij D] ll]. destruct P0 as [_ P]. cbn [fst snd].
  rewrite off_all in P by exact H. unfold row_of. rewrite Nat.min_l, Nat.max_r by lia.
  assert (L : (Krg_P.off n i + (j - i - 1) < n_cross n)%nat). { rewrite <- off_all by exact H. pose proof (off_mono n (S i) (n - 1) ltac:(lia) ltac:(lia)) as H0. rewrite off_S in H0 by lia. lia. }
  split; [exact L|]. split.
  - destruct (P _ L) as (i' & j' & E & A & B & C & _). assert (i = i') by (apply (off_inj n i i' (j - i - 1) (j' - i' - 1)); lia). subst i'. rewrite E. f_equal. lia.
  - intros q Hq Eq. destruct (P q Hq) as (i' & j' & E & A & B & C & _). rewrite Eq in E. injection E as <- <-. exact C.
Qed.
Lemma fill_spec n X A r i j : (i < n)%nat -> (j < n)%nat -> fill n X A r i j = if Nat.eqb i j then A i j else r (row_of n i j).
Proof.
  intros Hi Hj. unfold fill. pose proof (cd_each n X) as EA. pose proof (row_ij n X) as PA. destruct (cross_distances n X) as [[ij D] ll]. cbn [fst snd] in *. cbv zeta in EA.
  destruct (Nat.eqb_spec i j) as [<- | N].
  - rewrite !assign_miss; [reflexivity| |].
    + intros p Hp E. destruct (EA p Hp) as [L _]. rewrite E in L. cbn in L. lia.
    + intros p Hp E. destruct (EA p Hp) as [L _]. injection E as E1 E2. rewrite E1, E2 in L. lia.
  - destruct (lt_dec i j) as [L|L].
    + rewrite assign_miss by (intros p Hp E; destruct (EA p Hp) as [L' _]; injection E as E1 E2; rewrite E1, E2 in L'; lia).
      destruct (PA i j ltac:(lia)) as (P1 & P2 & P3). apply assign_hit.
      * exists (row_of n i j). split; assumption.
      * intros p Hp E. rewrite (P3 p Hp E). reflexivity.
    + rewrite (row_of_sym n i j). destruct (PA j i ltac:(lia)) as (P1 & P2 & P3). apply assign_hit.
      * exists (row_of n j i). split; [exact P1|]. rewrite P2. reflexivity.
      * intros p Hp E. rewrite (P3 p Hp); [reflexivity|]. injection E as E1 E2. rewrite (surjective_pairing (ij p)), E1, E2. reflexivity.
Qed.
Lemma fill_sym n X A r : msym n A -> msym n (fill n X A r).
Proof. intros H i j Hi Hj. rewrite !fill_spec by assumption. rewrite (Nat.eqb_sym j i), (row_of_sym n j i). destruct (Nat.eqb i j); [apply H; assumption|reflexivity]. Qed.

(** ** triangular solves and Cholesky factors are differentiable functions of their data *)
Lemma ex_rsum n (f : nat -> R -> R) t0 : (forall i, (i < n)%nat -> ex_derive (f i) t0) -> ex_derive (fun t => rsum n (fun i => f i t)) t0.
Proof.
  induction n as [|n IH]; intros H; cbn [rsum]; [apply ex_derive_const|]. apply (ex_derive_plus (fun t => rsum n (fun i => f i t)) (f n)); [apply IH; intros; apply H; lia|apply H; lia].
Qed.
Lemma ex_mul (f h : R -> R) t0 : ex_derive f t0 -> ex_derive h t0 -> ex_derive (fun t => f t * h t) t0.
Proof. intros. apply (ex_derive_mult f h); assumption. Qed.
Lemma ex_sub (f h : R -> R) t0 : ex_derive f t0 -> ex_derive h t0 -> ex_derive (fun t => f t - h t) t0.
Proof. intros. apply (ex_derive_minus f h); assumption. Qed.
Lemma ex_dot n (v w : R -> vec) t0 : (forall i, (i < n)%nat -> ex_derive (fun t => v t i) t0) -> (forall i, (i < n)%nat -> ex_derive (fun t => w t i) t0) -> ex_derive (fun t => dot n (v t) (w t)) t0.
Proof. intros H1 H2. unfold dot. apply (ex_rsum n (fun i t => v t i * w t i)). intros i Hi. apply ex_mul; [apply H1|apply H2]; exact Hi. Qed.
Lemma ex_mv n (A : R -> mat) (v : R -> vec) t0 i : (forall j, (j < n)%nat -> ex_derive (fun t => A t i j) t0) -> (forall j, (j < n)%nat -> ex_derive (fun t => v t j) t0) -> ex_derive (fun t => mv n (A t) (v t) i) t0.
Proof. intros H1 H2. apply (ex_rsum n (fun j t => A t i j * v t j)). intros j Hj. apply ex_mul; [apply H1|apply H2]; exact Hj. Qed.
Lemma fsub_ex n (L : R -> mat) (b : R -> vec) t0 : (forall i j, (i < n)%nat -> (j <= i)%nat -> ex_derive (fun t => L t i j) t0) ->
  (forall i, (i < n)%nat -> ex_derive (fun t => b t i) t0) -> (forall i, (i < n)%nat -> L t0 i i <> 0) -> forall i, ex_derive (fun t => fsub (L t) (b t) n i) t0.
Proof.
  induction n as [|n IH]; intros HL Hb Hd i; cbn [fsub]; [apply ex_derive_const|].
  assert (IH' : forall i, ex_derive (fun t => fsub (L t) (b t) n i) t0) by (apply IH; intros; [apply HL|apply Hb|apply Hd]; lia).
  unfold upd. destruct (Nat.eqb i n); [|apply IH'].
  apply (ex_derive_div (fun t => b t n - rsum n (fun j => L t n j * fsub (L t) (b t) n j)) (fun t => L t n n)); [|apply HL; lia|apply Hd; lia].
  apply ex_sub; [apply Hb; lia|]. apply (ex_rsum n (fun j t => L t n j * fsub (L t) (b t) n j)). intros j Hj. apply ex_mul; [apply HL; lia|apply IH'].
Qed.
Lemma bsub_ex n (U : R -> mat) (b : R -> vec) t0 : (forall i j, (i < n)%nat -> (i <= j < n)%nat -> ex_derive (fun t => U t i j) t0) ->
  (forall i, (i < n)%nat -> ex_derive (fun t => b t i) t0) -> (forall i, (i < n)%nat -> U t0 i i <> 0) -> forall k, (k <= n)%nat -> forall i, ex_derive (fun t => bsub n (U t) (b t) k i) t0.
Proof.
  intros HU Hb Hd. induction k as [|k IH]; intros Hk i; cbn [bsub]; [apply ex_derive_const|].
  specialize (IH ltac:(lia)). unfold upd. destruct (Nat.eqb i (n - S k)); [|apply IH]. set (m := (n - S k)%nat).
  apply (ex_derive_div (fun t => b t m - rsum k (fun j => U t m (S m + j)%nat * bsub n (U t) (b t) k (S m + j)%nat)) (fun t => U t m m)); [|apply HU; unfold m; lia|apply Hd; unfold m; lia].
  apply ex_sub; [apply Hb; unfold m; lia|]. apply (ex_rsum k (fun j t => U t m (S m + j)%nat * bsub n (U t) (b t) k (S m + j)%nat)). intros j Hj. apply ex_mul; [apply HU; unfold m; lia|apply IH].
Qed.
(** the factor without the test *)
Fixpoint cholf (n : nat) (A : mat) : mat :=
  match n with
  | O => fun _ _ => 0
  | S m => let L := cholf m A in let w := fsub L (fun j => A m j) m in let d := A m m - dot m w w in
           fun i j => if Nat.eqb i m then (if Nat.eqb j m then sqrt d else if Nat.ltb j m then w j else 0) else L i j
  end.
Lemma cholf_eq n A L : cholesky n A = Some L -> L = cholf n A.
Proof.
  revert L. induction n as [|n IH]; intros L; cbn [cholesky cholf]; [intros [= <-]; reflexivity|].
  destruct (cholesky n A) as [L'|]; [|discriminate]. rewrite (IH L' eq_refl). cbv zeta. destruct (Rlt_dec _ _); [|discriminate]. intros E. injection E as <-. reflexivity.
Qed.
Lemma cholf_ex n (A : R -> mat) t0 L0 : cholesky n (A t0) = Some L0 -> (forall i j, (i < n)%nat -> (j < n)%nat -> ex_derive (fun t => A t i j) t0) ->
  forall i j, ex_derive (fun t => cholf n (A t) i j) t0.
Proof.
  revert L0. induction n as [|n IH]; intros L0 E HA i j; cbn [cholf]; [apply ex_derive_const|]. cbn [cholesky] in E.
  destruct (cholesky n (A t0)) as [L'|] eqn:EL; [|discriminate]. pose proof (chol_sound _ _ _ EL) as FL. pose proof (cholf_eq _ _ _ EL) as QL. cbv zeta in E.
  assert (IH' : forall i j, ex_derive (fun t => cholf n (A t) i j) t0) by (apply (IH L' eq_refl); intros; apply HA; lia).
  assert (W : forall j, ex_derive (fun t => fsub (cholf n (A t)) (fun j => A t n j) n j) t0).
  { apply (fsub_ex n (fun t => cholf n (A t)) (fun t j => A t n j)); [intros; apply IH'|intros; apply HA; lia|]. intros k Hk. rewrite <- QL. apply (chol_diag _ _ _ FL). exact Hk. }
  destruct (Rlt_dec _ _) as [P|P] in E; [|discriminate]. rewrite QL in P.
  destruct (Nat.eqb i n); [|apply IH']. destruct (Nat.eqb j n).
  - set (d := fun t => A t n n - dot n (fsub (cholf n (A t)) (fun j => A t n j) n) (fsub (cholf n (A t)) (fun j => A t n j) n)).
    assert (Dd : ex_derive d t0) by (apply ex_sub; [apply HA; lia|apply (ex_dot n (fun t => fsub (cholf n (A t)) (fun j => A t n j) n) (fun t => fsub (cholf n (A t)) (fun j => A t n j) n)); intros; apply W]).
    destruct Dd as [d' Dd]. eexists. apply (is_derive_sqrt d t0 d' Dd). exact P.
  - destruct (Nat.ltb j n); [apply W|apply ex_derive_const].
Qed.
(** solutions of a symmetric positive definite system depend differentiably on the data *)
Lemma spd_solve_ex n (A : R -> mat) (b x : R -> vec) t0 : (forall t, msym n (A t)) -> locally t0 (fun t => mpd n (A t)) ->
  (forall i j, (i < n)%nat -> (j < n)%nat -> ex_derive (fun t => A t i j) t0) -> (forall i, (i < n)%nat -> ex_derive (fun t => b t i) t0) ->
  locally t0 (fun t => forall i, (i < n)%nat -> mv n (A t) (x t) i = b t i) -> forall i, (i < n)%nat -> ex_derive (fun t => x t i) t0.
Proof.
  intros Sm Pd HA Hb Hx i Hi. destruct (chol_complete n (A t0) (Sm t0) (locally_singleton _ _ Pd)) as [L0 E0]. pose proof (chol_sound _ _ _ E0) as F0. pose proof (cholf_eq _ _ _ E0) as Q0.
  apply (ex_derive_ext_loc (fun t => bsub n (tr (cholf n (A t))) (fsub (cholf n (A t)) (b t) n) n i)).
  - generalize (filter_and _ _ Pd Hx). apply filter_imp. intros t [P S]. destruct (chol_complete n (A t) (Sm t) P) as [L E]. pose proof (chol_sound _ _ _ E) as FL. rewrite <- (cholf_eq _ _ _ E).
    apply (mpd_unique n (A t)); [exact P| |exact Hi]. intros a Ha. rewrite S by exact Ha. apply (chol_solve n (A t) L (b t) (Sm t) FL a Ha).
  - apply (bsub_ex n (fun t => tr (cholf n (A t))) (fun t => fsub (cholf n (A t)) (b t) n)); [intros; apply (cholf_ex n A t0 L0 E0 HA)| | |lia].
    + intros a Ha. apply (fsub_ex n (fun t => cholf n (A t)) b); [intros; apply (cholf_ex n A t0 L0 E0 HA)|exact Hb|]. intros k Hk. rewrite <- Q0. apply (chol_diag _ _ _ F0 k Hk).
    + intros a Ha. unfold tr. rewrite <- Q0. apply (chol_diag _ _ _ F0 a Ha).
Qed.
