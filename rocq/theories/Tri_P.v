From Coq Require Import Reals Arith Bool Lia Lra.
From Verif Require Import RSum Mat Tri_M.
Open Scope R_scope.

Definition lower (n : nat) (L : mat) : Prop := forall i j, (i < j)%nat -> (j < n)%nat -> L i j = 0.
Definition upper (n : nat) (U : mat) : Prop := forall i j, (i < n)%nat -> (j < i)%nat -> U i j = 0.
Definition diagnz (n : nat) (A : mat) : Prop := forall i, (i < n)%nat -> A i i <> 0.

Lemma fsub_out L b i k : (i <= k)%nat -> fsub L b i k = 0.
Proof. induction i as [|i IH]; intros H; [reflexivity|]. cbn [fsub]. rewrite upd_neq by lia. apply IH. lia. Qed.
Lemma fsub_stable L b i k m : (k < i)%nat -> (i <= m)%nat -> fsub L b m k = fsub L b i k.
Proof. intros H1 H2. induction H2 as [|m H2 IH]; [reflexivity|]. cbn [fsub]. rewrite upd_neq by lia. exact IH. Qed.
Lemma fsub_eq L b n i : (i < n)%nat -> fsub L b n i = (b i - rsum i (fun j => L i j * fsub L b n j)) / L i i.
Proof.
  intros H. rewrite (fsub_stable L b (S i) i n) by lia. cbn [fsub]. rewrite upd_eq. f_equal. f_equal. apply rsum_ext. intros j Hj. rewrite (fsub_stable L b i j n) by lia. reflexivity.
Qed.
Lemma fsub_row L b n i : (i < n)%nat -> L i i <> 0 -> rsum (S i) (fun j => L i j * fsub L b n j) = b i.
Proof. intros H D. cbn [rsum]. rewrite (fsub_eq L b n i H). field. exact D. Qed.
Lemma rsum_tail_zero n i f : (i <= n)%nat -> (forall j, (i <= j < n)%nat -> f j = 0) -> rsum n f = rsum i f.
Proof. intros H Z. replace n with (i + (n - i))%nat by lia. rewrite rsum_app. rewrite (rsum_zero (n - i)); [ring|]. intros j Hj. apply Z. lia. Qed.
Lemma rsum_head_zero n i f : (i <= n)%nat -> (forall j, (j < i)%nat -> f j = 0) -> rsum n f = rsum (n - i) (fun j => f (i + j)%nat).
Proof. intros H Z. replace n with (i + (n - i))%nat at 1 by lia. rewrite rsum_app. rewrite (rsum_zero i) by exact Z. ring. Qed.
Lemma fsub_solves n L b : lower n L -> diagnz n L -> forall i, (i < n)%nat -> mv n L (fsub L b n) i = b i.
Proof.
  intros T D i Hi. unfold mv. rewrite (rsum_tail_zero n (S i)); [apply fsub_row; [exact Hi|apply D; exact Hi]|lia|]. intros j Hj. rewrite T by lia. ring.
Qed.
Lemma fsub_ext n L L' b b' : (forall i j, (i < n)%nat -> (j <= i)%nat -> L i j = L' i j) -> (forall i, (i < n)%nat -> b i = b' i) -> forall i, fsub L b n i = fsub L' b' n i.
Proof.
  intros H B. induction n as [|n IH]; intros i; [reflexivity|]. cbn [fsub]. unfold upd. destruct (Nat.eqb_spec i n) as [-> | N].
  - rewrite B by lia. rewrite (H n n) by lia. f_equal. f_equal. apply rsum_ext. intros j Hj. rewrite H by lia. f_equal. apply IH; intros; [apply H|apply B]; lia.
  - apply IH; intros; [apply H|apply B]; lia.
Qed.
(** back substitution *)
Lemma bsub_out n U b k i : (k <= n)%nat -> (i < n - k)%nat \/ (n <= i)%nat -> bsub n U b k i = 0.
Proof. induction k as [|k IH]; intros Hk H; [reflexivity|]. cbn [bsub]. rewrite upd_neq by lia. apply IH; lia. Qed.
Lemma bsub_stable n U b k m i : (n - k <= i)%nat -> (k <= m)%nat -> (m <= n)%nat -> bsub n U b m i = bsub n U b k i.
Proof. intros H1 H2 H3. induction H2 as [|m H2 IH]; [reflexivity|]. cbn [bsub]. rewrite upd_neq by lia. apply IH. lia. Qed.
Lemma bsub_row n U b i : (i < n)%nat -> U i i <> 0 -> rsum (n - i) (fun j => U i (i + j)%nat * bsub n U b n (i + j)%nat) = b i.
Proof.
  intros H D. set (k := (n - S i)%nat). assert (E : (n - S k)%nat = i) by lia.
  assert (X : bsub n U b n i = (b i - rsum k (fun j => U i (S i + j)%nat * bsub n U b n (S i + j)%nat)) / U i i).
  { rewrite (bsub_stable n U b (S k) n i) by lia. cbn [bsub]. rewrite E, upd_eq. f_equal. f_equal. apply rsum_ext. intros j Hj. rewrite (bsub_stable n U b k n) by lia. reflexivity. }
  replace (n - i)%nat with (S k) by lia. rewrite rsum_S_l, Nat.add_0_r, X. 
  rewrite (rsum_ext k (fun j => U i (i + S j)%nat * bsub n U b n (i + S j)%nat) (fun j => U i (S i + j)%nat * bsub n U b n (S i + j)%nat)) by (intros j _; replace (i + S j)%nat with (S i + j)%nat by lia; reflexivity).
  field. exact D.
Qed.
Lemma bsub_solves n U b : upper n U -> diagnz n U -> forall i, (i < n)%nat -> mv n U (bsub n U b n) i = b i.
Proof.
  intros T D i Hi. unfold mv. rewrite (rsum_head_zero n i); [apply bsub_row; [exact Hi|apply D; exact Hi]|lia|]. intros j Hj. rewrite T by lia. ring.
Qed.
(** uniqueness *)
Lemma lower_inj n L : lower n L -> diagnz n L -> forall x, (forall i, (i < n)%nat -> mv n L x i = 0) -> forall i, (i < n)%nat -> x i = 0.
Proof.
  intros T D x H i. induction i as [i IH] using (well_founded_induction lt_wf). intros Hi.
  specialize (H i Hi). unfold mv in H. rewrite (rsum_tail_zero n (S i)) in H; [|lia|intros j Hj; rewrite T by lia; ring].
  cbn [rsum] in H. rewrite rsum_zero in H; [|intros j Hj; rewrite (IH j Hj ltac:(lia)); ring].
  apply (Rmult_eq_reg_l (L i i)); [lra|apply D; exact Hi].
Qed.
Lemma upper_inj n U : upper n U -> diagnz n U -> forall x, (forall i, (i < n)%nat -> mv n U x i = 0) -> forall i, (i < n)%nat -> x i = 0.
Proof.
  intros T D x H. assert (G : forall k i, (n - k <= i < n)%nat -> x i = 0).
  { induction k as [|k IH]; intros i Hi; [lia|]. destruct (Nat.eq_dec i (n - S k)) as [E|]; [|apply IH; lia].
    specialize (H i ltac:(lia)). unfold mv in H. rewrite (rsum_head_zero n i) in H; [|lia|intros j Hj; rewrite T by lia; ring].
    replace (n - i)%nat with (S (n - S i)) in H by lia. rewrite rsum_S_l, Nat.add_0_r in H. rewrite rsum_zero in H; [|intros j Hj; rewrite (IH (i + S j)%nat ltac:(lia)); ring].
    apply (Rmult_eq_reg_l (U i i)); [lra|apply D; lia]. }
  intros i Hi. apply (G n). lia.
Qed.
(** the factor returned by cholesky *)
Record chol_factor (n : nat) (A L : mat) : Prop := {
  cf_lower : forall i j, (i < j)%nat -> L i j = 0;
  cf_pos : forall i, (i < n)%nat -> 0 < L i i;
  cf_eq : forall i j, (i < n)%nat -> (j <= i)%nat -> rsum n (fun k => L i k * L j k) = A i j }.
Lemma chol_out n : forall A L, cholesky n A = Some L -> forall i j, (n <= i)%nat \/ (n <= j)%nat -> L i j = 0.
Proof.
  induction n as [|n IH]; intros A L H i j Hij; cbn [cholesky] in H.
  - injection H as <-. reflexivity.
  - destruct (cholesky n A) as [L0|] eqn:E; [|discriminate]. destruct (Rlt_dec 0 _); [|discriminate]. injection H as <-.
    destruct (Nat.eqb_spec i n); [destruct (Nat.eqb_spec j n); [lia|]; destruct (Nat.ltb_spec j n); [lia|reflexivity]|]. apply (IH A L0 E). lia.
Qed.
Lemma chol_sound n : forall A L, cholesky n A = Some L -> chol_factor n A L.
Proof.
  induction n as [|n IH]; intros A L H; cbn [cholesky] in H.
  - injection H as <-. split; intros; try lia. reflexivity.
  - destruct (cholesky n A) as [L0|] eqn:E; [|discriminate]. set (w := fsub L0 (fun j => A n j) n) in *.
    destruct (Rlt_dec 0 (A n n - dot n w w)) as [P|]; [|discriminate]. pose proof (IH A L0 E) as [T D Q]. pose proof (chol_out n A L0 E) as O. injection H as <-. split.
    + intros i j Hij. destruct (Nat.eqb_spec i n) as [-> | N]; [|apply T; exact Hij]. destruct (Nat.eqb_spec j n); [lia|]. destruct (Nat.ltb_spec j n); [lia|reflexivity].
    + intros i Hi. destruct (Nat.eqb_spec i n) as [-> | N]; [apply sqrt_lt_R0; exact P|]. apply D. lia.
    + assert (W : forall k, (k < n)%nat -> rsum n (fun j => L0 k j * w j) = A n k).
      { intros k Hk. apply (fsub_solves n L0 (fun j => A n j)); [intros a b Hab _; apply T; exact Hab|intros a Ha; apply Rgt_not_eq, D, Ha|exact Hk]. }
      intros i j Hi Hj. cbn [rsum]. rewrite Nat.eqb_refl. destruct (Nat.eqb_spec i n) as [-> | Ni].
      * destruct (Nat.eqb_spec j n) as [-> | Nj].
        -- rewrite sqrt_sqrt by lra. rewrite (rsum_ext n _ (fun k => w k * w k)); [unfold dot; ring|]. intros k Hk. destruct (Nat.eqb_spec k n); [lia|]. destruct (Nat.ltb_spec k n); [reflexivity|lia].
        -- rewrite (rsum_ext n _ (fun k => L0 j k * w k)); [|intros k Hk; destruct (Nat.eqb_spec k n); [lia|]; destruct (Nat.ltb_spec k n); [ring|lia]]. rewrite W by lia. rewrite (O j n) by lia. ring.
      * destruct (Nat.eqb_spec j n); [lia|]. rewrite (O i n), (O j n) by lia. rewrite Q by lia. ring.
Qed.
Lemma chol_mm n A L : msym n A -> chol_factor n A L -> forall i j, (i < n)%nat -> (j < n)%nat -> mm n L (tr L) i j = A i j.
Proof.
  intros S [T D Q] i j Hi Hj. unfold mm, tr. destruct (le_lt_dec j i); [apply Q; lia|]. rewrite S by assumption. rewrite <- Q by lia. apply rsum_ext. intros; ring.
Qed.
Lemma chol_mv n A L x : msym n A -> chol_factor n A L -> forall i, (i < n)%nat -> mv n L (mv n (tr L) x) i = mv n A x i.
Proof. intros S F i Hi. rewrite <- mv_mm. unfold mv. apply rsum_ext. intros j Hj. rewrite (chol_mm n A L S F) by assumption. reflexivity. Qed.
Lemma chol_lower n A L : chol_factor n A L -> lower n L.
Proof. intros F i j H _. exact (cf_lower _ _ _ F i j H). Qed.
Lemma chol_diag n A L : chol_factor n A L -> diagnz n L.
Proof. intros F i H. apply Rgt_not_eq. exact (cf_pos _ _ _ F i H). Qed.
Lemma chol_upper_tr n A L : chol_factor n A L -> upper n (tr L).
Proof. intros F i j _ H. exact (cf_lower _ _ _ F j i H). Qed.
Lemma chol_diag_tr n A L : chol_factor n A L -> diagnz n (tr L).
Proof. intros F i H. apply Rgt_not_eq. exact (cf_pos _ _ _ F i H). Qed.
Lemma chol_form n A L x : msym n A -> chol_factor n A L -> dot n x (mv n A x) = dot n (mv n (tr L) x) (mv n (tr L) x).
Proof.
  intros S F. transitivity (dot n x (mv n L (mv n (tr L) x))).
  - apply dot_ext; [reflexivity|]. intros i Hi. symmetry. apply chol_mv; assumption.
  - rewrite dot_sym. apply dot_mv_tr.
Qed.
(** cholesky succeeds exactly on positive definite matrices *)
Lemma chol_pd n A L : msym n A -> chol_factor n A L -> mpd n A.
Proof.
  intros S F x W. rewrite (chol_form n A L) by assumption.
  destruct (nonzero_dec n (mv n (tr L) x)) as [(i & Hi & N)|Z]; [apply (dot_self_pos n _ i Hi N)|].
  exfalso. destruct W as (i & Hi & N). apply N. apply (upper_inj n (tr L)); [apply (chol_upper_tr _ _ _ F)|apply (chol_diag_tr _ _ _ F)|exact Z|exact Hi].
Qed.
Lemma mpd_sub n A : mpd (S n) A -> mpd n A.
Proof.
  intros P x (i & Hi & N). specialize (P (fun j => if Nat.ltb j n then x j else 0)).
  assert (E : dot (S n) (fun j => if Nat.ltb j n then x j else 0) (mv (S n) A (fun j => if Nat.ltb j n then x j else 0)) = dot n x (mv n A x)).
  { unfold dot, mv. cbn [rsum]. rewrite Nat.ltb_irrefl, Rmult_0_l, Rplus_0_r. apply rsum_ext. intros a Ha. replace (Nat.ltb a n) with true by (symmetry; apply Nat.ltb_lt; exact Ha). f_equal. rewrite Rmult_0_r, Rplus_0_r. apply rsum_ext. intros b Hb. replace (Nat.ltb b n) with true by (symmetry; apply Nat.ltb_lt; exact Hb). reflexivity. }
  rewrite <- E. apply P. exists i. split; [lia|]. replace (Nat.ltb i n) with true by (symmetry; apply Nat.ltb_lt; exact Hi). exact N.
Qed.
Lemma chol_complete n A : msym n A -> mpd n A -> exists L, cholesky n A = Some L.
Proof.
  induction n as [|n IH]; intros S P; [eexists; reflexivity|].
  assert (Sn : msym n A) by (intros i j Hi Hj; apply S; lia). destruct (IH Sn (mpd_sub n A P)) as [L E]. cbn [cholesky]. rewrite E. pose proof (chol_sound n A L E) as F.
  set (w := fsub L (fun j => A n j) n). destruct (Rlt_dec 0 (A n n - dot n w w)) as [|N]; [eexists; reflexivity|]. exfalso. apply N.
  set (z := bsub n (tr L) w n).
  assert (Z : forall i, (i < n)%nat -> mv n (tr L) z i = w i) by (intros; apply bsub_solves; [apply (chol_upper_tr _ _ _ F)|apply (chol_diag_tr _ _ _ F)|assumption]).
  assert (W : forall i, (i < n)%nat -> mv n L w i = A n i) by (intros; apply (fsub_solves n L (fun j => A n j)); [apply (chol_lower _ _ _ F)|apply (chol_diag _ _ _ F)|assumption]).
  assert (RZ : forall i, (i < n)%nat -> mv n A z i = A n i). { intros i Hi. rewrite <- (chol_mv n A L z Sn F i Hi). rewrite <- W by exact Hi. apply mv_ext; [reflexivity|]. intros; apply Z; assumption. }
  assert (AZ : rsum n (fun j => A n j * z j) = dot n w w).
  { transitivity (dot n z (mv n A z)).
    - unfold dot. apply rsum_ext. intros j Hj. rewrite RZ by exact Hj. ring.
    - rewrite (chol_form n A L z Sn F). apply dot_ext; apply Z. }
  specialize (P (fun j => if Nat.eqb j n then -1 else z j)).
  assert (X : dot (Datatypes.S n) (fun j => if Nat.eqb j n then -1 else z j) (mv (Datatypes.S n) A (fun j => if Nat.eqb j n then -1 else z j)) = A n n - dot n w w).
  { unfold dot at 1, mv. cbn [rsum]. rewrite Nat.eqb_refl.
    rewrite (rsum_ext n (fun j => A n j * (if Nat.eqb j n then -1 else z j)) (fun j => A n j * z j)) by (intros j Hj; replace (Nat.eqb j n) with false by (symmetry; apply Nat.eqb_neq; lia); reflexivity).
    rewrite AZ.
    rewrite (rsum_ext n _ (fun i => 0)); [rewrite rsum_0; ring|]. intros i Hi. replace (Nat.eqb i n) with false by (symmetry; apply Nat.eqb_neq; lia).
    rewrite (rsum_ext n (fun j => A i j * (if Nat.eqb j n then -1 else z j)) (fun j => A i j * z j)) by (intros j Hj; replace (Nat.eqb j n) with false by (symmetry; apply Nat.eqb_neq; lia); reflexivity).
    change (rsum n (fun j => A i j * z j)) with (mv n A z i). rewrite RZ by exact Hi. rewrite (S i n) by lia. ring. }
  rewrite <- X. apply P. exists n. split; [lia|]. rewrite Nat.eqb_refl. lra.
Qed.
Lemma chol_iff n A : msym n A -> ((exists L, cholesky n A = Some L) <-> mpd n A).
Proof. intros S. split; [intros [L E]; exact (chol_pd n A L S (chol_sound n A L E))|apply chol_complete; exact S]. Qed.
(** solving with both factors inverts A *)
Lemma chol_solve n A L b : msym n A -> chol_factor n A L -> forall i, (i < n)%nat ->
  mv n A (bsub n (tr L) (fsub L b n) n) i = b i.
Proof.
  intros S F i Hi. rewrite <- (chol_mv n A L _ S F i Hi). rewrite <- (fsub_solves n L b (chol_lower _ _ _ F) (chol_diag _ _ _ F) i Hi).
  apply mv_ext; [reflexivity|]. intros j Hj. apply bsub_solves; [apply (chol_upper_tr _ _ _ F)|apply (chol_diag_tr _ _ _ F)|exact Hj].
Qed.
