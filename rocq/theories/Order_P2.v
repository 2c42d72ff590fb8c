(** Likelihood evaluations on reordered data. *)
From Coq Require Import Reals Arith Bool List Lia Lra.
From Verif Require Import RSum Mat Tri_M Tri_P Kernels_M Krg_M Krg_S Krg_P Krg_P2 Het_S Het_P4 Order_S Order_P1.
Import ListNotations.
Open Scope list_scope.
Open Scope R_scope.

(** b' A^-1 c *)
Lemma dot_fsub n A C b c z : msym n A -> chol_factor n A C -> (forall i, (i < n)%nat -> mv n A z i = b i) -> dot n (fsub C b n) (fsub C c n) = dot n z c.
Proof.
  intros S F Hz. assert (E : forall i, (i < n)%nat -> mv n (tr C) z i = fsub C b n i).
  { intros i Hi. apply Rminus_diag_uniq. apply (lower_inj n C (chol_lower _ _ _ F) (chol_diag _ _ _ F) (fun i => mv n (tr C) z i - fsub C b n i)); [|exact Hi].
    intros k Hk. rewrite mv_minus, (chol_mv n A C z S F k Hk), Hz, (fsub_solves n C b (chol_lower _ _ _ F) (chol_diag _ _ _ F) k Hk) by exact Hk. ring. }
  rewrite (dot_ext n (fsub C b n) (fsub C c n) (mv n (tr C) z) (fsub C c n) (fun i Hi => eq_sym (E i Hi)) (fun i _ => eq_refl)).
  rewrite dot_mv_tr. apply dot_ext; intros i Hi; [reflexivity|]. change (mv n (tr (tr C)) (fsub C c n) i) with (mv n C (fsub C c n) i). apply (fsub_solves n C c (chol_lower _ _ _ F) (chol_diag _ _ _ F) i Hi).
Qed.
Section Two.
Variables (n : nat) (f : nat -> nat) (A A' C C' : mat).
Hypotheses (RO : reorder n f) (S : msym n A) (HA : forall i j, (i < n)%nat -> (j < n)%nat -> A' i j = A (f i) (f j)).
Hypotheses (F : chol_factor n A C) (F' : chol_factor n A' C').
Lemma two_sym : msym n A'.
Proof. intros i j Hi Hj. rewrite !HA by assumption. apply S; apply RO; assumption. Qed.
Lemma two_mv z i : (i < n)%nat -> mv n A' (fun i => z (f i)) i = mv n A z (f i).
Proof. intros Hi. unfold mv. rewrite (rsum_ext n _ (fun j => (fun j => A (f i) j * z j) (f j))) by (intros j Hj; rewrite HA by assumption; reflexivity). apply (rsum_reorder n f (fun j => A (f i) j * z j) RO). Qed.
Lemma two_dot b b' c c' : (forall i, (i < n)%nat -> b' i = b (f i)) -> (forall i, (i < n)%nat -> c' i = c (f i)) ->
  dot n (fsub C' b' n) (fsub C' c' n) = dot n (fsub C b n) (fsub C c n).
Proof.
  intros Hb Hc. set (z := bsub n (tr C) (fsub C b n) n). assert (Hz : forall i, (i < n)%nat -> mv n A z i = b i) by (apply chol_solve; assumption).
  rewrite (dot_fsub n A C b c z S F Hz). rewrite (dot_fsub n A' C' b' c' (fun i => z (f i)) two_sym F').
  - unfold dot. rewrite (rsum_ext n _ (fun i => (fun i => z i * c i) (f i))) by (intros i Hi; rewrite Hc by exact Hi; reflexivity). apply (rsum_reorder n f (fun i => z i * c i) RO).
  - intros i Hi. rewrite two_mv, Hb by exact Hi. apply Hz. apply RO. exact Hi.
Qed.
Lemma two_det : rprod n (fun i => Rpower (C' i i) (2 / INR n)) = rprod n (fun i => Rpower (C i i) (2 / INR n)).
Proof.
  rewrite !rprod_Rpower by (intros i Hi; (apply (cf_pos _ _ _ F) || apply (cf_pos _ _ _ F')); exact Hi). f_equal.
  apply (reorder_det n f A C C' RO S F). destruct F' as [T P E]. split; [exact T|exact P|]. intros i j Hi Hj. rewrite E by assumption. apply HA; lia.
Qed.
End Two.
Lemma reorder_surj n f : reorder n f -> forall j, (j < n)%nat -> exists i, (i < n)%nat /\ f i = j.
Proof.
  intros RO j Hj. pose proof (reorder_perm n f RO) as P. assert (H : In j (map f (seq 0 n))) by (apply (Permutation.Permutation_in j P); apply in_seq; lia).
  apply in_map_iff in H. destruct H as (i & E & Hi). apply in_seq in Hi. exists i. split; [lia|exact E].
Qed.
Lemma reorder_inv n f : reorder n f -> exists g, reorder n g /\ (forall i, (i < n)%nat -> f (g i) = i) /\ forall i, (i < n)%nat -> g (f i) = i.
Proof.
  intros RO. pose proof (reorder_surj n f RO) as SJ.
  assert (H : exists g, forall j, (j < n)%nat -> (g j < n)%nat /\ f (g j) = j).
  { clear RO. exists (fun j => match find (fun i => Nat.eqb (f i) j) (seq 0 n) with Some i => i | None => 0%nat end). intros j Hj. destruct (SJ j Hj) as (i & Hi & E).
    destruct (find _ (seq 0 n)) as [k|] eqn:Ef.
    - apply find_some in Ef. destruct Ef as [Hk Ek]. apply Nat.eqb_eq in Ek. apply in_seq in Hk. split; [lia|exact Ek].
    - exfalso. pose proof (find_none _ _ Ef i ltac:(apply in_seq; lia)) as Hn. cbn in Hn. apply Nat.eqb_neq in Hn. contradiction. }
  destruct H as (g & Hg). destruct RO as [B I]. exists g. split; [|split].
  - split; [intros i Hi; apply Hg; exact Hi|]. intros i j Hi Hj E. rewrite <- (proj2 (Hg i Hi)), <- (proj2 (Hg j Hj)), E. reflexivity.
  - intros i Hi. apply Hg. exact Hi.
  - intros i Hi. apply I; [apply Hg; apply B; exact Hi|exact Hi|]. apply Hg. apply B. exact Hi.
Qed.
Lemma pd_reorder n f A A' : reorder n f -> (forall i j, (i < n)%nat -> (j < n)%nat -> A' i j = A (f i) (f j)) -> mpd n A -> mpd n A'.
Proof.
  intros RO HA P x (i & Hi & Nz). destruct (reorder_inv n f RO) as (g & RG & FG & GF).
  assert (E : dot n x (mv n A' x) = dot n (fun j => x (g j)) (mv n A (fun j => x (g j)))).
  { unfold dot. rewrite <- (rsum_reorder n f (fun j => x (g j) * mv n A (fun j => x (g j)) j) RO). apply rsum_ext. intros k Hk. rewrite (GF k Hk). f_equal.
    unfold mv. rewrite <- (rsum_reorder n f (fun j => A (f k) j * x (g j)) RO). apply rsum_ext. intros j Hj. rewrite HA, GF by assumption. reflexivity. }
  rewrite E. apply P. exists (f i). split; [apply RO; exact Hi|]. rewrite GF by exact Hi. exact Nz.
Qed.
(** Gram matrix of the triangular factor of the QR factorisation *)
Lemma qr_gram n p Fm Q G : (forall i j, (i < p)%nat -> (j < p)%nat -> rsum n (fun a => Q a i * Q a j) = if Nat.eqb i j then 1 else 0) ->
  (forall a j, (a < n)%nat -> (j < p)%nat -> Fm a j = rsum p (fun k => Q a k * G k j)) ->
  forall i j, (i < p)%nat -> (j < p)%nat -> rsum p (fun k => G k i * G k j) = dot n (fun a => Fm a i) (fun a => Fm a j).
Proof.
  intros HQ HF i j Hi Hj. symmetry. unfold dot.
  rewrite (rsum_ext n _ (fun a => rsum p (fun k => rsum p (fun l => (Q a k * Q a l) * (G k i * G l j))))).
  2:{ intros a Ha. rewrite !HF by assumption. rewrite <- rsum_scal_r. apply rsum_ext. intros k Hk. rewrite <- rsum_scal_l. apply rsum_ext. intros l Hl. ring. }
  rewrite rsum_swap. apply rsum_ext. intros k Hk. rewrite rsum_swap.
  rewrite (rsum_ext p _ (fun l => if Nat.eqb l k then G k i * G l j else 0)).
  - apply (rsum_single p (fun l => G k i * G l j) k Hk).
  - intros l Hl. rewrite rsum_scal_r, (HQ k l Hk Hl). rewrite (Nat.eqb_sym l k). destruct (Nat.eqb k l); ring.
Qed.
(** squared diagonal of a triangular factor is determined by the Gram matrix *)
Lemma diag_gram_le p G G' : upper p G -> diagnz p G -> upper p G' -> (forall i j, (i < p)%nat -> (j < p)%nat -> rsum p (fun k => G k i * G k j) = rsum p (fun k => G' k i * G' k j)) ->
  forall j, (j < p)%nat -> G' j j ^ 2 <= G j j ^ 2.
Proof.
  intros U D U' E j Hj.
  set (z := bsub j G (fun i => - G i j) j). set (b := fun a => if Nat.ltb a j then z a else if Nat.eqb a j then 1 else 0).
  assert (FF : forall H : mat, dot p (mv p H b) (mv p H b) = rsum p (fun a => rsum p (fun c => b a * b c * rsum p (fun k => H k a * H k c)))).
  { intros H. unfold dot, mv. rewrite (rsum_ext p _ (fun k => rsum p (fun a => rsum p (fun c => b a * b c * (H k a * H k c))))).
    - rewrite rsum_swap. apply rsum_ext. intros a Ha. rewrite rsum_swap. apply rsum_ext. intros c Hc. rewrite rsum_scal_l. reflexivity.
    - intros k Hk. rewrite <- rsum_scal_r. apply rsum_ext. intros a Ha. rewrite <- rsum_scal_l. apply rsum_ext. intros c Hc. ring. }
  assert (EQ : dot p (mv p G' b) (mv p G' b) = dot p (mv p G b) (mv p G b)).
  { rewrite !FF. apply rsum_ext. intros a Ha. apply rsum_ext. intros c Hc. rewrite E by assumption. reflexivity. }
  assert (Row : forall (H : mat) a, (a < p)%nat -> mv p H b a = rsum j (fun c => H a c * z c) + H a j).
  { intros H a Ha. unfold mv. rewrite (rsum_tail_zero p (S j)); [|lia|].
    2:{ intros c Hc. unfold b. replace (Nat.ltb c j) with false by (symmetry; apply Nat.ltb_ge; lia). replace (Nat.eqb c j) with false by (symmetry; apply Nat.eqb_neq; lia). ring. }
    cbn [rsum]. f_equal.
    - apply rsum_ext. intros c Hc. unfold b. replace (Nat.ltb c j) with true by (symmetry; apply Nat.ltb_lt; exact Hc). reflexivity.
    - unfold b. rewrite Nat.ltb_irrefl, Nat.eqb_refl. ring. }
  assert (Z : forall a, (a < p)%nat -> mv p G b a = if Nat.eqb a j then G j j else 0).
  { intros a Ha. rewrite Row by exact Ha. destruct (Nat.eqb_spec a j) as [-> | N].
    - rewrite rsum_zero; [ring|]. intros c Hc. rewrite (U j c) by lia. ring.
    - destruct (lt_dec a j) as [L|L].
      + assert (X : rsum j (fun c => G a c * z c) = - G a j). { apply (bsub_solves j G (fun i => - G i j)); [intros k c Hk Hc; apply U; lia|intros k Hk; apply D; lia|exact L]. } rewrite X. ring.
      + rewrite (U a j) by lia. rewrite rsum_zero; [ring|]. intros c Hc. rewrite (U a c) by lia. ring. }
  assert (V : dot p (mv p G b) (mv p G b) = G j j ^ 2).
  { unfold dot. rewrite (rsum_ext p _ (fun a => if Nat.eqb a j then G j j ^ 2 else 0)); [apply (rsum_single p (fun _ => G j j ^ 2) j Hj)|].
    intros a Ha. rewrite Z by exact Ha. destruct (Nat.eqb a j); ring. }
  rewrite <- V, <- EQ. assert (W : mv p G' b j = G' j j). { rewrite Row by exact Hj. rewrite rsum_zero; [ring|]. intros c Hc. rewrite (U' j c) by lia. ring. }
  unfold dot. rewrite <- W. replace (mv p G' b j ^ 2) with (mv p G' b j * mv p G' b j) by ring. apply (rsum_ge_term p (fun a => mv p G' b a * mv p G' b a)); [intros; nra|exact Hj].
Qed.
