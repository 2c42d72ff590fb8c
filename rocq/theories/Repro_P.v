From Coq Require Import Reals ZArith Arith Bool List Lia Lra.
From Coquelicot Require Import Coquelicot.
From Verif Require Import RSum Index_M Index_P Rmtb_M Rmtb_S Rmtb_P Rmtb_P2 Rmtb_P3 Rmtb_P4 Repro_S.
Import ListNotations.
Open Scope list_scope.
Open Scope R_scope.

Section G.
Variables (order : nat) (kn : Z -> R) (s : Z).
Hypothesis Hinc : forall i j, (i < j)%Z -> kn i < kn j.
Hypothesis Hord : (1 <= order)%nat.
Let mu : Z := (s + Z.of_nat order - 1)%Z.
(** sum of the k knots after knot n *)
Definition gs (k : nat) (n : Z) : R := rsum k (fun i => kn (n + 1 + Z.of_nat i)%Z).
Lemma gs_S k n : gs (S k) n = gs k n + kn (n + 1 + Z.of_nat k)%Z.
Proof. reflexivity. Qed.
Lemma gs_left k n : gs (S k) (n - 1)%Z = kn n + gs k n.
Proof.
  unfold gs. rewrite rsum_S_l. f_equal; [f_equal; lia|]. apply rsum_ext. intros i _. f_equal. lia.
Qed.
Lemma shift_sum m (B : nat -> R) : rsum m (fun j => B (S j)) = rsum m B + B m - B 0%nat.
Proof. pose proof (rsum_S_l m B) as E. cbn [rsum] in E. lra. Qed.
Lemma piece_linear k : (k < order)%nat -> forall x, rsum order (fun j => gs k (node s j) * piece order kn s k (node s j) x) = INR k * x.
Proof.
  induction k as [|k IH]; intros H x.
  - cbn [INR]. rewrite rsum_zero; [ring|]. intros j _. unfold gs. cbn [rsum]. ring.
  - set (w := fun j => (x - kn (node s j)) / (kn (node s j + Z.of_nat (S k))%Z - kn (node s j))).
    set (c := fun j => piece order kn s k (node s j) x).
    set (B := fun j => gs (S k) (node s j - 1)%Z * (1 - w j) * c j).
    rewrite (rsum_ext order _ (fun j => gs (S k) (node s j) * w j * c j + B (S j))).
    + rewrite rsum_plus, shift_sum.
      assert (c 0%nat = 0) as C0 by (unfold c; apply piece_supp; unfold node; lia).
      assert (c order = 0) as C1 by (unfold c; apply piece_supp; unfold node; lia).
      unfold B at 2 3. rewrite C0, C1. rewrite !Rmult_0_r.
      transitivity (rsum order (fun j => gs (S k) (node s j) * w j * c j + B j)); [rewrite rsum_plus; ring|].
      rewrite (rsum_ext order _ (fun j => gs k (node s j) * c j + x * c j)).
      * rewrite rsum_plus, (rsum_scal_l order x). unfold c at 1. rewrite (IH ltac:(lia) x).
        assert (rsum order c = 1) as -> by (apply (piece_sum order kn s Hinc Hord k); lia). rewrite S_INR. ring.
      * intros j _. unfold B. rewrite gs_left, gs_S.
        replace (node s j + 1 + Z.of_nat k)%Z with (node s j + Z.of_nat (S k))%Z by lia. unfold w.
        pose proof (Hinc (node s j) (node s j + Z.of_nat (S k))%Z ltac:(lia)). field. lra.
    + intros j _. unfold B. cbn [piece]. unfold c, w.
      replace (node s (S j)) with (node s j + 1)%Z by (unfold node; lia).
      replace (node s j + 1 + Z.of_nat (S k))%Z with (node s j + Z.of_nat (S k) + 1)%Z by lia.
      replace (node s j + 1 - 1)%Z with (node s j) by lia.
      pose proof (Hinc (node s j) (node s j + Z.of_nat (S k))%Z ltac:(lia)). pose proof (Hinc (node s j + 1) (node s j + Z.of_nat (S k) + 1) ltac:(lia))%Z.
      field. split; lra.
Qed.
Lemma dpiece_linear k : (k < order)%nat -> forall x, rsum order (fun j => gs k (node s j) * dpiece order kn s k (node s j) x) = INR k.
Proof.
  intros H x.
  pose proof (is_derive_rsum order (fun j y => gs k (node s j) * piece order kn s k (node s j) y) (fun j => gs k (node s j) * dpiece order kn s k (node s j) x) x
    (fun j _ => is_derive_scal (piece order kn s k (node s j)) x (gs k (node s j)) _ (piece_derive order kn s Hinc Hord k (node s j) x))) as D.
  apply is_derive_unique in D. rewrite <- D.
  rewrite (Derive_ext _ (fun y => INR k * y)) by (intros y; apply piece_linear; exact H).
  apply is_derive_unique. auto_derive; [exact I|ring].
Qed.
End G.

Lemma F2_weaken : forall os ns, Forall2 (fun o n => (2 <= o <= n)%nat) os ns -> Forall2 (fun o n => (1 <= o <= n)%nat) os ns.
Proof. induction 1; constructor; [lia|assumption]. Qed.

Section D.
Variables (orders ncps : list nat).
Hypothesis Hdim : Forall2 (fun o n => (2 <= o <= n)%nat) orders ncps.
Let nx := length orders.
Lemma Hdim1 : Forall2 (fun o n => (1 <= o <= n)%nat) orders ncps.
Proof. exact (F2_weaken _ _ Hdim). Qed.
Notation O ix := (nth ix orders 0%nat).
Notation NC ix := (nth ix ncps 0%nat).
Lemma dim_ok2 ix : (ix < nx)%nat -> (2 <= O ix <= NC ix)%nat.
Proof. intros H. apply (F2_nth (fun o n => (2 <= o <= n)%nat) 0%nat 0%nat _ _ Hdim). rewrite (ncps_length orders ncps Hdim1). exact H. Qed.
Lemma window p ix (F g : nat -> R) : (ix < nx)%nat -> 0 <= p ix < 1 ->
  (forall i, ~ (Z.to_nat (start orders ncps p ix) <= i < Z.to_nat (start orders ncps p ix) + O ix)%nat -> F i = 0) ->
  rsum (NC ix) (fun i => F i * g i) = rsum (O ix) (fun j => F (Z.to_nat (start orders ncps p ix) + j)%nat * g (Z.to_nat (start orders ncps p ix) + j)%nat).
Proof.
  intros H Hp HF. destruct (start_range orders ncps Hdim1 p ix H Hp) as (A & B). set (a := Z.to_nat (start orders ncps p ix)) in *.
  transitivity (rsum (a + (O ix + (NC ix - a - O ix))) (fun i => F i * g i)); [f_equal; lia|]. rewrite !rsum_app.
  rewrite (rsum_zero a), (rsum_zero (NC ix - a - O ix)); [ring| |].
  - intros i Hi. rewrite HF by lia. ring.
  - intros i Hi. rewrite HF by lia. ring.
Qed.
Lemma greville_gs ix i : greville (O ix) (NC ix) i = gs (knots_uniform (O ix) (NC ix)) (O ix - 1) (Z.of_nat i) / INR (O ix - 1).
Proof.
  unfold greville, gs. f_equal. apply rsum_ext. intros l _. rewrite <- knots_eq. f_equal. lia.
Qed.
Lemma fac0_linear p ix : (ix < nx)%nat -> 0 <= p ix < 1 -> rsum (NC ix) (fun i => fac0 orders ncps p ix i * greville (O ix) (NC ix) i) = p ix.
Proof.
  intros H Hp. pose proof (dim_ok2 ix H) as D. rewrite (window p ix (fac0 orders ncps p ix) _ H Hp).
  2:{ intros i Hi. apply (fac_supp orders ncps Hdim1 0 0 p ix i H Hp Hi). }
  destruct (start_range orders ncps Hdim1 p ix H Hp) as (A & B).
  destruct (dim_start (O ix) (NC ix) (p ix) ltac:(lia) Hp) as (_ & B'). fold (start orders ncps p ix) in B'.
  assert (0 < INR (O ix - 1)) as P by (apply lt_0_INR; lia).
  rewrite (rsum_ext _ _ (fun j => gs (knots_uniform (O ix) (NC ix)) (O ix - 1) (node (start orders ncps p ix) j) *
     piece (O ix) (knots_uniform (O ix) (NC ix)) (start orders ncps p ix) (O ix - 1) (node (start orders ncps p ix) j) (p ix) * / INR (O ix - 1))).
  - rewrite rsum_scal_r, piece_linear; [field; lra|apply knots_inc; lia|lia|lia].
  - intros j Hj. rewrite greville_gs. unfold fac0.
    assert (Z.of_nat (Z.to_nat (start orders ncps p ix) + j) = node (start orders ncps p ix) j) as -> by (unfold node; lia).
    rewrite <- (bspline_ext (knots_uniform (O ix) (NC ix))) by apply knots_eq.
    rewrite (N_piece (O ix) (knots_uniform (O ix) (NC ix)) (p ix) (start orders ncps p ix)); [unfold Rdiv; ring|apply knots_inc; lia|lia|exact B'].
Qed.
Lemma fac1_linear p ix : (ix < nx)%nat -> 0 <= p ix < 1 -> rsum (NC ix) (fun i => fac1 orders ncps p ix i * greville (O ix) (NC ix) i) = 1.
Proof.
  intros H Hp. pose proof (dim_ok2 ix H) as D. rewrite (window p ix (fac1 orders ncps p ix) _ H Hp).
  2:{ intros i Hi. pose proof (fac_supp orders ncps Hdim1 (S ix) 0 p ix i H Hp Hi) as E. unfold fac in E. rewrite Nat.eqb_refl in E. exact E. }
  destruct (start_range orders ncps Hdim1 p ix H Hp) as (A & B).
  assert (0 < INR (O ix - 1)) as P by (apply lt_0_INR; lia).
  rewrite (rsum_ext _ _ (fun j => gs (knots_uniform (O ix) (NC ix)) (O ix - 1) (node (start orders ncps p ix) j) *
     dpiece (O ix) (knots_uniform (O ix) (NC ix)) (start orders ncps p ix) (O ix - 1) (node (start orders ncps p ix) j) (p ix) * / INR (O ix - 1))).
  - rewrite rsum_scal_r, dpiece_linear; [field; lra|apply knots_inc; lia|lia|lia].
  - intros j Hj. rewrite greville_gs. unfold fac1.
    assert (Z.of_nat (Z.to_nat (start orders ncps p ix) + j) = node (start orders ncps p ix) j) as -> by (unfold node; lia).
    unfold Rdiv. ring.
Qed.
End D.
