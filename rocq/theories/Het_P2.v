(** C101: sums over groups of replicates, and prediction from group means. *)
From Coq Require Import Reals Arith Bool List Lia Lra.
From Verif Require Import RSum Mat Tri_M Kernels_M Krg_M Krg_S Het_M Het_S.
Import ListNotations.
Open Scope list_scope.
Open Scope R_scope.

Section G.
Variables (n nu : nat) (idx : nat -> nat) (rp : nat -> nat).
Hypotheses (Hidx : forall i, (i < n)%nat -> (idx i < nu)%nat) (Hrp : forall u, (u < nu)%nat -> (rp u < n)%nat /\ idx (rp u) = u).
Notation gs := (masked_sum n idx).
Notation cnt := (count n idx).
Lemma gs_ext u f g : (forall i, (i < n)%nat -> idx i = u -> f i = g i) -> gs u f = gs u g.
Proof. intros H. apply rsum_ext. intros i Hi. destruct (Nat.eqb_spec (idx i) u); [apply H; assumption|reflexivity]. Qed.
Lemma gs_scal u c f : gs u (fun i => c * f i) = c * gs u f.
Proof. unfold masked_sum. rewrite <- rsum_scal_l. apply rsum_ext. intros i _. destruct (Nat.eqb (idx i) u); ring. Qed.
Lemma gs_plus u f g : gs u (fun i => f i + g i) = gs u f + gs u g.
Proof. unfold masked_sum. rewrite <- rsum_plus. apply rsum_ext. intros i _. destruct (Nat.eqb (idx i) u); ring. Qed.
Lemma gs_minus u f g : gs u (fun i => f i - g i) = gs u f - gs u g.
Proof. unfold masked_sum. rewrite <- rsum_minus. apply rsum_ext. intros i _. destruct (Nat.eqb (idx i) u); ring. Qed.
Lemma gs_const u c : gs u (fun _ => c) = c * cnt u.
Proof. unfold count. rewrite <- gs_scal. apply gs_ext. intros; ring. Qed.
Lemma gs_nonneg u f : (forall i, (i < n)%nat -> idx i = u -> 0 <= f i) -> 0 <= gs u f.
Proof. intros H. apply rsum_nonneg. intros i Hi. destruct (Nat.eqb_spec (idx i) u); [apply H; assumption|lra]. Qed.
Lemma cnt_ge1 u : (u < nu)%nat -> 1 <= cnt u.
Proof.
  intros Hu. destruct (Hrp u Hu) as [A B]. unfold count, masked_sum.
  pose proof (rsum_ge_term n (fun a => if Nat.eqb (idx a) u then 1 else 0) (rp u)) as Q. specialize (Q ltac:(intros i _; cbv beta; destruct (Nat.eqb (idx i) u); lra) A).
  cbv beta in Q. rewrite B, Nat.eqb_refl in Q. exact Q.
Qed.
Lemma cnt_pos u : (u < nu)%nat -> 0 < cnt u. Proof. intros H. pose proof (cnt_ge1 u H). lra. Qed.
Lemma rsum_groups f : rsum n f = rsum nu (fun u => gs u f).
Proof.
  unfold masked_sum. rewrite rsum_swap. apply rsum_ext. intros i Hi.
  rewrite (rsum_ext nu _ (fun u => if Nat.eqb u (idx i) then f i else 0)) by (intros u _; rewrite Nat.eqb_sym; reflexivity).
  symmetry. apply (rsum_single nu (fun _ => f i) (idx i)). apply Hidx. exact Hi.
Qed.
Lemma rsum_groups_mul (h : vec) (f : vec) : rsum n (fun i => h (idx i) * f i) = rsum nu (fun u => h u * gs u f).
Proof. rewrite rsum_groups. apply rsum_ext. intros u Hu. rewrite <- gs_scal. apply gs_ext. intros i _ <-. reflexivity. Qed.
(** the least sum of squares with a given total: equal parts *)
Lemma gs_square u w : (u < nu)%nat -> (gs u w) ^ 2 / cnt u <= gs u (fun i => w i ^ 2).
Proof.
  intros Hu. pose proof (cnt_pos u Hu) as C. set (a := gs u w / cnt u).
  assert (P : 0 <= gs u (fun i => (w i - a) ^ 2)) by (apply gs_nonneg; intros; apply pow2_ge_0).
  rewrite (gs_ext u _ (fun i => w i ^ 2 - (2 * a) * w i + a ^ 2)) in P by (intros; ring). rewrite gs_plus, gs_minus, gs_scal, gs_const in P.
  replace (gs u (fun i => w i ^ 2) - 2 * a * gs u w + a ^ 2 * cnt u) with (gs u (fun i => w i ^ 2) - (gs u w) ^ 2 / cnt u) in P; [lra|]. unfold a. field. lra.
Qed.
Lemma gs_spread u a : gs u (fun i => a (idx i) / cnt (idx i)) = a u / cnt u * cnt u.
Proof. rewrite <- gs_const. apply gs_ext. intros i _ <-. reflexivity. Qed.
Lemma gs_spread' u (a : vec) : (u < nu)%nat -> gs u (fun i => a (idx i) / cnt (idx i)) = a u.
Proof. intros Hu. rewrite gs_spread. pose proof (cnt_pos u Hu). field. lra. Qed.
(** ** the two prediction problems *)
Variables (Ku : mat) (nu_ : vec) (Fu : mat) (ru f : vec) (p : nat).
Hypothesis Hnoise : forall u, (u < nu)%nat -> 0 <= nu_ u.
Let Kfull : mat := fun i j => Ku (idx i) (idx j) + (if Nat.eqb i j then nu_ (idx i) else 0).
Let Kred : mat := fun u v => Ku u v + (if Nat.eqb u v then nu_ u / cnt u else 0).
Let Ffull : mat := fun i j => Fu (idx i) j.
Let rfull : vec := fun i => ru (idx i).
Lemma diag_form m (A : mat) (d w : vec) : dot m w (mv m (fun i j => A i j + (if Nat.eqb i j then d i else 0)) w) = dot m w (mv m A w) + rsum m (fun i => d i * w i ^ 2).
Proof.
  unfold dot. rewrite <- rsum_plus. apply rsum_ext. intros i Hi. rewrite mv_mat_plus.
  replace (mv m (fun i j => if Nat.eqb i j then d i else 0) w i) with (d i * w i); [ring|].
  unfold mv. rewrite (rsum_ext m _ (fun j => if Nat.eqb j i then d i * w j else 0)) by (intros j _; rewrite (Nat.eqb_sym j i); destruct (Nat.eqb i j); ring).
  symmetry. apply (rsum_single m (fun j => d i * w j) i Hi).
Qed.
Lemma form_groups w : dot n w (mv n (fun i j => Ku (idx i) (idx j)) w) = dot nu (fun u => gs u w) (mv nu Ku (fun u => gs u w)).
Proof.
  unfold dot, mv.
  rewrite (rsum_ext n _ (fun i => (fun u => rsum nu (fun v => Ku u v * gs v w)) (idx i) * w i)).
  - rewrite (rsum_groups_mul (fun u => rsum nu (fun v => Ku u v * gs v w)) w). apply rsum_ext. intros; ring.
  - intros i Hi. cbv beta. rewrite (rsum_groups_mul (fun v => Ku (idx i) v) w). ring.
Qed.
Lemma mse_full w : mse n Kfull rfull w = mse nu Ku ru (fun u => gs u w) + rsum nu (fun u => nu_ u * gs u (fun i => w i ^ 2)).
Proof.
  unfold mse, Kfull. rewrite (diag_form n (fun i j => Ku (idx i) (idx j)) (fun i => nu_ (idx i)) w), form_groups, (rsum_groups_mul nu_ (fun i => w i ^ 2)).
  assert (E : dot n w rfull = dot nu (fun u => gs u w) ru).
  { unfold dot, rfull. rewrite (rsum_ext n _ (fun i => ru (idx i) * w i)) by (intros; ring). rewrite rsum_groups_mul. apply rsum_ext. intros; ring. }
  rewrite E. ring.
Qed.
Lemma mse_red W : mse nu Kred ru W = mse nu Ku ru W + rsum nu (fun u => nu_ u / cnt u * W u ^ 2).
Proof. unfold mse, Kred. rewrite (diag_form nu Ku (fun u => nu_ u / cnt u) W). ring. Qed.
Lemma mse_ge w : mse nu Kred ru (fun u => gs u w) <= mse n Kfull rfull w.
Proof.
  rewrite mse_full, mse_red. apply Rplus_le_compat_l. apply rsum_le. intros u Hu. pose proof (gs_square u w Hu) as Q.
  apply (Rmult_le_compat_l (nu_ u)) in Q; [|apply Hnoise; exact Hu]. unfold Rdiv in *. lra.
Qed.
Lemma mse_spread W : mse n Kfull rfull (fun i => W (idx i) / cnt (idx i)) = mse nu Kred ru W.
Proof.
  rewrite mse_full, mse_red. f_equal.
  - unfold mse. assert (E : forall u, (u < nu)%nat -> gs u (fun i => W (idx i) / cnt (idx i)) = W u) by (intros; apply gs_spread'; assumption).
    rewrite (dot_ext nu _ (mv nu Ku (fun u => gs u (fun i => W (idx i) / cnt (idx i)))) W (mv nu Ku W)) by (intros u Hu; first [apply E; exact Hu|apply mv_ext; [reflexivity|exact E]]).
    rewrite (dot_ext nu _ ru W ru) by (intros u Hu; first [reflexivity|apply E; exact Hu]). reflexivity.
  - apply rsum_ext. intros u Hu. rewrite (gs_ext u _ (fun _ => (W u / cnt u) ^ 2)) by (intros i _ <-; reflexivity). rewrite gs_const. pose proof (cnt_pos u Hu). field. lra.
Qed.
Lemma unbiased_groups w : unbiased n p Ffull f w <-> unbiased nu p Fu f (fun u => gs u w).
Proof.
  unfold unbiased, Ffull. split; intros H j Hj; specialize (H j Hj); rewrite <- H; [symmetry|]; apply (rsum_groups_mul (fun u => Fu u j) w).
Qed.
Lemma unbiased_ext W W' : (forall u, (u < nu)%nat -> W u = W' u) -> unbiased nu p Fu f W -> unbiased nu p Fu f W'.
Proof. intros E H j Hj. rewrite <- (H j Hj). apply rsum_ext. intros u Hu. rewrite E by exact Hu. reflexivity. Qed.
Lemma blup_spread W : blup nu p Kred Fu ru f W -> blup n p Kfull Ffull rfull f (fun i => W (idx i) / cnt (idx i)).
Proof.
  intros [U M]. split.
  - apply unbiased_groups. apply (unbiased_ext W); [|exact U]. intros u Hu. symmetry. apply gs_spread'. exact Hu.
  - intros w' U'. rewrite mse_spread. apply (Rle_trans _ (mse nu Kred ru (fun u => gs u w'))); [|apply mse_ge]. apply M. apply unbiased_groups. exact U'.
Qed.
(** all best predictors of the full problem have the same error as the reduced one *)
Lemma blup_mse_eq W w : blup nu p Kred Fu ru f W -> blup n p Kfull Ffull rfull f w -> mse n Kfull rfull w = mse nu Kred ru W.
Proof.
  intros B [U M]. pose proof (blup_spread W B) as [U' M']. rewrite <- (mse_spread W). apply Rle_antisym; [apply M; exact U'|apply M'; exact U].
Qed.
Lemma dot_spread W y : dot n (fun i => W (idx i) / cnt (idx i)) y = dot nu W (fun u => gs u y / cnt u).
Proof. unfold dot. rewrite (rsum_groups_mul (fun u => W u / cnt u) y). apply rsum_ext. intros; unfold Rdiv; ring. Qed.
End G.
