From Coq Require Import Reals ZArith Arith Bool List Lia Lra.
From Coquelicot Require Import Coquelicot.
From Verif Require Import RSum Index_M Index_P Rmtb_M Rmtb_P2 Rmtb_P3 Rmtb_P4 Rmtc_M Rmtc_S.
Import ListNotations.
Open Scope list_scope.
Open Scope R_scope.

(** * element search *)
Lemma Rceil_spec r : IZR (Rceil r) - 1 < r <= IZR (Rceil r).
Proof. unfold Rceil. destruct (base_Int_part (- r)) as (A & B). rewrite opp_IZR. lra. Qed.

Section FI.
Variables (a b : R) (num : nat) (x : R).
Hypothesis Hab : a < b.
Hypothesis Hn : (0 < num)%nat.
Let r := (x - a) / (b - a) * INR num.
Lemma num_pos : 0 < INR num.
Proof. apply lt_0_INR. exact Hn. Qed.
Lemma fi_fst : fst (find_interval a b num x) = (Z.min (Z.of_nat num) (Z.max 1 (Rceil r)) - 1)%Z.
Proof. reflexivity. Qed.
Lemma fi_snd : snd (find_interval a b num x) = Rmin 1 (Rmax (-1) (2 * (r - IZR (fst (find_interval a b num x))) - 1)).
Proof.
  rewrite fi_fst. unfold find_interval. cbn [snd]. fold r. f_equal. f_equal.
  set (i := Z.min _ _). rewrite minus_IZR. pose proof num_pos. unfold r. field. lra.
Qed.
Lemma fi_cases :
  let e := fst (find_interval a b num x) in let s := snd (find_interval a b num x) in
  (0 <= e < Z.of_nat num)%Z /\
  ((x < a /\ e = 0%Z /\ s = -1) \/ (x = a /\ e = 0%Z /\ s = -1) \/ (b < x /\ e = (Z.of_nat num - 1)%Z /\ s = 1) \/
   (a < x <= b /\ IZR e < r <= IZR e + 1 /\ s = 2 * (r - IZR e) - 1)).
Proof.
  pose proof num_pos as Np. cbv zeta. rewrite fi_snd. rewrite fi_fst. pose proof (Rceil_spec r) as (C1 & C2).
  split; [lia|].
  assert (K : forall y, (y - a) / (b - a) * INR num = (y - a) * (INR num / (b - a))) by (intros; unfold Rdiv; ring).
  assert (Q : 0 < INR num / (b - a)) by (apply Rdiv_lt_0_compat; lra).
  assert (QB : (b - a) * (INR num / (b - a)) = INR num) by (field; lra).
  assert (Er : r = (x - a) * (INR num / (b - a))) by (unfold r; apply K).
  destruct (Rlt_le_dec x a) as [L|L]; [left|].
  { assert (r < 0) by (rewrite Er; nra). assert (Rceil r < 1)%Z by (apply lt_IZR; lra).
    split; [exact L|]. replace (Z.min _ _) with 1%Z by lia. cbn. split; [reflexivity|].
    rewrite Rmax_left by lra. apply Rmin_right. lra. }
  destruct (Req_EM_T x a) as [E|NE]; [right; left|].
  { assert (R0 : r = 0) by (rewrite Er, E; ring). assert (Rceil r < 1)%Z by (apply lt_IZR; lra).
    split; [exact E|]. replace (Z.min _ _) with 1%Z by lia. cbn. split; [reflexivity|]. rewrite R0.
    rewrite Rmax_left by lra. apply Rmin_right. lra. }
  destruct (Rlt_le_dec b x) as [U|U]; [right; right; left|right; right; right].
  { assert (INR num < r) by (rewrite Er; nra). rewrite INR_IZR_INZ in H. assert (Z.of_nat num < Rceil r)%Z by (apply lt_IZR; lra).
    split; [exact U|]. replace (Z.min _ _) with (Z.of_nat num) by lia. split; [reflexivity|].
    rewrite minus_IZR. rewrite Rmax_right by lra. apply Rmin_left. lra. }
  assert (P0 : 0 < r) by (rewrite Er; nra). assert (P1 : r <= INR num) by (rewrite Er; nra). rewrite INR_IZR_INZ in P1.
  assert (0 < Rceil r)%Z by (apply lt_IZR; lra).
  assert (Rceil r < Z.of_nat num + 1)%Z by (apply lt_IZR; rewrite plus_IZR; lra).
  split; [lra|]. replace (Z.min _ _) with (Rceil r) by lia. rewrite minus_IZR. split; [lra|].
  rewrite Rmax_right by lra. apply Rmin_right. lra.
Qed.
Lemma fi_range : (0 <= fst (find_interval a b num x) < Z.of_nat num)%Z /\ -1 <= snd (find_interval a b num x) <= 1.
Proof.
  destruct fi_cases as (A & B). split; [exact A|].
  destruct B as [(_ & _ & ->)|[(_ & _ & ->)|[(_ & _ & ->)|(_ & B & ->)]]]; lra.
Qed.
Lemma fi_point : a + (b - a) * (IZR (fst (find_interval a b num x)) + (1 + snd (find_interval a b num x)) / 2) / INR num = nearest a b x.
Proof.
  pose proof num_pos. destruct fi_cases as (_ & B). unfold nearest.
  destruct B as [(L & -> & ->)|[(E & -> & ->)|[(U & -> & ->)|(I & B & ->)]]].
  - rewrite Rmax_left by lra. rewrite Rmin_right by lra. field. lra.
  - rewrite E, Rmax_left by lra. rewrite Rmin_right by lra. field. lra.
  - rewrite Rmax_right by lra. rewrite Rmin_left by lra. rewrite minus_IZR, <- INR_IZR_INZ. field. lra.
  - rewrite Rmax_right by lra. rewrite Rmin_right by lra. unfold r. field. lra.
Qed.
End FI.
Lemma fi_nearest a b num x : a < b -> (0 < num)%nat -> find_interval a b num (nearest a b x) = find_interval a b num x.
Proof.
  intros Hab Hn. assert (P : forall p q : Z * R, fst p = fst q -> snd p = snd q -> p = q) by (intros [? ?] [? ?]; cbn; congruence).
  destruct (Rlt_le_dec x a) as [L|L].
  - assert (E : nearest a b x = a) by (unfold nearest; rewrite Rmax_left by lra; apply Rmin_right; lra). rewrite E.
    destruct (fi_cases a b num x Hab Hn) as (_ & [(_ & A & B)|[C|[C|C]]]); try lra.
    destruct (fi_cases a b num a Hab Hn) as (_ & [C|[(_ & A' & B')|[C|C]]]); try lra.
    apply P; congruence.
  - destruct (Rlt_le_dec b x) as [U|U].
    + assert (E : nearest a b x = b) by (unfold nearest; rewrite Rmax_right by lra; apply Rmin_left; lra). rewrite E.
      destruct (fi_cases a b num x Hab Hn) as (_ & [C|[C|[(_ & A & B)|C]]]); try lra.
      destruct (fi_cases a b num b Hab Hn) as (_ & [C|[C|[C|(_ & A' & B')]]]); try lra.
      replace ((b - a) / (b - a) * INR num) with (IZR (Z.of_nat num)) in * by (rewrite <- INR_IZR_INZ; field; lra).
      set (e := fst (find_interval a b num b)) in *. destruct A' as (A1 & A2). rewrite <- plus_IZR in A2. apply lt_IZR in A1. apply le_IZR in A2.
      assert (Ee : e = (Z.of_nat num - 1)%Z) by lia. apply P; [fold e; lia|]. rewrite B', B, Ee, minus_IZR. lra.
    + rewrite nearest_id by lra. reflexivity.
Qed.

(** * Hermite basis *)
Definition Bc (p l : nat) : R :=
  nth p (nth l [[2; -3; 0; 1]; [2; 3; 0; -1]; [1; -1; -1; 1]; [-1; -1; 1; 1]] []) 0 / 4.
Definition dherm (k : nat) (s : R) : R :=
  match k with
  | 0%nat => (-3 + 3 * s * s) / 4 | 1%nat => (3 - 3 * s * s) / 4
  | 2%nat => (-1 - 2 * s + 3 * s * s) / 4 | _ => (-1 + 2 * s + 3 * s * s) / 4
  end.
Definition d2herm (k : nat) (s : R) : R :=
  match k with
  | 0%nat => (6 * s) / 4 | 1%nat => (- 6 * s) / 4
  | 2%nat => (- 2 + 6 * s) / 4 | _ => (2 + 6 * s) / 4
  end.
Lemma herm_derive k (s : R) : is_derive (herm k) s (dherm k s).
Proof.
  destruct k as [|[|[|k]]]; unfold herm, dherm; (auto_derive; [exact I|]; lra).
Qed.
Lemma dherm_derive k (s : R) : is_derive (dherm k) s (d2herm k s).
Proof.
  destruct k as [|[|[|k]]]; unfold dherm, d2herm; (auto_derive; [exact I|]; lra).
Qed.
Ltac four k H := destruct k as [|[|[|[|k]]]]; [| | | |exfalso; lia].
Lemma A4 k l : (k < 4)%nat -> (l < 4)%nat -> rsum 4 (fun p => c2n_factor k p * Bc p l) = if Nat.eqb k l then 1 else 0.
Proof.
  intros Hk Hl. four k Hk; four l Hl; unfold c2n_factor, deriv_of, xval_of, Bc; cbn; lra.
Qed.
Lemma herm_node k l : (k < 4)%nat -> (l < 4)%nat ->
  (if deriv_of k then dherm l (xval_of k) else herm l (xval_of k)) = if Nat.eqb k l then 1 else 0.
Proof. intros Hk Hl. four k Hk; four l Hl; cbn; lra. Qed.

(** * lists *)
Fixpoint lset {A} (k : nat) (v : A) (l : list A) : list A :=
  match l, k with [], _ => [] | _ :: r, O => v :: r | a :: r, S k => a :: lset k v r end.
Lemma lset_length {A} k (v : A) : forall l, length (lset k v l) = length l.
Proof. revert k. intros k l; revert k. induction l as [|a l IH]; intros [|k]; cbn; congruence. Qed.
Lemma lset_nth_eq {A} (d v : A) : forall l k, (k < length l)%nat -> nth k (lset k v l) d = v.
Proof. induction l as [|a l IH]; intros [|k] H; cbn in *; try lia; [reflexivity|]. apply IH. lia. Qed.
Lemma lset_nth_neq {A} (d v : A) : forall l k j, j <> k -> nth j (lset k v l) d = nth j l d.
Proof. induction l as [|a l IH]; intros [|k] [|j] H; cbn; try congruence; try reflexivity. apply IH. lia. Qed.

(** * grids *)
Lemma lprod_mult f g : forall is d, lprod d is (fun ix i => f ix i * g ix i) = lprod d is f * lprod d is g.
Proof. induction is as [|i is IH]; intros d; cbn; [ring|]. rewrite IH. ring. Qed.
Lemma msum_zero : forall ns F, (forall is, Forall2 lt is ns -> F is = 0) -> msum ns F = 0.
Proof.
  induction ns as [|n ns IH]; intros F H; cbn; [apply H; constructor|]. apply rsum_zero. intros i Hi. apply IH.
  intros is His. apply H. constructor; assumption.
Qed.
Lemma msum_pull F : forall ns d kx (G : list nat -> R), (kx < length ns)%nat ->
  msum ns (fun is => lprod d is F * G is) =
  rsum (nth kx ns 0%nat) (fun k => F (d + kx)%nat k * msum (lset kx 1%nat ns) (fun is => lprod d is (fun ix i => if Nat.eqb ix (d + kx) then 1 else F ix i) * G (lset kx k is))).
Proof.
  induction ns as [|n ns IH]; intros d kx G H; cbn [length] in H; [lia|]. destruct kx as [|kx].
  - cbn [nth lset msum]. apply rsum_ext. intros k Hk. cbn [rsum]. rewrite Rplus_0_l, <- msum_scal. apply msum_ext. intros is His.
    cbn [lprod lset]. rewrite Nat.add_0_r, Nat.eqb_refl.
    rewrite (lprod_ext (fun ix i => if Nat.eqb ix d then 1 else F ix i) F is (S d)); [ring|]. intros j Hj.
    destruct (Nat.eqb_spec (S d + j) d); [lia|reflexivity].
  - cbn [nth lset msum lprod]. replace (d + S kx)%nat with (S d + kx)%nat by lia.
    transitivity (rsum n (fun i => rsum (nth kx ns 0%nat) (fun k => F (S d + kx)%nat k *
       msum (lset kx 1%nat ns) (fun is => lprod (S d) is (fun ix j => if Nat.eqb ix (S d + kx) then 1 else F ix j) * (F d i * G (i :: lset kx k is)))))).
    + apply rsum_ext. intros i Hi. rewrite <- (IH (S d) kx (fun is => F d i * G (i :: is))) by lia.
      apply msum_ext. intros is _. ring.
    + rewrite rsum_swap. apply rsum_ext. intros k Hk. rewrite rsum_scal_l. f_equal. apply rsum_ext. intros i Hi. apply msum_ext. intros is His.
      destruct (Nat.eqb_spec d (S d + kx)); [lia|]. cbn [lset]. ring.
Qed.
Lemma msum_single (g : nat -> nat) : forall ns d G, (forall k, (k < length ns)%nat -> (g (d + k) < nth k ns 0)%nat) ->
  msum ns (fun is => lprod d is (fun ix k => if Nat.eqb (g ix) k then 1 else 0) * G is) = G (map g (seq d (length ns))).
Proof.
  induction ns as [|n ns IH]; intros d G H; cbn [msum lprod length seq map]; [ring|].
  rewrite (rsum_split n _ (g d)).
  - rewrite Nat.eqb_refl, rsum_zero.
    + rewrite Rplus_0_r. rewrite <- (IH (S d) (fun is => G (g d :: is))).
      * apply msum_ext. intros is _. ring.
      * intros k Hk. specialize (H (S k) ltac:(cbn; lia)). cbn in H. rewrite Nat.add_succ_r in H. exact H.
    + intros i Hi. rewrite Nat.eqb_sym. destruct (Nat.eqb_spec (g d) i); [reflexivity|]. apply msum_zero. intros; ring.
  - specialize (H 0%nat ltac:(cbn; lia)). cbn in H. rewrite Nat.add_0_r in H. exact H.
Qed.
Lemma forallb_shift (f : nat -> bool) n : forallb f (seq 1 n) = forallb (fun k => f (S k)) (seq 0 n).
Proof. rewrite <- seq_shift. induction (seq 0 n) as [|a l IH]; cbn; [reflexivity|]. rewrite IH. reflexivity. Qed.
Lemma sprod_delta (I J : nat -> nat) f : forall ns d,
  (forall k, (k < length ns)%nat -> rsum (nth k ns 0%nat) (f (d + k)%nat) = if Nat.eqb (I (d + k)%nat) (J (d + k)%nat) then 1 else 0) ->
  sprod d ns f = if forallb (fun k => Nat.eqb (I (d + k)%nat) (J (d + k)%nat)) (seq 0 (length ns)) then 1 else 0.
Proof.
  induction ns as [|n ns IH]; intros d H; cbn [sprod length seq forallb]; [reflexivity|].
  rewrite IH.
  - pose proof (H 0%nat ltac:(cbn; lia)) as H0. cbn [nth] in H0. rewrite Nat.add_0_r in H0. rewrite H0, Nat.add_0_r, forallb_shift.
    assert (E : forallb (fun k => Nat.eqb (I (d + S k)%nat) (J (d + S k)%nat)) (seq 0 (length ns)) = forallb (fun k => Nat.eqb (I (S d + k)%nat) (J (S d + k)%nat)) (seq 0 (length ns))).
    { generalize (seq 0 (length ns)). clear. induction l as [|a l IHl]; cbn; [reflexivity|]. rewrite IHl, Nat.add_succ_r. reflexivity. }
    rewrite E. destruct (Nat.eqb _ _); cbn [andb]; destruct (forallb _ _); ring.
  - intros k Hk. specialize (H (S k) ltac:(cbn; lia)). cbn [nth] in H. rewrite Nat.add_succ_r in H. exact H.
Qed.
