From Coq Require Import Reals ZArith Arith Bool List Lia Lra.
From Verif Require Import RSum Index_M.
Import ListNotations.
Open Scope list_scope.
Open Scope nat_scope.

Lemma prodl_cons n r : prodl (n :: r) = n * prodl r.
Proof. reflexivity. Qed.
Lemma expand_length ns : forall k, length (expand_index ns k) = length ns.
Proof. induction ns as [|n r IH]; intros k; cbn; [reflexivity|]. rewrite IH. reflexivity. Qed.
Lemma contract_cons n ns i is : contract_index (n :: ns) (i :: is) = contract_index ns is + i * snd (fold_right (fun (ni : nat * nat) (acc : nat * nat) =>
         let '(n, i) := ni in let '(index, prod) := acc in (index + i * prod, prod * n)) (0, 1) (combine ns is)).
Proof.
  unfold contract_index. cbn [combine fold_right]. destruct (fold_right _ (0, 1) (combine ns is)) as [a b]. reflexivity.
Qed.
Lemma contract_prod : forall ns is, length is = length ns -> snd (fold_right (fun (ni : nat * nat) (acc : nat * nat) =>
         let '(n, i) := ni in let '(index, prod) := acc in (index + i * prod, prod * n)) (0, 1) (combine ns is)) = prodl ns.
Proof.
  induction ns as [|n ns IH]; intros [|i is] H; cbn in H; try discriminate; [reflexivity|].
  cbn [combine fold_right]. specialize (IH is ltac:(lia)).
  destruct (fold_right _ (0, 1) (combine ns is)) as [a b]. cbn [snd] in *. rewrite IH, prodl_cons. lia.
Qed.
Lemma contract_cons' n ns i is : length is = length ns -> contract_index (n :: ns) (i :: is) = contract_index ns is + i * prodl ns.
Proof. intros H. rewrite contract_cons, contract_prod by exact H. reflexivity. Qed.

Lemma contract_expand : forall ns k, k < prodl ns -> contract_index ns (expand_index ns k) = k.
Proof.
  induction ns as [|n r IH]; intros k H; cbn [expand_index].
  - cbn in *. lia.
  - rewrite prodl_cons in H. rewrite contract_cons' by apply expand_length.
    assert (P : prodl r <> 0) by (intros E; rewrite E in H; lia).
    pose proof (Nat.div_mod k (prodl r) P). pose proof (Nat.mod_upper_bound k (prodl r) P).
    rewrite IH; nia.
Qed.
Lemma expand_bounds : forall ns k, k < prodl ns -> Forall2 lt (expand_index ns k) ns.
Proof.
  induction ns as [|n r IH]; intros k H; cbn [expand_index]; [constructor|].
  rewrite prodl_cons in H. assert (P : prodl r <> 0) by (intros E; rewrite E in H; lia).
  pose proof (Nat.div_mod k (prodl r) P). pose proof (Nat.mod_upper_bound k (prodl r) P).
  constructor; [apply Nat.div_lt_upper_bound; lia|]. apply IH. nia.
Qed.
Lemma F2_length {A B} (R : A -> B -> Prop) l l' : Forall2 R l l' -> length l = length l'.
Proof. induction 1; cbn; congruence. Qed.
Lemma contract_lt : forall ns is, Forall2 lt is ns -> contract_index ns is < prodl ns.
Proof.
  intros ns is H. induction H as [|i n is ns Hi H IH]; [cbn; lia|].
  rewrite contract_cons' by (eapply F2_length; exact H). rewrite prodl_cons. nia.
Qed.
Lemma expand_contract : forall ns is, Forall2 lt is ns -> expand_index ns (contract_index ns is) = is.
Proof.
  intros ns is H. induction H as [|i n is ns Hi H IH]; [reflexivity|].
  cbn [expand_index]. rewrite contract_cons' by (eapply F2_length; exact H).
  pose proof (contract_lt ns is H) as L.
  assert (E : (contract_index ns is + i * prodl ns) / prodl ns = i).
  { rewrite Nat.div_add by lia. rewrite Nat.div_small by exact L. reflexivity. }
  rewrite E. f_equal. replace (contract_index ns is + i * prodl ns - i * prodl ns) with (contract_index ns is) by lia. exact IH.
Qed.
Lemma contract_inj ns is js : Forall2 lt is ns -> Forall2 lt js ns -> contract_index ns is = contract_index ns js -> is = js.
Proof. intros H1 H2 E. rewrite <- (expand_contract ns is H1), E. apply expand_contract. exact H2. Qed.

(** nested sums over a grid *)
Fixpoint msum (ns : list nat) (G : list nat -> R) : R :=
  match ns with [] => G [] | n :: r => rsum n (fun i => msum r (fun is => G (i :: is))) end.
Lemma msum_ext : forall ns F G, (forall is, Forall2 lt is ns -> F is = G is) -> msum ns F = msum ns G.
Proof.
  induction ns as [|n r IH]; intros F G H; cbn; [apply H; constructor|].
  apply rsum_ext. intros i Hi. apply IH. intros is His. apply H. constructor; assumption.
Qed.
Open Scope R_scope.
Lemma rsum_mul n m f : rsum (n * m) f = rsum n (fun i => rsum m (fun j => f (i * m + j)%nat)).
Proof.
  induction n as [|n IH]; cbn [Nat.mul rsum]; [reflexivity|].
  rewrite Nat.add_comm, rsum_app, IH. reflexivity.
Qed.
Lemma msum_expand : forall ns G, rsum (prodl ns) (fun k => G (expand_index ns k)) = msum ns G.
Proof.
  induction ns as [|n r IH]; intros G; [cbn; ring|].
  rewrite prodl_cons, rsum_mul. cbn [msum]. apply rsum_ext. intros i Hi.
  destruct (Nat.eq_dec (prodl r) 0) as [E|E].
  - rewrite <- IH. rewrite E. reflexivity.
  - rewrite <- IH. apply rsum_ext. intros j Hj. f_equal. cbn [expand_index].
    assert (D : ((i * prodl r + j) / prodl r = i)%nat) by (rewrite Nat.add_comm, Nat.div_add by exact E; rewrite Nat.div_small by exact Hj; reflexivity).
    rewrite D. f_equal. f_equal. lia.
Qed.
Lemma msum_scal ns a F : msum ns (fun is => a * F is) = a * msum ns F.
Proof.
  revert F. induction ns as [|n r IH]; intros F; cbn; [reflexivity|].
  rewrite <- rsum_scal_l. apply rsum_ext. intros i _. apply (IH (fun is => F (i :: is))).
Qed.
Lemma msum_plus ns F G : msum ns (fun is => F is + G is) = msum ns F + msum ns G.
Proof.
  revert F G. induction ns as [|n r IH]; intros F G; cbn; [reflexivity|].
  rewrite <- rsum_plus. apply rsum_ext. intros i _. apply (IH (fun is => F (i :: is)) (fun is => G (i :: is))).
Qed.
Lemma msum_le ns F G : (forall is, Forall2 lt is ns -> F is <= G is) -> msum ns F <= msum ns G.
Proof.
  revert F G. induction ns as [|n r IH]; intros F G H; cbn; [apply H; constructor|].
  apply rsum_le. intros i Hi. apply IH. intros is His. apply H. constructor; assumption.
Qed.
(** product of one factor per dimension, [f d i] for dimension d *)
Fixpoint lprod (d : nat) (is : list nat) (f : nat -> nat -> R) : R :=
  match is with [] => 1 | i :: r => f d i * lprod (S d) r f end.
Fixpoint sprod (d : nat) (ns : list nat) (f : nat -> nat -> R) : R :=
  match ns with [] => 1 | n :: r => rsum n (f d) * sprod (S d) r f end.
Lemma msum_lprod : forall ns d f, msum ns (fun is => lprod d is f) = sprod d ns f.
Proof.
  induction ns as [|n r IH]; intros d f; cbn; [reflexivity|].
  rewrite <- rsum_scal_r. apply rsum_ext. intros i _. rewrite msum_scal, IH. reflexivity.
Qed.
Lemma msum_restrict : forall (ns ms ss : list nat) (G : list nat -> R),
  Forall2 (fun sn m => (fst sn + snd sn <= m)%nat) (combine ss ns) ms -> length ss = length ns ->
  (forall is, Forall2 lt is ms -> ~ Forall2 (fun i sn => (fst sn <= i < fst sn + snd sn)%nat) is (combine ss ns) -> G is = 0) ->
  msum ns (fun is => G (map (fun p => (fst p + snd p)%nat) (combine ss is))) = msum ms G.
Proof.
  induction ns as [|n r IH]; intros ms ss G H L Z.
  - destruct ss; [|discriminate]. cbn in H. inversion H; subst. reflexivity.
  - destruct ss as [|s ss]; [discriminate|]. cbn in H. inversion H as [|? m ? ms' H0 H1]; subst. cbn [fst snd] in H0.
    cbn [msum combine map fst snd].
    transitivity (rsum n (fun i => msum ms' (fun is => G ((s + i)%nat :: is)))).
    + apply rsum_ext. intros i Hi. apply (IH ms' ss (fun is => G ((s + i)%nat :: is))); [exact H1|cbn in L; lia|].
      intros is His N. apply Z; [constructor; [lia|exact His]|]. intros C. inversion C; subst. contradiction.
    + replace m with (s + (n + (m - s - n)))%nat by lia. rewrite !rsum_app.
      rewrite (rsum_zero s), (rsum_zero (m - s - n)); [ring| |].
      * intros i Hi. rewrite (msum_ext ms' _ (fun _ => 0)).
        -- clear. induction ms' as [|a l IHl]; cbn; [reflexivity|]. rewrite (rsum_ext a _ (fun _ => 0)) by (intros; exact IHl). apply rsum_0.
        -- intros is His. apply Z; [constructor; [lia|exact His]|]. intros C. inversion C; subst. cbn in *. lia.
      * intros i Hi. rewrite (msum_ext ms' _ (fun _ => 0)).
        -- clear. induction ms' as [|a l IHl]; cbn; [reflexivity|]. rewrite (rsum_ext a _ (fun _ => 0)) by (intros; exact IHl). apply rsum_0.
        -- intros is His. apply Z; [constructor; [lia|exact His]|]. intros C. inversion C; subst. cbn in *. lia.
Qed.

(** nearest point *)
Lemma nearest_in lo up x : lo <= up -> lo <= nearest lo up x <= up.
Proof.
  intros H. unfold nearest. split; [apply Rmin_glb; [exact H|apply Rmax_l]|apply Rmin_l].
Qed.
Lemma nearest_id lo up x : lo <= x <= up -> nearest lo up x = x.
Proof. intros H. unfold nearest. rewrite Rmax_right by lra. apply Rmin_right. lra. Qed.
Lemma nearest_closest lo up x y : lo <= y <= up -> Rabs (x - nearest lo up x) <= Rabs (x - y).
Proof.
  intros H. unfold nearest. unfold Rmin, Rmax. destruct (Rle_dec lo x); destruct (Rle_dec _ _); unfold Rabs; repeat destruct (Rcase_abs _); lra.
Qed.

(** quadrature grid *)
Lemma quad_coord_in lo up n i : lo < up -> (i < n)%nat ->
  lo + INR i / INR n * (up - lo) < quad_coord lo up n i < lo + INR (S i) / INR n * (up - lo).
Proof.
  intros H Hi. unfold quad_coord. assert (0 < INR n) by (apply lt_0_INR; lia). rewrite S_INR.
  assert (0 < / INR n) by (apply Rinv_0_lt_compat; assumption).
  set (w := / INR n) in *. unfold Rdiv. fold w. split; nra.
Qed.
Lemma quad_coord_mid lo up n i : (0 < n)%nat -> quad_coord lo up n i = ((lo + INR i / INR n * (up - lo)) + (lo + INR (S i) / INR n * (up - lo))) / 2.
Proof. intros H. unfold quad_coord. rewrite S_INR. field. apply not_0_INR. lia. Qed.
Lemma quad_coord_inj lo up n i j : lo < up -> (0 < n)%nat -> quad_coord lo up n i = quad_coord lo up n j -> i = j.
Proof.
  intros H Hn E. unfold quad_coord in E. assert (0 < INR n) by (apply lt_0_INR; lia).
  apply INR_eq. assert (/ INR n <> 0) by (apply Rinv_neq_0_compat; lra).
  set (w := / INR n) in *. unfold Rdiv in E. fold w in E. 
  assert ((INR i - INR j) * (w * (up - lo)) = 0) by lra.
  apply Rmult_integral in H2. destruct H2; [lra|]. apply Rmult_integral in H2. destruct H2; lra.
Qed.
Lemma F2_nth {A B} (R : A -> B -> Prop) da db : forall l l', Forall2 R l l' -> forall i, (i < length l')%nat -> R (nth i l da) (nth i l' db).
Proof. intros l l' H. induction H; intros [|i] Hi; cbn in *; try lia; auto. apply IHForall2. lia. Qed.
Lemma quad_point_in lo up nelems k ix : (k < prodl nelems)%nat -> (ix < length nelems)%nat -> lo ix < up ix -> lo ix < quad_point lo up nelems k ix < up ix.
Proof.
  intros Hk Hix H. unfold quad_point. pose proof (F2_nth lt 0%nat 0%nat _ _ (expand_bounds nelems k Hk) ix Hix) as B.
  set (n := nth ix nelems 0%nat) in *. set (i := nth ix (expand_index nelems k) 0%nat) in *.
  pose proof (quad_coord_in (lo ix) (up ix) n i H B) as [A C].
  assert (0 < INR n) by (apply lt_0_INR; lia). assert (0 < / INR n) by (apply Rinv_0_lt_compat; assumption).
  pose proof (pos_INR i). assert (INR (S i) <= INR n) by (apply le_INR; lia).
  assert (INR (S i) / INR n <= 1) by (apply Rmult_le_reg_r with (INR n); [assumption|]; unfold Rdiv; rewrite Rmult_assoc, Rinv_l by lra; lra).
  assert (0 <= INR i / INR n) by (unfold Rdiv; nra). split; nra.
Qed.
Lemma quad_point_inj lo up nelems j k : (j < prodl nelems)%nat -> (k < prodl nelems)%nat ->
  (forall ix, (ix < length nelems)%nat -> lo ix < up ix) ->
  (forall ix, (ix < length nelems)%nat -> quad_point lo up nelems j ix = quad_point lo up nelems k ix) -> j = k.
Proof.
  intros Hj Hk H E. rewrite <- (contract_expand nelems j Hj), <- (contract_expand nelems k Hk). f_equal.
  apply (nth_ext _ _ 0%nat 0%nat); [rewrite !expand_length; reflexivity|]. intros ix Hix. rewrite expand_length in Hix.
  apply (quad_coord_inj (lo ix) (up ix) (nth ix nelems 0%nat)); [apply H; exact Hix| |apply E; exact Hix].
  pose proof (F2_nth lt 0%nat 0%nat _ _ (expand_bounds nelems j Hj) ix Hix). lia.
Qed.

Lemma nearest_point lo up x : lo <= up ->
  let b := x - ext_dist lo up x in
  lo <= b <= up /\ (forall y, lo <= y <= up -> Rabs (x - b) <= Rabs (x - y)) /\ (ext_dist lo up x = 0 <-> lo <= x <= up).
Proof.
  intros H b. assert (E : b = nearest lo up x) by (unfold b, ext_dist; lra). rewrite E.
  pose proof (nearest_in lo up x H) as N. split; [exact N|]. split; [intros y Hy; apply nearest_closest; exact Hy|].
  unfold ext_dist. split; [lra|]. intros Hx. rewrite nearest_id by exact Hx. lra.
Qed.
