From Coq Require Import Reals Arith Bool List Permutation Lia Lra.
From Verif Require Import RSum LHS_M LHS_S.
Import ListNotations.
Open Scope list_scope.
Open Scope R_scope.

Section P.
Variables (n d p : nat) (fixed : list nat).
Variables (ints : nat -> nat) (unif : nat -> R).
Hypothesis Hn : (2 <= n)%nat.
Hypothesis Hd : (1 <= d)%nat.
Hypothesis Hp : (1 <= p)%nat.

Definition d2 (X : plan) i j := rsum d (fun k => (X i k - X j k) ^ 2).
Definition inj_cols (X : plan) := forall k, (k < d)%nat -> NoDup (column n X k).

Lemma inj_col_neq X k i j : inj_cols X -> (k < d)%nat -> (i < n)%nat -> (j < n)%nat -> i <> j -> X i k <> X j k.
Proof.
  intros H Hk Hi Hj N E. specialize (H k Hk). unfold column in H.
  apply N. rewrite NoDup_nth with (d := X 0%nat k) in H.
  assert (L : length (map (fun i0 => X i0 k) (seq 0 n)) = n) by (rewrite map_length, seq_length; reflexivity).
  assert (Q : forall m, (m < n)%nat -> nth m (map (fun i0 => X i0 k) (seq 0 n)) (X 0%nat k) = X m k).
  { intros m Hm. change (X 0%nat k) with ((fun i0 => X i0 k) 0%nat). rewrite map_nth, seq_nth by exact Hm. reflexivity. }
  apply H; [lia|lia|]. rewrite !Q by assumption. exact E.
Qed.

Lemma d2_nonneg X i j : 0 <= d2 X i j.
Proof. apply rsum_nonneg. intros k _. apply pow2_ge_0. Qed.
Lemma d2_pos X i j : inj_cols X -> (i < n)%nat -> (j < n)%nat -> i <> j -> 0 < d2 X i j.
Proof.
  intros H Hi Hj N. apply (rsum_pos d _ 0%nat); [intros; apply pow2_ge_0|lia|].
  pose proof (inj_col_neq X 0 i j H ltac:(lia) Hi Hj N).
  assert (X i 0%nat - X j 0%nat <> 0) by lra. nra.
Qed.
Lemma d2_sym X i j : d2 X i j = d2 X j i.
Proof. apply rsum_ext. intros k _. ring. Qed.
Lemma dist_d2 X i j : dist d X i j = sqrt (d2 X i j).
Proof. reflexivity. Qed.

Definition g (X : plan) i j := ipow p (dist d X i j).
Lemma g_sym X i j : g X i j = g X j i.
Proof. unfold g. rewrite !dist_d2, d2_sym. reflexivity. Qed.
Lemma g_pos X i j : inj_cols X -> (i < n)%nat -> (j < n)%nat -> i <> j -> 0 < g X i j.
Proof.
  intros H Hi Hj N. unfold g, ipow. apply Rinv_0_lt_compat, pow_lt. rewrite dist_d2. apply sqrt_lt_R0, d2_pos; assumption.
Qed.
Definition total (X : plan) := rsum n (fun i => rsum i (fun j => g X i j)).
Lemma total_pos X : inj_cols X -> 0 < total X.
Proof.
  intros H. unfold total. apply (rsum_pos n _ 1%nat); [|lia|].
  - intros i Hi. apply rsum_nonneg. intros j Hj. left. apply g_pos; auto; lia.
  - cbn. pose proof (g_pos X 1 0 H ltac:(lia) ltac:(lia) ltac:(lia)). lra.
Qed.

Lemma root_pow x : 0 < x -> root p x ^ p = x.
Proof.
  intros Hx. unfold root. destruct (Rle_dec x 0) as [C|_]; [lra|].
  assert (Pp : INR p <> 0) by (apply not_0_INR; lia).
  rewrite <- Rpower_pow by (apply exp_pos). rewrite Rpower_mult, Rinv_l by exact Pp. apply Rpower_1; exact Hx.
Qed.
Lemma root_nonneg x : 0 <= root p x.
Proof. unfold root. destruct (Rle_dec x 0); [lra|]. left. apply exp_pos. Qed.
Lemma root_mono x y : 0 < x -> 0 < y -> (root p x <= root p y <-> x <= y).
Proof.
  intros Hx Hy. split; intros H.
  - rewrite <- (root_pow x Hx), <- (root_pow y Hy). apply pow_incr. split; [apply root_nonneg|exact H].
  - unfold root. destruct (Rle_dec x 0); [lra|]. destruct (Rle_dec y 0); [lra|].
    apply Rle_Rpower_l; [|split; assumption]. left. apply Rinv_0_lt_compat, lt_0_INR. lia.
Qed.
Lemma phi_total X : phiP n d p X = root p (total X).
Proof. reflexivity. Qed.

(** ** exchange *)
Definition tau (i1 i2 i : nat) : nat := if Nat.eqb i i1 then i2 else if Nat.eqb i i2 then i1 else i.
Lemma swap_col X i1 i2 k i : swap X i1 i2 k i k = X (tau i1 i2 i) k.
Proof. unfold swap, tau. rewrite Nat.eqb_refl. destruct (Nat.eqb i i1); [reflexivity|]. destruct (Nat.eqb i i2); reflexivity. Qed.
Lemma swap_other X i1 i2 k i c : c <> k -> swap X i1 i2 k i c = X i c.
Proof. intros H. unfold swap. destruct (Nat.eqb_spec c k); [contradiction|reflexivity]. Qed.
Lemma tau_lt i1 i2 i : (i1 < n)%nat -> (i2 < n)%nat -> (i < n)%nat -> (tau i1 i2 i < n)%nat.
Proof. unfold tau. destruct (Nat.eqb i i1); [auto|]. destruct (Nat.eqb i i2); auto. Qed.
Lemma tau_invol i1 i2 i : tau i1 i2 (tau i1 i2 i) = i.
Proof.
  unfold tau. destruct (Nat.eqb_spec i i1) as [-> |N1].
  - destruct (Nat.eqb_spec i2 i1) as [-> |N]; [reflexivity|]. rewrite Nat.eqb_refl. reflexivity.
  - destruct (Nat.eqb_spec i i2) as [-> |N2].
    + rewrite Nat.eqb_refl. reflexivity.
    + destruct (Nat.eqb_spec i i1); [contradiction|]. destruct (Nat.eqb_spec i i2); [contradiction|reflexivity].
Qed.
Lemma tau_perm i1 i2 : (i1 < n)%nat -> (i2 < n)%nat -> Permutation (map (tau i1 i2) (seq 0 n)) (seq 0 n).
Proof.
  intros H1 H2. apply NoDup_Permutation.
  - apply FinFun.Injective_map_NoDup; [|apply seq_NoDup]. intros a b E. rewrite <- (tau_invol i1 i2 a), E. apply tau_invol.
  - apply seq_NoDup.
  - intros x. rewrite in_map_iff, in_seq. split.
    + intros (y & <- & Hy). apply in_seq in Hy. pose proof (tau_lt i1 i2 y H1 H2). lia.
    + intros Hx. exists (tau i1 i2 x). split; [apply tau_invol|]. apply in_seq. pose proof (tau_lt i1 i2 x H1 H2). lia.
Qed.
Lemma swap_perm X i1 i2 k c : (i1 < n)%nat -> (i2 < n)%nat ->
  Permutation (column n (swap X i1 i2 k) c) (column n X c).
Proof.
  intros H1 H2. unfold column. destruct (Nat.eq_dec c k) as [-> |N].
  - rewrite (map_ext (fun i => swap X i1 i2 k i k) (fun i => X (tau i1 i2 i) k)) by (intros; apply swap_col).
    rewrite <- (map_map (tau i1 i2) (fun i => X i k)). apply Permutation_map, tau_perm; assumption.
  - rewrite (map_ext (fun i => swap X i1 i2 k i c) (fun i => X i c)) by (intros; apply swap_other; exact N). apply Permutation_refl.
Qed.
Lemma perm_inj X Y : inj_cols X -> (forall k, (k < d)%nat -> Permutation (column n Y k) (column n X k)) -> inj_cols Y.
Proof. intros H P k Hk. eapply Permutation_NoDup; [apply Permutation_sym, P; exact Hk|apply H; exact Hk]. Qed.

(** distances after the exchange *)
Lemma d2_swap_out X i1 i2 k i j : i <> i1 -> i <> i2 -> j <> i1 -> j <> i2 -> d2 (swap X i1 i2 k) i j = d2 X i j.
Proof.
  intros A B C D. apply rsum_ext. intros c _. unfold swap.
  destruct (Nat.eqb c k); [|reflexivity].
  destruct (Nat.eqb_spec i i1); [contradiction|]. destruct (Nat.eqb_spec i i2); [contradiction|].
  destruct (Nat.eqb_spec j i1); [contradiction|]. destruct (Nat.eqb_spec j i2); [contradiction|]. reflexivity.
Qed.
Lemma d2_swap_both X i1 i2 k : i1 <> i2 -> d2 (swap X i1 i2 k) i1 i2 = d2 X i1 i2.
Proof.
  intros N. apply rsum_ext. intros c _. unfold swap. destruct (Nat.eqb_spec c k) as [-> |]; [|reflexivity].
  rewrite !Nat.eqb_refl. destruct (Nat.eqb_spec i2 i1); [congruence|]. ring.
Qed.
Lemma d2_swap_1 X i1 i2 k m : (k < d)%nat -> m <> i1 -> m <> i2 ->
  d2 (swap X i1 i2 k) i1 m = d2 X i1 m + (X i2 k - X m k) ^ 2 - (X i1 k - X m k) ^ 2.
Proof.
  intros Hk A B. unfold d2. rewrite (rsum_split d _ k Hk), (rsum_split d (fun k0 => (X i1 k0 - X m k0) ^ 2) k Hk).
  rewrite (rsum_ext d (fun i => if Nat.eqb i k then 0 else (swap X i1 i2 k i1 i - swap X i1 i2 k m i) ^ 2)
                      (fun i => if Nat.eqb i k then 0 else (X i1 i - X m i) ^ 2)).
  - rewrite !swap_col. unfold tau. rewrite Nat.eqb_refl.
    destruct (Nat.eqb_spec m i1); [contradiction|]. destruct (Nat.eqb_spec m i2); [contradiction|]. ring.
  - intros c _. destruct (Nat.eqb_spec c k); [reflexivity|]. rewrite !swap_other by assumption. reflexivity.
Qed.
Lemma d2_swap_2 X i1 i2 k m : (k < d)%nat -> i1 <> i2 -> m <> i1 -> m <> i2 ->
  d2 (swap X i1 i2 k) i2 m = d2 X i2 m - (X i2 k - X m k) ^ 2 + (X i1 k - X m k) ^ 2.
Proof.
  intros Hk N A B. unfold d2. rewrite (rsum_split d _ k Hk), (rsum_split d (fun k0 => (X i2 k0 - X m k0) ^ 2) k Hk).
  rewrite (rsum_ext d (fun i => if Nat.eqb i k then 0 else (swap X i1 i2 k i2 i - swap X i1 i2 k m i) ^ 2)
                      (fun i => if Nat.eqb i k then 0 else (X i2 i - X m i) ^ 2)).
  - rewrite !swap_col. unfold tau. rewrite Nat.eqb_refl.
    destruct (Nat.eqb_spec i2 i1); [congruence|].
    destruct (Nat.eqb_spec m i1); [contradiction|]. destruct (Nat.eqb_spec m i2); [contradiction|]. ring.
  - intros c _. destruct (Nat.eqb_spec c k); [reflexivity|]. rewrite !swap_other by assumption. reflexivity.
Qed.

(** pair sums as half of full double sums *)
Lemma pair_sum_full (D : nat -> nat -> R) : (forall i j, D i j = D j i) -> (forall i, D i i = 0) ->
  forall m, rsum m (fun i => rsum m (fun j => D i j)) = 2 * rsum m (fun i => rsum i (fun j => D i j)).
Proof.
  intros S Z m. induction m as [|m IH]; [cbn; ring|]. cbn [rsum]. rewrite rsum_plus, IH, Z.
  rewrite (rsum_ext m (fun i => D i m) (fun j => D m j)) by (intros; apply S). ring.
Qed.
Lemma rsum_two i1 i2 f : (i1 < n)%nat -> (i2 < n)%nat -> i1 <> i2 ->
  rsum n f = f i1 + f i2 + rsum_others n i1 i2 f.
Proof.
  intros H1 H2 N. unfold rsum_others. rewrite (rsum_split n f i1 H1).
  rewrite (rsum_split n (fun i => if Nat.eqb i i1 then 0 else f i) i2 H2).
  destruct (Nat.eqb_spec i2 i1); [congruence|]. rewrite Rplus_assoc. f_equal. f_equal.
  apply rsum_ext. intros i _. destruct (Nat.eqb i i1), (Nat.eqb i i2); reflexivity.
Qed.
Lemma others_ext i1 i2 f f' : (forall m, (m < n)%nat -> m <> i1 -> m <> i2 -> f m = f' m) ->
  rsum_others n i1 i2 f = rsum_others n i1 i2 f'.
Proof.
  intros H. unfold rsum_others. apply rsum_ext. intros m Hm.
  destruct (Nat.eqb_spec m i1); [reflexivity|]. destruct (Nat.eqb_spec m i2); [reflexivity|]. cbn. apply H; assumption.
Qed.

Lemma total_swap X i1 i2 k : (k < d)%nat -> (i1 < n)%nat -> (i2 < n)%nat -> i1 <> i2 ->
  total (swap X i1 i2 k) = total X + rsum_others n i1 i2 (fun m =>
     g (swap X i1 i2 k) i1 m - g X i1 m + g (swap X i1 i2 k) i2 m - g X i2 m).
Proof.
  intros Hk H1 H2 N. set (Y := swap X i1 i2 k).
  set (D := fun i j => if Nat.eqb i j then 0 else g Y i j - g X i j).
  assert (S : forall i j, D i j = D j i).
  { intros i j. unfold D. rewrite Nat.eqb_sym. destruct (Nat.eqb j i); [reflexivity|]. rewrite (g_sym Y), (g_sym X). reflexivity. }
  assert (Z : forall i, D i i = 0) by (intros i; unfold D; rewrite Nat.eqb_refl; reflexivity).
  assert (T : total Y - total X = rsum n (fun i => rsum i (fun j => D i j))).
  { unfold total. rewrite <- rsum_minus. apply rsum_ext. intros i _. rewrite <- rsum_minus. apply rsum_ext.
    intros j Hj. unfold D. destruct (Nat.eqb_spec i j); [lia|reflexivity]. }
  assert (O : forall i j, i <> i1 -> i <> i2 -> j <> i1 -> j <> i2 -> D i j = 0).
  { intros i j A B C E. unfold D. destruct (Nat.eqb i j); [reflexivity|]. unfold g. rewrite !dist_d2. unfold Y.
    rewrite d2_swap_out by assumption. ring. }
  assert (B12 : D i1 i2 = 0).
  { unfold D. destruct (Nat.eqb i1 i2); [reflexivity|]. unfold g. rewrite !dist_d2. unfold Y. rewrite d2_swap_both by exact N. ring. }
  pose proof (pair_sum_full D S Z n) as F.
  assert (G : rsum n (fun i => rsum n (fun j => D i j)) = 2 * rsum_others n i1 i2 (fun m => D i1 m + D i2 m)).
  { rewrite (rsum_two i1 i2 _ H1 H2 N).
    rewrite (rsum_two i1 i2 (fun j => D i1 j) H1 H2 N), (rsum_two i1 i2 (fun j => D i2 j) H1 H2 N).
    rewrite !Z, B12, (S i2 i1), B12.
    rewrite (others_ext i1 i2 (fun i => rsum n (fun j => D i j)) (fun m => D i1 m + D i2 m)).
    - unfold rsum_others. 
      rewrite (rsum_ext n (fun m => if Nat.eqb m i1 || Nat.eqb m i2 then 0 else D i1 m + D i2 m)
        (fun m => (if Nat.eqb m i1 || Nat.eqb m i2 then 0 else D i1 m) + (if Nat.eqb m i1 || Nat.eqb m i2 then 0 else D i2 m)))
        by (intros m _; destruct (Nat.eqb m i1 || Nat.eqb m i2); ring).
      rewrite rsum_plus. ring.
    - intros m Hm A B. rewrite (rsum_two i1 i2 (fun j => D m j) H1 H2 N).
      rewrite (others_ext i1 i2 (fun j => D m j) (fun _ => 0)) by (intros j Hj C E; apply O; assumption).
      unfold rsum_others. rewrite (rsum_zero n) by (intros q _; destruct (Nat.eqb q i1 || Nat.eqb q i2); reflexivity).
      rewrite (S m i1), (S m i2). ring. }
  assert (total Y = total X + rsum_others n i1 i2 (fun m => D i1 m + D i2 m)) as -> by lra.
  f_equal. apply others_ext. intros m Hm A B. unfold D.
  destruct (Nat.eqb_spec i1 m); [congruence|]. destruct (Nat.eqb_spec i2 m); [congruence|]. ring.
Qed.

Lemma exchange_phi X i1 i2 k : inj_cols X -> (k < d)%nat -> (i1 < n)%nat -> (i2 < n)%nat -> i1 <> i2 ->
  snd (exchange_at n d p X i1 i2 k (phiP n d p X)) = phiP n d p (fst (exchange_at n d p X i1 i2 k (phiP n d p X))).
Proof.
  intros HX Hk H1 H2 N. unfold exchange_at. cbn [fst snd]. rewrite !phi_total. rewrite (root_pow _ (total_pos X HX)).
  rewrite (total_swap X i1 i2 k Hk H1 H2 N). f_equal. f_equal.
  apply others_ext. intros m Hm A B. unfold g.
  assert (P1 : dist d X i1 m ^ 2 = d2 X i1 m) by (rewrite dist_d2; rewrite pow2_sqrt; [reflexivity|apply d2_nonneg]).
  assert (P2 : dist d X i2 m ^ 2 = d2 X i2 m) by (rewrite dist_d2; rewrite pow2_sqrt; [reflexivity|apply d2_nonneg]).
  rewrite P1, P2, <- (d2_swap_1 X i1 i2 k m Hk A B), <- (d2_swap_2 X i1 i2 k m Hk N A B), <- !dist_d2. reflexivity.
Qed.

(** ** loop invariant *)
Variable X0 : plan.
Hypothesis HX0 : inj_cols X0.

Definition good (Y : plan) : Prop :=
  (forall k, (k < d)%nat -> Permutation (column n Y k) (column n X0 k)) /\
  (forall i k, In i fixed -> Y i k = X0 i k).
Lemma good_inj Y : good Y -> inj_cols Y.
Proof. intros [P _]. eapply perm_inj; [exact HX0|exact P]. Qed.
Lemma good_swap Y i1 i2 k : good Y -> (i1 < n)%nat -> (i2 < n)%nat -> ~ In i1 fixed -> ~ In i2 fixed -> good (swap Y i1 i2 k).
Proof.
  intros [P F] H1 H2 N1 N2. split.
  - intros c Hc. eapply Permutation_trans; [apply swap_perm; assumption|apply P; exact Hc].
  - intros i c Hi. rewrite <- (F i c Hi). unfold swap. destruct (Nat.eqb_spec c k); [|reflexivity].
    destruct (Nat.eqb_spec i i1); [subst; contradiction|]. destruct (Nat.eqb_spec i i2); [subst; contradiction|reflexivity].
Qed.

Lemma draw_spec fuel excl : forall q v q', draw n ints fuel excl q = Some (v, q') -> (v < n)%nat /\ ~ In v excl.
Proof.
  induction fuel as [|f IH]; intros q v q' H; cbn [draw] in H; [discriminate|].
  destruct (existsb (Nat.eqb (ints q mod n)) excl) eqn:E; [eapply IH; exact H|]. injection H as <- _.
  split; [apply Nat.mod_upper_bound; lia|]. intros C.
  assert (existsb (Nat.eqb (ints q mod n)) excl = true) by (apply existsb_exists; eexists; split; [exact C|apply Nat.eqb_refl]).
  congruence.
Qed.

Definition SInv (s : st) : Prop :=
  (1 <= next s)%nat /\ heap s 0 = X0 /\ forall l, (l < next s)%nat -> good (heap s l).

Lemma exchange_inv fuel s l k r s' : (k < d)%nat -> SInv s -> (1 <= l < next s)%nat ->
  exchange n d p fixed ints fuel s l k (phiP n d p (heap s l)) = Some (s', r) ->
  SInv s' /\ next s' = next s /\ r = phiP n d p (heap s' l) /\ (forall m, m <> l -> heap s' m = heap s m).
Proof.
  intros Hk (N1 & H0 & G) Hl H. unfold exchange in H.
  destruct (draw n ints fuel fixed (pos s)) as [[i1 p1]|] eqn:D1; [|discriminate].
  destruct (draw n ints fuel (i1 :: fixed) p1) as [[i2 p2]|] eqn:D2; [|discriminate].
  apply draw_spec in D1. apply draw_spec in D2. destruct D1 as [L1 F1], D2 as [L2 F2].
  assert (Ne : i1 <> i2) by (intros ->; apply F2; left; reflexivity).
  assert (F2' : ~ In i2 fixed) by (intros C; apply F2; right; exact C).
  pose proof (G l ltac:(lia)) as Gl. pose proof (exchange_phi (heap s l) i1 i2 k (good_inj _ Gl) Hk L1 L2 Ne) as E.
  destruct (exchange_at n d p (heap s l) i1 i2 k (phiP n d p (heap s l))) as [Y r0] eqn:EY.
  assert (Y = swap (heap s l) i1 i2 k) as -> by (unfold exchange_at in EY; injection EY as <- _; reflexivity).
  injection H as <- <-. cbn [fst snd] in E. unfold SInv; cbn [heap next pos]. unfold upd_heap at 1 2 3 4.
  rewrite Nat.eqb_refl. split; [|split; [reflexivity|split; [exact E|]]].
  - split; [exact N1|]. split; [destruct (Nat.eqb_spec 0 l); [lia|exact H0]|].
    intros m Hm. destruct (Nat.eqb_spec m l) as [-> |]; [|apply G; exact Hm].
    apply (good_swap (heap s l) i1 i2 k Gl L1 L2 F1 F2').
  - intros m Hm. unfold upd_heap. destruct (Nat.eqb_spec m l); [contradiction|reflexivity].
Qed.

Lemma candidates_inv fuel k : (k < d)%nat -> forall J s cur s' cs, SInv s -> (cur < next s)%nat ->
  candidates n d p fixed ints fuel J s cur k (phiP n d p (heap s cur)) = Some (s', cs) ->
  SInv s' /\ (next s <= next s')%nat /\ (forall l, (l < next s)%nat -> heap s' l = heap s l) /\
  (forall l r, In (l, r) cs -> (next s <= l < next s')%nat /\ r = phiP n d p (heap s' l)).
Proof.
  intros Hk J. induction J as [|J IH]; intros s cur s' cs HS Hc H; cbn [candidates] in H.
  - injection H as <- <-. split; [exact HS|]. split; [lia|]. split; [reflexivity|]. intros l r [].
  - set (s1 := {| heap := upd_heap (heap s) (next s) (heap s cur); next := S (next s); pos := pos s |}) in *.
    assert (Hcopy : heap s1 (next s) = heap s cur) by (cbn; unfold upd_heap; rewrite Nat.eqb_refl; reflexivity).
    assert (Hold : forall m, (m < next s)%nat -> heap s1 m = heap s m).
    { intros m Hm. cbn. unfold upd_heap. destruct (Nat.eqb_spec m (next s)); [lia|reflexivity]. }
    assert (S1 : SInv s1).
    { destruct HS as (A & B & C). split; [cbn; lia|]. split; [rewrite Hold by lia; exact B|].
      intros m Hm. cbn [next s1] in Hm. destruct (Nat.eq_dec m (next s)) as [-> |]; [rewrite Hcopy; apply C; exact Hc|].
      rewrite Hold by lia. apply C; lia. }
    destruct (exchange n d p fixed ints fuel s1 (next s) k (phiP n d p (heap s cur))) as [[s2 r]|] eqn:E1; [|discriminate].
    rewrite <- Hcopy in E1. apply exchange_inv in E1; [|exact Hk|exact S1|destruct HS; cbn; lia].
    destruct E1 as (S2 & N2 & Er & Ho2). cbn [next s1] in N2.
    destruct (candidates n d p fixed ints fuel J s2 cur k (phiP n d p (heap s cur))) as [[s3 cs']|] eqn:E2; [|discriminate].
    injection H as <- <-.
    assert (Hcur : heap s2 cur = heap s cur) by (rewrite Ho2 by lia; apply Hold; exact Hc).
    rewrite <- Hcur in E2. apply IH in E2; [|exact S2|lia]. destruct E2 as (S3 & N3 & Ho3 & Hcs).
    split; [exact S3|]. split; [lia|]. split.
    + intros l Hl. rewrite Ho3 by lia. rewrite Ho2 by lia. apply Hold; exact Hl.
    + intros l r' [E|Hin].
      * injection E as <- <-. split; [lia|]. rewrite Er, Ho3 by lia. reflexivity.
      * destruct (Hcs l r' Hin) as [A B]. split; [lia|exact B].
Qed.

Lemma argmin_In : forall cs b, In (argmin b cs) (b :: cs).
Proof.
  induction cs as [|c cs IH]; intros b; cbn [argmin]; [left; reflexivity|].
  destruct (IH (if Rlt_dec (snd c) (snd b) then c else b)) as [E|E].
  - rewrite <- E. destruct (Rlt_dec (snd c) (snd b)); [right; left; reflexivity|left; reflexivity].
  - right; right; exact E.
Qed.

Definition LInv (L : loop) : Prop :=
  SInv (s_ L) /\ (cur L < next (s_ L))%nat /\ (best L < next (s_ L))%nat /\
  phi_ L = phiP n d p (heap (s_ L) (cur L)) /\ phi_best L = phiP n d p (heap (s_ L) (best L)) /\
  phi_best L <= phiP n d p X0.

Lemma inner_body_inv fuel J T i L L' : LInv L -> inner_body n d p fixed ints unif fuel J T i L = Some L' -> LInv L'.
Proof.
  intros (HS & Hc & Hb & Ep & Eb & Le) H. unfold inner_body in H. rewrite Ep in H.
  destruct (candidates n d p fixed ints fuel J (s_ L) (cur L) ((i + 1) mod d) (phiP n d p (heap (s_ L) (cur L)))) as [[s' cs]|] eqn:E; [|discriminate].
  assert (Hk : ((i + 1) mod d < d)%nat) by (apply Nat.mod_upper_bound; lia).
  apply candidates_inv in E; [|exact Hk|exact HS|exact Hc]. destruct E as (S' & N' & Ho & Hcs).
  destruct cs as [|c cs]; [discriminate|].
  destruct (argmin c cs) as [k pt] eqn:Ea. pose proof (argmin_In cs c) as Hin. rewrite Ea in Hin.
  destruct (Hcs k pt Hin) as [Hk1 Hk2].
  assert (Hcur : heap s' (cur L) = heap (s_ L) (cur L)) by (apply Ho; exact Hc).
  assert (Hbest : heap s' (best L) = heap (s_ L) (best L)) by (apply Ho; exact Hb).
  destruct (Rle_dec _ _) as [A|A].
  - destruct (Rlt_dec pt (phi_best L)) as [B|B]; injection H as <-; unfold LInv; cbn.
    + split; [exact S'|]. repeat split; try lia; auto. lra.
    + split; [exact S'|]. repeat split; try lia; auto. rewrite Eb, Hbest. reflexivity.
  - injection H as <-. unfold LInv; cbn. split; [exact S'|]. repeat split; try lia; auto.
    + rewrite <- Hcur. reflexivity.
    + rewrite Eb, Hbest. reflexivity.
Qed.
Lemma inner_loop_inv fuel J T : forall todo i L L', LInv L -> inner_loop n d p fixed ints unif fuel J T todo i L = Some L' -> LInv L'.
Proof.
  induction todo as [|t IH]; intros i L L' HL H; cbn [inner_loop] in H; [injection H as <-; exact HL|].
  destruct (inner_body n d p fixed ints unif fuel J T i L) as [L1|] eqn:E; [|discriminate].
  eapply IH; [eapply inner_body_inv; eassumption|exact H].
Qed.
Lemma outer_loop_inv fuel J ni tol : forall todo T L L', LInv L -> outer_loop n d p fixed ints unif fuel J ni tol todo T L = Some L' -> LInv L'.
Proof.
  induction todo as [|t IH]; intros T L L' HL H; cbn [outer_loop] in H; [injection H as <-; exact HL|].
  match type of H with context [inner_loop _ _ _ _ _ _ _ _ _ _ _ ?l] => set (L0 := l) in H end.
  destruct (inner_loop n d p fixed ints unif fuel J T ni 0 L0) as [L1|] eqn:E; [|discriminate].
  eapply IH; [|exact H]. eapply inner_loop_inv; [|exact E]. exact HL.
Qed.

Lemma ese_inv fuel J ni no tol h b : maximinESE n d p fixed ints unif fuel J ni no tol X0 = Some (h, b) ->
  h 0%nat = X0 /\ good (h b) /\ phiP n d p (h b) <= phiP n d p X0.
Proof.
  unfold maximinESE. intros H.
  match type of H with context [outer_loop _ _ _ _ _ _ _ _ _ _ _ ?t ?l] => set (L0 := l) in H; set (T0 := t) in H end.
  destruct (outer_loop n d p fixed ints unif fuel J ni tol no T0 L0) as [L'|] eqn:E; [|discriminate].
  injection H as <- <-. apply outer_loop_inv in E.
  - destruct E as (HS & Hc & Hb & Ep & Eb & Le). destruct HS as (A & B & C). split; [exact B|]. split; [apply C; exact Hb|]. rewrite <- Eb. exact Le.
  - unfold LInv; cbn. split; [|repeat split; try lia; lra].
    split; [cbn; lia|]. split; [reflexivity|]. intros l _. cbn. split; [intros; apply Permutation_refl|reflexivity].
Qed.

Lemma phi_criterion X : inj_cols X -> criterion_p n d p X (phiP n d p X).
Proof. intros H. split; [apply root_nonneg|]. rewrite phi_total. rewrite root_pow by (apply total_pos; exact H). reflexivity. Qed.
End P.

(** Latin property is a property of the columns' value sets *)
Lemma latin_NoDup n X k : latin n X k -> (1 <= n)%nat ->
  forall Y, Permutation (column n Y k) (column n X k) -> latin n Y k.
Proof.
  intros [E U] Hn Y P.
  assert (Q : forall Z m, (m < n)%nat -> nth m (column n Z k) (Z 0%nat k) = Z m k).
  { intros Z m Hm. unfold column. change (Z 0%nat k) with ((fun i0 => Z i0 k) 0%nat). rewrite map_nth, seq_nth by exact Hm. reflexivity. }
  assert (L : forall Z, length (column n Z k) = n) by (intros; unfold column; rewrite map_length, seq_length; reflexivity).
  pose proof (proj1 (Permutation_nth _ _ (X 0%nat k)) (Permutation_sym P)) as PN. cbn zeta in PN. destruct PN as (_ & f & Hf1 & Hf2 & Hf3).
  rewrite L in *.
  assert (YX : forall i, (i < n)%nat -> Y i k = X (f i) k).
  { intros i Hi. specialize (Hf3 i Hi). rewrite (nth_indep _ _ (Y 0%nat k)) in Hf3 by (rewrite L; exact Hi). rewrite Q in Hf3 by exact Hi.
    rewrite Hf3. apply Q. apply Hf1; exact Hi. }
  pose proof Hf2 as Inj.
  assert (Sur : forall m, (m < n)%nat -> exists i, (i < n)%nat /\ f i = m).
  { pose proof (proj1 (FinFun.bInjective_bSurjective Hf1) Hf2) as S. exact S. }
  split.
  - intros j Hj. destruct (E j Hj) as (i & Hi & B). destruct (Sur i Hi) as (i' & Hi' & <-). exists i'. split; [exact Hi'|]. rewrite YX by exact Hi'. exact B.
  - intros j i i' Hj Hi Hi' B B'. rewrite YX in B, B' by assumption. apply Inj; [exact Hi|exact Hi'|]. eapply U; [exact Hj| | |exact B|exact B']; apply Hf1; assumption.
Qed.

Lemma columns_permuted : forall n d p fixed ints unif fuel J ni no tol X h b,
  (2 <= n)%nat -> (1 <= d)%nat -> (1 <= p)%nat -> (forall k, (k < d)%nat -> NoDup (column n X k)) ->
  maximinESE n d p fixed ints unif fuel J ni no tol X = Some (h, b) ->
  h 0%nat = X /\ (forall k, (k < d)%nat -> Permutation (column n (h b) k) (column n X k)) /\
  (forall i k, In i fixed -> h b i k = X i k).
Proof.
  intros n d p fixed ints unif fuel J ni no tol X h b Hn Hd Hp HX H.
  apply ese_inv in H; try assumption. destruct H as (A & [B C] & _). auto.
Qed.

Lemma latin_kept : forall n d ints unif fuel X h b,
  (2 <= n)%nat -> (1 <= d)%nat -> (forall k, (k < d)%nat -> latin n X k) ->
  ese n d ints unif fuel X = Some (h, b) -> h 0%nat = X /\ forall k, (k < d)%nat -> latin n (h b) k.
Proof.
  intros n d ints unif fuel X h b Hn Hd HX H.
  assert (HN : forall k, (k < d)%nat -> NoDup (column n X k)).
  { intros k Hk. destruct (HX k Hk) as [E U]. unfold column.
    (* distinct values: every slice holds exactly one row, so rows are in different slices *)
    assert (Sl : exists f : nat -> nat, forall j, (j < n)%nat -> (f j < n)%nat /\ INR j / INR n <= X (f j) k < INR (S j) / INR n).
    { clear -E. assert (G : forall m, (m <= n)%nat -> exists f : nat -> nat, forall j, (j < m)%nat -> (f j < n)%nat /\ INR j / INR n <= X (f j) k < INR (S j) / INR n).
      { induction m as [|m IH]; intros Hm; [exists (fun _ => 0%nat); intros; lia|].
        destruct (IH ltac:(lia)) as (f & Hf). destruct (E m ltac:(lia)) as (i & Hi & B).
        exists (fun j => if Nat.eqb j m then i else f j). intros j Hj. destruct (Nat.eqb_spec j m) as [-> |]; [split; assumption|apply Hf; lia]. }
      apply (G n); lia. }
    destruct Sl as (f & Hf).
    assert (Pn : 0 < INR n) by (apply lt_0_INR; lia).
    assert (Disj : forall j j' v, INR j / INR n <= v < INR (S j) / INR n -> INR j' / INR n <= v < INR (S j') / INR n -> j = j').
    { intros j j' v [A B] [A' B'].
      assert (INR j < INR (S j')) by (apply (Rmult_lt_reg_r (/ INR n)); [apply Rinv_0_lt_compat; exact Pn|unfold Rdiv in *; lra]).
      assert (INR j' < INR (S j)) by (apply (Rmult_lt_reg_r (/ INR n)); [apply Rinv_0_lt_compat; exact Pn|unfold Rdiv in *; lra]).
      apply INR_lt in H0, H1. lia. }
    assert (Hf1 : FinFun.bFun n f) by (intros j Hj; apply Hf; exact Hj).
    assert (Hf2 : FinFun.bInjective n f).
    { intros a c Ha Hc E'. destruct (Hf a Ha) as [_ B1]. destruct (Hf c Hc) as [_ B2]. rewrite E' in B1. eapply Disj; eassumption. }
    pose proof (proj1 (FinFun.bInjective_bSurjective Hf1) Hf2) as Sur.
    apply NoDup_nth with (d := X 0%nat k). intros i j Hi Hj E'. rewrite map_length, seq_length in Hi, Hj.
    assert (Q : forall m, (m < n)%nat -> nth m (map (fun i0 => X i0 k) (seq 0 n)) (X 0%nat k) = X m k).
    { intros m Hm. change (X 0%nat k) with ((fun i0 => X i0 k) 0%nat). rewrite map_nth, seq_nth by exact Hm. reflexivity. }
    rewrite !Q in E' by assumption.
    destruct (Sur i Hi) as (a & Ha & <-). destruct (Sur j Hj) as (c & Hc & <-). f_equal.
    destruct (Hf a Ha) as [_ B1]. destruct (Hf c Hc) as [_ B2]. rewrite <- E' in B2. eapply Disj; eassumption. }
  unfold ese in H. apply columns_permuted in H; [|exact Hn|exact Hd|lia|exact HN]. destruct H as (A & B & _). split; [exact A|].
  intros k Hk. eapply latin_NoDup; [apply HX; exact Hk|lia|apply B; exact Hk].
Qed.

Lemma never_worse : forall n d p fixed ints unif fuel J ni no tol X h b,
  (2 <= n)%nat -> (1 <= d)%nat -> (1 <= p)%nat -> (forall k, (k < d)%nat -> NoDup (column n X k)) ->
  maximinESE n d p fixed ints unif fuel J ni no tol X = Some (h, b) ->
  exists c0 c, criterion_p n d p X c0 /\ criterion_p n d p (h b) c /\ c <= c0.
Proof.
  intros n d p fixed ints unif fuel J ni no tol X h b Hn Hd Hp HX H.
  apply ese_inv in H; try assumption. destruct H as (_ & G & L).
  exists (phiP n d p X), (phiP n d p (h b)). split; [apply phi_criterion; assumption|]. split; [|exact L].
  apply phi_criterion; try assumption. eapply good_inj; [exact HX|exact G].
Qed.

Lemma criterion_unique n d p X c c' : (1 <= p)%nat -> criterion_p n d p X c -> criterion_p n d p X c' -> c = c'.
Proof.
  intros Hp [P E] [P' E'].
  assert (M : forall a b, 0 <= a -> a < b -> a ^ p < b ^ p).
  { intros a b Ha Hab. destruct p as [|q]; [lia|]. clear -Ha Hab. induction q as [|q IH]; [cbn; lra|].
    cbn [pow] in *. apply Rmult_le_0_lt_compat; try lra. apply Rmult_le_pos; [exact Ha|apply pow_le; exact Ha]. }
  destruct (Rtotal_order c c') as [L|[Q|G]]; [|exact Q|]; exfalso.
  - pose proof (M c c' P L). lra.
  - pose proof (M c' c P' G). lra.
Qed.

Lemma incremental : forall n d p X i1 i2 k phi Y r,
  (2 <= n)%nat -> (1 <= d)%nat -> (1 <= p)%nat -> (forall c, (c < d)%nat -> NoDup (column n X c)) ->
  (k < d)%nat -> (i1 < n)%nat -> (i2 < n)%nat -> i1 <> i2 -> criterion_p n d p X phi ->
  exchange_at n d p X i1 i2 k phi = (Y, r) ->
  criterion_p n d p Y r /\ Y i1 k = X i2 k /\ Y i2 k = X i1 k /\
  (forall i c, (c <> k \/ (i <> i1 /\ i <> i2)) -> Y i c = X i c).
Proof.
  intros n d p X i1 i2 k phi Y r Hn Hd Hp HX Hk H1 H2 N Hc E.
  assert (phi = phiP n d p X) as -> by (eapply criterion_unique; [exact Hp|exact Hc|apply phi_criterion; assumption]).
  pose proof (exchange_phi n d p Hn Hd Hp X i1 i2 k HX Hk H1 H2 N) as Q. rewrite E in Q. cbn [fst snd] in Q. subst r.
  assert (Y = swap X i1 i2 k) as -> by (unfold exchange_at in E; injection E as <- _; reflexivity).
  split; [|split; [|split]].
  - apply phi_criterion; try assumption. apply (perm_inj n d X); [exact HX|]. intros c Hc'. apply (swap_perm n d p Hn Hd Hp); assumption.
  - unfold swap. rewrite !Nat.eqb_refl. reflexivity.
  - unfold swap. rewrite !Nat.eqb_refl. destruct (Nat.eqb_spec i2 i1); [congruence|reflexivity].
  - intros i c [A|[A B]]; unfold swap.
    + destruct (Nat.eqb_spec c k); [contradiction|reflexivity].
    + destruct (Nat.eqb_spec c k); [|reflexivity]. destruct (Nat.eqb_spec i i1); [contradiction|]. destruct (Nat.eqb_spec i i2); [contradiction|reflexivity].
Qed.

(** the run ends when consecutive draws differ (non-vacuity) *)
Section Total.
Variables (n d p : nat) (unif : nat -> R).
Hypothesis Hn : (2 <= n)%nat.
Let ints := fun q : nat => q.
Lemma next_differs q : (S q mod n <> q mod n)%nat.
Proof.
  intros E. pose proof (Nat.div_mod q n ltac:(lia)). pose proof (Nat.div_mod (S q) n ltac:(lia)).
  pose proof (Nat.mod_upper_bound q n ltac:(lia)). rewrite E in H0.
  assert (S q - q = n * (S q / n) - n * (q / n))%nat by lia. rewrite <- Nat.mul_sub_distr_l in H2. nia.
Qed.
Lemma exchange_total s l k phi : exists s' r, exchange n d p [] ints 2 s l k phi = Some (s', r).
Proof.
  unfold exchange. cbn [draw existsb]. unfold ints.
  destruct (Nat.eqb_spec (S (pos s) mod n) (pos s mod n)) as [C|C]; [exfalso; apply (next_differs (pos s)); exact C|].
  cbn [orb]. unfold exchange_at. do 2 eexists; reflexivity.
Qed.
Lemma candidates_total : forall J s cur k phi, exists s' cs, candidates n d p [] ints 2 J s cur k phi = Some (s', cs) /\ length cs = J.
Proof.
  induction J as [|J IH]; intros s cur k phi; cbn [candidates]; [do 2 eexists; split; reflexivity|].
  match goal with |- context [exchange _ _ _ _ _ _ ?s1 ?l _ _] => destruct (exchange_total s1 l k phi) as (s' & r & ->) end.
  destruct (IH s' cur k phi) as (s'' & cs & -> & L). do 2 eexists. split; [reflexivity|cbn; lia].
Qed.
Lemma inner_total J T : (1 <= J)%nat -> forall todo i L, exists L', inner_loop n d p [] ints unif 2 J T todo i L = Some L'.
Proof.
  intros HJ. induction todo as [|t IH]; intros i L; cbn [inner_loop]; [eexists; reflexivity|].
  assert (exists L', inner_body n d p [] ints unif 2 J T i L = Some L') as (L' & ->).
  { unfold inner_body. destruct (candidates_total J (s_ L) (cur L) ((i + 1) mod d) (phi_ L)) as (s' & cs & -> & Lc).
    destruct cs as [|c cs]; [cbn in Lc; lia|]. destruct (argmin c cs).
    destruct (Rle_dec _ _); [destruct (Rlt_dec _ _)|]; eexists; reflexivity. }
  apply IH.
Qed.
Lemma outer_total J ni tol : (1 <= J)%nat -> forall todo T L, exists L', outer_loop n d p [] ints unif 2 J ni tol todo T L = Some L'.
Proof.
  intros HJ. induction todo as [|t IH]; intros T L; cbn [outer_loop]; [eexists; reflexivity|].
  match goal with |- context [inner_loop _ _ _ _ _ _ _ _ _ _ _ ?l] => destruct (inner_total J T HJ ni 0 l) as (L' & ->) end. apply IH.
Qed.
End Total.
Lemma ese_total n d unif X : (2 <= n)%nat -> exists r, ese n d (fun q => q) unif 2 X = Some r.
Proof.
  intros Hn. unfold ese, maximinESE.
  match goal with |- context [outer_loop _ _ _ _ _ _ _ ?J ?ni ?tol ?t ?T ?l] => destruct (outer_total n d 10 unif Hn J ni tol ltac:(lia) t T l) as (L' & ->) end.
  eexists; reflexivity.
Qed.
