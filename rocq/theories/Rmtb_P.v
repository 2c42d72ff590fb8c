From Coq Require Import Reals ZArith Arith Bool List Lia Lra.
From Coquelicot Require Import Coquelicot.
From Verif Require Import RSum Index_M Rmtb_M Rmtb_S.
Import ListNotations.
Open Scope list_scope.
Open Scope R_scope.

(** sequential in-place update reading j and j+1 equals the simultaneous one *)
Lemma fold_upd (F : nat -> R -> R -> R) (g : vec -> nat -> vec) :
  (forall b j k, g b j k = if Nat.eqb k j then F j (b j) (b (j + 1)%nat) else b k) ->
  forall len a (b : vec) j, fold_left g (seq a len) b j
  = if (Nat.leb a j && Nat.ltb j (a + len))%bool then F j (b j) (b (j + 1)%nat) else b j.
Proof.
  intros G. induction len as [|len IH]; intros a b j; cbn [seq fold_left].
  - destruct (Nat.leb_spec a j), (Nat.ltb_spec j (a + 0)); cbn; try reflexivity; lia.
  - rewrite IH, !G.
    destruct (Nat.leb_spec (S a) j), (Nat.ltb_spec j (S a + len)), (Nat.leb_spec a j), (Nat.ltb_spec j (a + S len)); cbn; try lia;
    repeat match goal with |- context[Nat.eqb ?x ?y] => destruct (Nat.eqb_spec x y); subst; try lia end; reflexivity.
Qed.

Lemma upd_lookup b j x k : upd b j x k = if Nat.eqb k j then x else b k.
Proof. reflexivity. Qed.

Lemma rec_derive1 (f g : R -> R) (df dg u1 u2 u3 u4 x : R) : is_derive f x df -> is_derive g x dg -> u2 <> u1 -> u4 <> u3 ->
  is_derive (fun x => (x - u1) / (u2 - u1) * f x + (u4 - x) / (u4 - u3) * g x) x
            ((f x + (x - u1) * df) / (u2 - u1) + ((u4 - x) * dg - g x) / (u4 - u3)).
Proof.
  intros Hf Hg E1 E2. auto_derive; [repeat split; (eexists; eassumption)|].
  rewrite (is_derive_unique (fun x : R => f x) _ _ Hf), (is_derive_unique (fun x : R => g x) _ _ Hg). field. lra.
Qed.
Lemma rec_derive2 (f g f1 g1 : R -> R) (df dg u1 u2 u3 u4 x : R) : is_derive f x (f1 x) -> is_derive g x (g1 x) ->
  is_derive f1 x df -> is_derive g1 x dg -> u2 <> u1 -> u4 <> u3 ->
  is_derive (fun x => (f x + (x - u1) * f1 x) / (u2 - u1) + ((u4 - x) * g1 x - g x) / (u4 - u3)) x
            ((2 * f1 x + (x - u1) * df) / (u2 - u1) + ((u4 - x) * dg - 2 * g1 x) / (u4 - u3)).
Proof.
  intros Hf Hg Hf1 Hg1 E1 E2. auto_derive; [repeat split; (eexists; eassumption)|].
  rewrite (is_derive_unique (fun x : R => f x) _ _ Hf), (is_derive_unique (fun x : R => g x) _ _ Hg), (is_derive_unique (fun x : R => f1 x) _ _ Hf1), (is_derive_unique (fun x : R => g1 x) _ _ Hg1). field. lra.
Qed.

Lemma kn_le_ (kn : Z -> R) (Hinc : forall i j, (i < j)%Z -> kn i < kn j) i j : (i <= j)%Z -> kn i <= kn j.
Proof. intros H. destruct (Z.eq_dec i j) as [-> |N]; [lra|]. left. apply Hinc. lia. Qed.

Section One.
Variables (order : nat) (kn : Z -> R) (t : R) (s : Z).
Hypothesis Hinc : forall i j, (i < j)%Z -> kn i < kn j.
Hypothesis Hord : (1 <= order)%nat.
Let mu : Z := (s + Z.of_nat order - 1)%Z.
Hypothesis Hin : kn mu <= t < kn (mu + 1)%Z.

Notation kn_le := (kn_le_ kn Hinc).
Lemma kn_neq i j : (i < j)%Z -> kn j <> kn i.
Proof. intros H E. pose proof (Hinc i j H). lra. Qed.

Notation N := (bspline kn).
Lemma N0 n : N 0 n t = if Z.eqb n mu then 1 else 0.
Proof.
  cbn. destruct (Z.eqb_spec n mu) as [-> |E].
  - destruct (Rle_dec (kn mu) t); [|lra]. destruct (Rlt_dec t (kn (mu + 1)%Z)); [reflexivity|lra].
  - destruct (Rle_dec (kn n) t) as [A|A]; [|reflexivity]. destruct (Rlt_dec t (kn (n + 1)%Z)) as [B|B]; [|reflexivity]. exfalso.
    assert (n < mu \/ mu < n)%Z as [C|C] by lia.
    + pose proof (kn_le (n + 1) mu ltac:(lia)). lra.
    + pose proof (kn_le (mu + 1) n ltac:(lia)). lra.
Qed.
Lemma N_S k n : N (S k) n t = lfac kn t (S k) n (N k n t) + rfac kn t (S k) n (N k (n + 1)%Z t).
Proof.
  unfold lfac, rfac. cbn [bspline].
  destruct (Req_EM_T (kn (n + Z.of_nat (S k))%Z) (kn n)) as [E|E]; [exfalso; revert E; apply kn_neq; lia|].
  destruct (Req_EM_T (kn (n + Z.of_nat (S k) + 1)%Z) (kn (n + 1)%Z)) as [E'|E']; [exfalso; revert E'; apply kn_neq; lia|].
  reflexivity.
Qed.
Lemma N_supp k : forall n, ~ (mu - Z.of_nat k <= n <= mu)%Z -> N k n t = 0.
Proof.
  induction k as [|k IH]; intros n H.
  - rewrite N0. destruct (Z.eqb_spec n mu); [lia|reflexivity].
  - cbn [bspline]. rewrite !IH by lia. ring.
Qed.
Lemma N_nonneg k : forall n, 0 <= N k n t.
Proof.
  induction k as [|k IH]; intros n.
  - rewrite N0. destruct (Z.eqb n mu); lra.
  - cbn [bspline]. apply Rplus_le_le_0_compat.
    + destruct (Z_le_dec n mu) as [L|L]; [|rewrite N_supp by lia; lra].
      apply Rmult_le_pos; [|apply IH]. apply Rmult_le_pos; [pose proof (kn_le n mu L); lra|].
      left. apply Rinv_0_lt_compat. pose proof (Hinc n (n + Z.of_nat (S k)) ltac:(lia)). lra.
    + destruct (Z_le_dec mu (n + 1 + Z.of_nat k)) as [L|L]; [|rewrite (N_supp k (n + 1)) by lia; lra].
      apply Rmult_le_pos; [|apply IH]. apply Rmult_le_pos; [pose proof (kn_le (mu + 1) (n + Z.of_nat (S k) + 1) ltac:(lia)); lra|].
      left. apply Rinv_0_lt_compat. pose proof (Hinc (n + 1) (n + Z.of_nat (S k) + 1) ltac:(lia))%Z. lra.
Qed.

Lemma telescope m (w c : nat -> R) : rsum m (fun j => w j * c j + (1 - w (S j)) * c (S j)) = rsum m (fun j => c (S j)) + w O * c O - w m * c m.
Proof. induction m as [|m IH]; cbn; [ring|]. rewrite IH. ring. Qed.
Lemma N_sum k : (k < order)%nat -> rsum order (fun j => N k (node s j) t) = 1.
Proof.
  induction k as [|k IH]; intros H.
  - rewrite (rsum_ext order _ (fun j => if Nat.eqb j (order - 1) then 1 else 0)).
    + apply (rsum_single order (fun _ => 1)). lia.
    + intros j Hj. rewrite N0. unfold node, mu. destruct (Z.eqb_spec (s + Z.of_nat j) (s + Z.of_nat order - 1)), (Nat.eqb_spec j (order - 1)); try reflexivity; lia.
  - set (w := fun j => (t - kn (node s j)) / (kn (node s j + Z.of_nat (S k))%Z - kn (node s j))).
    set (c := fun j => N k (node s j) t).
    rewrite (rsum_ext order _ (fun j => w j * c j + (1 - w (S j)) * c (S j))).
    + rewrite telescope. unfold c at 2 3. rewrite (N_supp k (node s 0)) by (unfold node, mu; lia).
      rewrite (N_supp k (node s order)) by (unfold node, mu; lia).
      pose proof (rsum_S_l order c) as E. cbn [rsum] in E. rewrite (IH ltac:(lia) : rsum order c = 1) in E.
      unfold c in E at 1 2. rewrite (N_supp k (node s 0)) in E by (unfold node, mu; lia).
      rewrite (N_supp k (node s order)) in E by (unfold node, mu; lia). lra.
    + intros j Hj. cbn [bspline]. fold (w j). unfold c. 
      replace (node s (S j)) with (node s j + 1)%Z by (unfold node; lia). f_equal. f_equal. unfold w.
      replace (node s (S j)) with (node s j + 1)%Z by (unfold node; lia).
      replace (node s j + 1 + Z.of_nat (S k))%Z with (node s j + Z.of_nat (S k) + 1)%Z by lia.
      field. pose proof (kn_neq (node s j + 1) (node s j + Z.of_nat (S k) + 1) ltac:(lia)). lra.
Qed.

(** basis_0 computes the Cox-de Boor functions *)
Lemma lfac_0 i n : lfac kn t i n 0 = 0.
Proof. unfold lfac. destruct (Req_EM_T _ _); [reflexivity|ring]. Qed.
Lemma rfac_0 i n : rfac kn t i n 0 = 0.
Proof. unfold rfac. destruct (Req_EM_T _ _); [reflexivity|ring]. Qed.
Lemma node_S j : node s (j + 1) = (node s j + 1)%Z.
Proof. unfold node. lia. Qed.
Lemma basis_0_step_spec b i : (S i < order)%nat -> (forall j, (j < order)%nat -> b j = N i (node s j) t) ->
  forall j, (j < order)%nat -> basis_0_step order kn t s b (S i) j = N (S i) (node s j) t.
Proof.
  intros Hi H j Hj. unfold basis_0_step.
  set (j1 := (order - S i - 1)%nat). set (j2 := (order - 1)%nat).
  set (b1 := upd b j1 _).
  rewrite (upd_lookup _ j2).
  assert (G : forall b j k, upd (upd b j (lfac kn t (S i) (node s j) (b j))) j
                 (upd b j (lfac kn t (S i) (node s j) (b j)) j + rfac kn t (S i) (node s j) (b (j + 1)%nat)) k
                 = if Nat.eqb k j then lfac kn t (S i) (node s j) (b j) + rfac kn t (S i) (node s j) (b (j + 1)%nat) else b k).
  { intros c k l. unfold upd. rewrite Nat.eqb_refl. destruct (Nat.eqb l k); reflexivity. }
  rewrite !(fold_upd (fun j x y => lfac kn t (S i) (node s j) x + rfac kn t (S i) (node s j) y) _ G).
  rewrite N_S.
  assert (B1 : forall k, (j1 < k < order)%nat -> b1 k = N i (node s k) t).
  { intros k Hk. unfold b1. rewrite upd_neq by lia. apply H. lia. }
  destruct (Nat.eqb_spec j j2) as [-> |N2].
  - assert ((Nat.leb (j1 + 1) j2 && Nat.ltb j2 (j1 + 1 + (j2 - (j1 + 1))))%bool = false) as ->.
    { apply andb_false_iff. right. apply Nat.ltb_ge. subst j1 j2. lia. }
    rewrite B1 by (subst j1 j2; lia). rewrite (N_supp i (node s j2 + 1)) by (unfold node, mu; subst j2; lia).
    rewrite rfac_0. ring.
  - destruct (Nat.leb_spec (j1 + 1) j) as [L|L].
    + assert (Nat.ltb j (j1 + 1 + (j2 - (j1 + 1))) = true) as ->.
      { apply Nat.ltb_lt. subst j1 j2. lia. }
      cbn [andb]. rewrite !B1 by (subst j1 j2; lia). rewrite node_S. reflexivity.
    + cbn [andb]. unfold b1. rewrite upd_lookup. destruct (Nat.eqb_spec j j1) as [-> |N1].
      * rewrite H by (subst j1; lia). rewrite node_S. rewrite (N_supp i (node s j1)) by (unfold node, mu; subst j1; lia).
        rewrite lfac_0. ring.
      * rewrite H by exact Hj. rewrite (N_supp i (node s j)) by (unfold node, mu; subst j1; lia).
        rewrite (N_supp i (node s j + 1)) by (unfold node, mu; subst j1; lia). rewrite lfac_0, rfac_0. ring.
Qed.
Lemma basis_0_spec : forall j, (j < order)%nat -> basis_0_vec order kn t s j = N (order - 1) (node s j) t.
Proof.
  unfold basis_0_vec.
  assert (G : forall m i b, (m + i = order - 1)%nat -> (forall j, (j < order)%nat -> b j = N i (node s j) t) ->
     forall j, (j < order)%nat -> fold_left (basis_0_step order kn t s) (seq (S i) m) b j = N (order - 1) (node s j) t).
  { induction m as [|m IH]; intros i b E H j Hj; cbn [seq fold_left].
    - replace (order - 1)%nat with i by lia. apply H. exact Hj.
    - apply (IH (S i)); [lia| |exact Hj]. apply basis_0_step_spec; [lia|exact H]. }
  apply (G _ 0%nat); [lia|]. intros j Hj. rewrite N0. rewrite upd_lookup. unfold node, mu, vzero.
  destruct (Nat.eqb_spec j (order - 1)), (Z.eqb_spec (s + Z.of_nat j) (s + Z.of_nat order - 1)); try reflexivity; lia.
Qed.

(** derivatives: the polynomial piece on the interval *)
Fixpoint piece (k : nat) (n : Z) (x : R) : R :=
  match k with
  | O => if Z.eqb n mu then 1 else 0
  | S k' => (x - kn n) / (kn (n + Z.of_nat k)%Z - kn n) * piece k' n x
            + (kn (n + Z.of_nat k + 1)%Z - x) / (kn (n + Z.of_nat k + 1)%Z - kn (n + 1)%Z) * piece k' (n + 1)%Z x
  end.
Fixpoint dpiece (k : nat) (n : Z) (x : R) : R :=
  match k with
  | O => 0
  | S k' => (piece k' n x + (x - kn n) * dpiece k' n x) / (kn (n + Z.of_nat k)%Z - kn n)
            + ((kn (n + Z.of_nat k + 1)%Z - x) * dpiece k' (n + 1)%Z x - piece k' (n + 1)%Z x) / (kn (n + Z.of_nat k + 1)%Z - kn (n + 1)%Z)
  end.
Fixpoint d2piece (k : nat) (n : Z) (x : R) : R :=
  match k with
  | O => 0
  | S k' => (2 * dpiece k' n x + (x - kn n) * d2piece k' n x) / (kn (n + Z.of_nat k)%Z - kn n)
            + ((kn (n + Z.of_nat k + 1)%Z - x) * d2piece k' (n + 1)%Z x - 2 * dpiece k' (n + 1)%Z x) / (kn (n + Z.of_nat k + 1)%Z - kn (n + 1)%Z)
  end.
Lemma piece_derive k : forall n x, is_derive (piece k n) x (dpiece k n x).
Proof.
  induction k as [|k IH]; intros n x.
  - apply (is_derive_const (if Z.eqb n mu then 1 else 0) x).
  - pose proof (kn_neq n (n + Z.of_nat (S k)) ltac:(lia)) as E1. pose proof (kn_neq (n + 1) (n + Z.of_nat (S k) + 1) ltac:(lia)) as E2.
    exact (rec_derive1 _ _ _ _ _ _ _ _ x (IH n x) (IH (n + 1)%Z x) E1 E2).
Qed.
Lemma dpiece_derive k : forall n x, is_derive (dpiece k n) x (d2piece k n x).
Proof.
  induction k as [|k IH]; intros n x.
  - apply (is_derive_const 0 x).
  - pose proof (kn_neq n (n + Z.of_nat (S k)) ltac:(lia)) as E1. pose proof (kn_neq (n + 1) (n + Z.of_nat (S k) + 1) ltac:(lia)) as E2.
    exact (rec_derive2 _ _ _ _ _ _ _ _ _ _ x (piece_derive k n x) (piece_derive k (n + 1)%Z x) (IH n x) (IH (n + 1)%Z x) E1 E2).
Qed.
Lemma N_piece k : forall n, N k n t = piece k n t.
Proof.
  induction k as [|k IH]; intros n; [apply N0|]. cbn [bspline piece]. rewrite !IH. reflexivity.
Qed.
Lemma piece_supp k : forall n, ~ (mu - Z.of_nat k <= n <= mu)%Z -> forall x, piece k n x = 0.
Proof.
  induction k as [|k IH]; intros n H x; cbn [piece].
  - destruct (Z.eqb_spec n mu); [lia|reflexivity].
  - rewrite !IH by lia. ring.
Qed.
Lemma dpiece_supp k : forall n, ~ (mu - Z.of_nat k <= n <= mu)%Z -> forall x, dpiece k n x = 0.
Proof.
  induction k as [|k IH]; intros n H x; cbn [dpiece]; [reflexivity|].
  rewrite !IH, !piece_supp by lia. unfold Rdiv. ring.
Qed.
Lemma d2piece_supp k : forall n, ~ (mu - Z.of_nat k <= n <= mu)%Z -> forall x, d2piece k n x = 0.
Proof.
  induction k as [|k IH]; intros n H x; cbn [d2piece]; [reflexivity|].
  rewrite !IH, !dpiece_supp by lia. unfold Rdiv. ring.
Qed.
Lemma dpiece_S k n : dpiece (S k) n t = lder kn t (S k) n (piece k n t) (dpiece k n t) + rder kn t (S k) n (piece k (n + 1)%Z t) (dpiece k (n + 1)%Z t).
Proof.
  unfold lder, rder. cbn [dpiece].
  destruct (Req_EM_T (kn (n + Z.of_nat (S k))%Z) (kn n)) as [E|E]; [exfalso; revert E; apply kn_neq; lia|].
  destruct (Req_EM_T (kn (n + Z.of_nat (S k) + 1)%Z) (kn (n + 1)%Z)) as [E'|E']; [exfalso; revert E'; apply kn_neq; lia|].
  reflexivity.
Qed.
Lemma d2piece_S k n : d2piece (S k) n t = lder2 kn t (S k) n (dpiece k n t) (d2piece k n t) + rder2 kn t (S k) n (dpiece k (n + 1)%Z t) (d2piece k (n + 1)%Z t).
Proof.
  unfold lder2, rder2. cbn [d2piece].
  destruct (Req_EM_T (kn (n + Z.of_nat (S k))%Z) (kn n)) as [E|E]; [exfalso; revert E; apply kn_neq; lia|].
  destruct (Req_EM_T (kn (n + Z.of_nat (S k) + 1)%Z) (kn (n + 1)%Z)) as [E'|E']; [exfalso; revert E'; apply kn_neq; lia|].
  reflexivity.
Qed.
Lemma piece_S k n : piece (S k) n t = lfac kn t (S k) n (piece k n t) + rfac kn t (S k) n (piece k (n + 1)%Z t).
Proof. rewrite <- !N_piece. apply N_S. Qed.
Lemma lder_0 i n : lder kn t i n 0 0 = 0.
Proof. unfold lder. destruct (Req_EM_T _ _); [reflexivity|unfold Rdiv; ring]. Qed.
Lemma rder_0 i n : rder kn t i n 0 0 = 0.
Proof. unfold rder. destruct (Req_EM_T _ _); [reflexivity|unfold Rdiv; ring]. Qed.
Lemma lder2_0 i n : lder2 kn t i n 0 0 = 0.
Proof. unfold lder2. destruct (Req_EM_T _ _); [reflexivity|unfold Rdiv; ring]. Qed.
Lemma rder2_0 i n : rder2 kn t i n 0 0 = 0.
Proof. unfold rder2. destruct (Req_EM_T _ _); [reflexivity|unfold Rdiv; ring]. Qed.

Lemma piece_sum k : (k < order)%nat -> forall x, rsum order (fun j => piece k (node s j) x) = 1.
Proof.
  induction k as [|k IH]; intros H x.
  - rewrite (rsum_ext order _ (fun j => if Nat.eqb j (order - 1) then 1 else 0)).
    + apply (rsum_single order (fun _ => 1)). lia.
    + intros j Hj. cbn [piece]. unfold node, mu. destruct (Z.eqb_spec (s + Z.of_nat j) (s + Z.of_nat order - 1)), (Nat.eqb_spec j (order - 1)); try reflexivity; lia.
  - set (w := fun j => (x - kn (node s j)) / (kn (node s j + Z.of_nat (S k))%Z - kn (node s j))).
    set (c := fun j => piece k (node s j) x).
    rewrite (rsum_ext order _ (fun j => w j * c j + (1 - w (S j)) * c (S j))).
    + rewrite telescope. unfold c at 2 3. rewrite (piece_supp k (node s 0)) by (unfold node, mu; lia).
      rewrite (piece_supp k (node s order)) by (unfold node, mu; lia).
      pose proof (rsum_S_l order c) as E. cbn [rsum] in E. rewrite (IH ltac:(lia) x : rsum order c = 1) in E.
      unfold c in E at 1 2. rewrite (piece_supp k (node s 0)) in E by (unfold node, mu; lia).
      rewrite (piece_supp k (node s order)) in E by (unfold node, mu; lia). lra.
    + intros j Hj. cbn [piece]. fold (w j). unfold c.
      replace (node s (S j)) with (node s j + 1)%Z by (unfold node; lia). f_equal. f_equal. unfold w.
      replace (node s (S j)) with (node s j + 1)%Z by (unfold node; lia).
      replace (node s j + 1 + Z.of_nat (S k))%Z with (node s j + Z.of_nat (S k) + 1)%Z by lia.
      field. pose proof (kn_neq (node s j + 1) (node s j + Z.of_nat (S k) + 1) ltac:(lia)). lra.
Qed.
Lemma dpiece_sum k : (k < order)%nat -> forall x, rsum order (fun j => dpiece k (node s j) x) = 0.
Proof.
  intros H x. pose proof (is_derive_rsum order (fun j y => piece k (node s j) y) (fun j => dpiece k (node s j) x) x (fun j _ => piece_derive k (node s j) x)) as D.
  apply is_derive_unique in D. rewrite <- D.
  rewrite (Derive_ext _ (fun _ => 1)); [apply Derive_const|]. intros y. apply piece_sum. exact H.
Qed.
Lemma d2piece_sum k : (k < order)%nat -> forall x, rsum order (fun j => d2piece k (node s j) x) = 0.
Proof.
  intros H x. pose proof (is_derive_rsum order (fun j y => dpiece k (node s j) y) (fun j => d2piece k (node s j) x) x (fun j _ => dpiece_derive k (node s j) x)) as D.
  apply is_derive_unique in D. rewrite <- D.
  rewrite (Derive_ext _ (fun _ => 0)); [apply Derive_const|]. intros y. apply dpiece_sum. exact H.
Qed.

(** one sweep with several arrays: every index of the window gets the simultaneous update *)
Lemma fold_sweep {A} (get : A -> nat -> R * R * R) (g : A -> nat -> A) (F : nat -> R * R * R -> R * R * R -> R * R * R) :
  (forall b j k, get (g b j) k = if Nat.eqb k j then F j (get b j) (get b (j + 1)%nat) else get b k) ->
  forall len a b j, get (fold_left g (seq a len) b) j
  = if (Nat.leb a j && Nat.ltb j (a + len))%bool then F j (get b j) (get b (j + 1)%nat) else get b j.
Proof.
  intros G. induction len as [|len IH]; intros a b j; cbn [seq fold_left].
  - destruct (Nat.leb_spec a j), (Nat.ltb_spec j (a + 0)); cbn; try reflexivity; lia.
  - rewrite IH, !G.
    destruct (Nat.leb_spec (S a) j), (Nat.ltb_spec j (S a + len)), (Nat.leb_spec a j), (Nat.ltb_spec j (a + S len)); cbn; try lia;
    repeat match goal with |- context[Nat.eqb ?x ?y] => destruct (Nat.eqb_spec x y); subst; try lia end; reflexivity.
Qed.

Lemma basis_2_step_spec (bb : vec * vec * vec) i : (S i < order)%nat ->
  (forall j, (j < order)%nat -> fst (fst bb) j = piece i (node s j) t /\ snd (fst bb) j = dpiece i (node s j) t /\ snd bb j = d2piece i (node s j) t) ->
  let bb' := basis_2_step order kn t s bb (S i) in
  forall j, (j < order)%nat -> fst (fst bb') j = piece (S i) (node s j) t /\ snd (fst bb') j = dpiece (S i) (node s j) t /\ snd bb' j = d2piece (S i) (node s j) t.
Proof.
  intros Hi H bb' j Hj. unfold bb', basis_2_step. clear bb'.
  set (j1 := (order - S i - 1)%nat). set (j2 := (order - 1)%nat).
  set (get := fun (b : vec * vec * vec) k => (fst (fst b) k, snd (fst b) k, snd b k)).
  set (F := fun j (x y : R * R * R) => let '(x0, x1, x2) := x in let '(y0, y1, y2) := y in
      (lfac kn t (S i) (node s j) x0 + (if Nat.eqb j j2 then 0 else rfac kn t (S i) (node s j) y0),
       lder kn t (S i) (node s j) x0 x1 + (if Nat.eqb j j2 then 0 else rder kn t (S i) (node s j) y0 y1),
       if Nat.ltb 1 (S i) then lder2 kn t (S i) (node s j) x1 x2 + (if Nat.eqb j j2 then 0 else rder2 kn t (S i) (node s j) y1 y2) else x2)).
  match goal with |- context[fold_left ?g (seq j1 _) bb] => 
    assert (G : forall b j k, get (g b j) k = if Nat.eqb k j then F j (get b j) (get b (j + 1)%nat) else get b k) end.
  { intros [[b0 b1] b2] k l. unfold get, F. cbn [fst snd]. unfold upd. destruct (Nat.ltb 1 (S i)); destruct (Nat.eqb_spec l k); subst; reflexivity. }
  pose proof (fold_sweep get _ F G (j2 + 1 - j1) j1 bb j) as E. clear G.
  assert (X : forall k, (k < order)%nat -> get bb k = (piece i (node s k) t, dpiece i (node s k) t, d2piece i (node s k) t)).
  { intros k Hk. unfold get. destruct (H k Hk) as (-> & -> & ->). reflexivity. }
  match goal with |- context[fold_left ?g (seq j1 ?l) bb] => set (res := fold_left g (seq j1 l) bb) in * end.
  enough (Q : get res j = (piece (S i) (node s j) t, dpiece (S i) (node s j) t, d2piece (S i) (node s j) t)).
  { unfold get in Q. injection Q as -> -> ->. repeat split; reflexivity. }
  rewrite E. clear E res. rewrite X by exact Hj.
  assert (Z2 : forall k n, (i = 0)%nat -> d2piece k n t = d2piece k n t) by reflexivity.
  destruct (Nat.leb_spec j1 j) as [L|L].
  - assert (Nat.ltb j (j1 + (j2 + 1 - j1)) = true) as -> by (apply Nat.ltb_lt; subst j1 j2; lia). cbn [andb].
    rewrite piece_S, dpiece_S, d2piece_S. unfold F.
    destruct (Nat.eqb_spec j j2) as [-> |N2].
    + destruct (get bb (j2 + 1)%nat) as [[y0 y1] y2].
      rewrite (piece_supp i (node s j2 + 1)), (dpiece_supp i (node s j2 + 1)), (d2piece_supp i (node s j2 + 1)) by (unfold node, mu; subst j2; lia).
      rewrite rfac_0, rder_0, rder2_0. destruct (Nat.ltb_spec 1 (S i)); [reflexivity|]. f_equal.
      assert (i = 0)%nat by lia. subst i. cbn [d2piece dpiece]. rewrite lder2_0. ring.
    + rewrite X by (subst j2; lia). rewrite node_S. destruct (Nat.ltb_spec 1 (S i)); [reflexivity|]. f_equal.
      assert (i = 0)%nat by lia. subst i. cbn [d2piece dpiece]. rewrite lder2_0, rder2_0. ring.
  - cbn [andb]. rewrite !(piece_supp i (node s j)), (dpiece_supp i (node s j)), (d2piece_supp i (node s j)) by (unfold node, mu; subst j1; lia).
    rewrite (piece_supp (S i)), (dpiece_supp (S i)), (d2piece_supp (S i)) by (unfold node, mu; subst j1; lia). reflexivity.
Qed.
Lemma init_spec j : (j < order)%nat -> upd vzero (order - 1) 1 j = piece 0 (node s j) t.
Proof.
  intros Hj. rewrite upd_lookup. cbn [piece]. unfold node, mu, vzero.
  destruct (Nat.eqb_spec j (order - 1)), (Z.eqb_spec (s + Z.of_nat j) (s + Z.of_nat order - 1)); try reflexivity; lia.
Qed.
Lemma basis_2_spec : forall j, (j < order)%nat -> basis_2_vec order kn t s j = d2piece (order - 1) (node s j) t.
Proof.
  unfold basis_2_vec.
  assert (G : forall m i (bb : vec * vec * vec), (m + i = order - 1)%nat ->
     (forall j, (j < order)%nat -> fst (fst bb) j = piece i (node s j) t /\ snd (fst bb) j = dpiece i (node s j) t /\ snd bb j = d2piece i (node s j) t) ->
     forall j, (j < order)%nat -> snd (fold_left (basis_2_step order kn t s) (seq (S i) m) bb) j = d2piece (order - 1) (node s j) t).
  { induction m as [|m IH]; intros i b E H j Hj; cbn [seq fold_left].
    - replace (order - 1)%nat with i by lia. apply H. exact Hj.
    - apply (IH (S i)); [lia| |exact Hj]. apply basis_2_step_spec; [lia|exact H]. }
  apply (G _ 0%nat); [lia|]. intros j Hj. cbn [fst snd]. rewrite init_spec by exact Hj. repeat split; reflexivity.
Qed.
Lemma basis_1_step_spec (bb : vec * vec) i : (S i < order)%nat ->
  (forall j, (j < order)%nat -> fst bb j = piece i (node s j) t /\ snd bb j = dpiece i (node s j) t) ->
  let bb' := basis_1_step order kn t s bb (S i) in
  forall j, (j < order)%nat -> fst bb' j = piece (S i) (node s j) t /\ snd bb' j = dpiece (S i) (node s j) t.
Proof.
  intros Hi H bb' j Hj. unfold bb', basis_1_step. clear bb'.
  set (j1 := (order - S i - 1)%nat). set (j2 := (order - 1)%nat).
  set (get := fun (b : vec * vec) k => (fst b k, snd b k, 0)).
  set (F := fun j (x y : R * R * R) => let '(x0, x1, x2) := x in let '(y0, y1, y2) := y in
      (lfac kn t (S i) (node s j) x0 + (if Nat.eqb j j2 then 0 else rfac kn t (S i) (node s j) y0),
       lder kn t (S i) (node s j) x0 x1 + (if Nat.eqb j j2 then 0 else rder kn t (S i) (node s j) y0 y1), 0)).
  match goal with |- context[fold_left ?g (seq j1 _) bb] => 
    assert (G : forall b j k, get (g b j) k = if Nat.eqb k j then F j (get b j) (get b (j + 1)%nat) else get b k) end.
  { intros [b0 b1] k l. unfold get, F. cbn [fst snd]. unfold upd. destruct (Nat.eqb_spec l k); subst; reflexivity. }
  pose proof (fold_sweep get _ F G (j2 + 1 - j1) j1 bb j) as E. clear G.
  assert (X : forall k, (k < order)%nat -> get bb k = (piece i (node s k) t, dpiece i (node s k) t, 0)).
  { intros k Hk. unfold get. destruct (H k Hk) as (-> & ->). reflexivity. }
  match goal with |- context[fold_left ?g (seq j1 ?l) bb] => set (res := fold_left g (seq j1 l) bb) in * end.
  enough (Q : get res j = (piece (S i) (node s j) t, dpiece (S i) (node s j) t, 0)).
  { unfold get in Q. injection Q as -> ->. split; reflexivity. }
  rewrite E. clear E res. rewrite X by exact Hj.
  destruct (Nat.leb_spec j1 j) as [L|L].
  - assert (Nat.ltb j (j1 + (j2 + 1 - j1)) = true) as -> by (apply Nat.ltb_lt; subst j1 j2; lia). cbn [andb].
    rewrite piece_S, dpiece_S. unfold F.
    destruct (Nat.eqb_spec j j2) as [-> |N2].
    + destruct (get bb (j2 + 1)%nat) as [[y0 y1] y2].
      rewrite (piece_supp i (node s j2 + 1)), (dpiece_supp i (node s j2 + 1)) by (unfold node, mu; subst j2; lia).
      rewrite rfac_0, rder_0. reflexivity.
    + rewrite X by (subst j2; lia). rewrite node_S. reflexivity.
  - cbn [andb]. rewrite !(piece_supp i (node s j)), (dpiece_supp i (node s j)) by (unfold node, mu; subst j1; lia).
    rewrite (piece_supp (S i)), (dpiece_supp (S i)) by (unfold node, mu; subst j1; lia). reflexivity.
Qed.
Lemma basis_1_spec : forall j, (j < order)%nat -> basis_1_vec order kn t s j = dpiece (order - 1) (node s j) t.
Proof.
  unfold basis_1_vec.
  assert (G : forall m i (bb : vec * vec), (m + i = order - 1)%nat ->
     (forall j, (j < order)%nat -> fst bb j = piece i (node s j) t /\ snd bb j = dpiece i (node s j) t) ->
     forall j, (j < order)%nat -> snd (fold_left (basis_1_step order kn t s) (seq (S i) m) bb) j = dpiece (order - 1) (node s j) t).
  { induction m as [|m IH]; intros i b E H j Hj; cbn [seq fold_left].
    - replace (order - 1)%nat with i by lia. apply H. exact Hj.
    - apply (IH (S i)); [lia| |exact Hj]. apply basis_1_step_spec; [lia|exact H]. }
  apply (G _ 0%nat); [lia|]. intros j Hj. cbn [fst snd]. rewrite init_spec by exact Hj. repeat split; reflexivity.
Qed.
End One.
