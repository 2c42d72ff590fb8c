(** Regularised splines on n query points: the three arrays of the sparse matrix. *)
From Coq Require Import Reals ZArith Arith Bool List Lia Lra.
From Verif Require Import RSum Mat Index_M Index_P Rmtb_M Rmtc_M Batch_M Batch_P.
Import ListNotations.
Open Scope list_scope.
Open Scope R_scope.

Definition t_data (t : triples) : nat -> R := fst (fst t).
Definition t_rows (t : triples) : nat -> nat := snd (fst t).
Definition t_cols (t : triples) : nat -> Z := snd t.

(** in-place update of n rows of s entries *)
Definition upd_body (s i : nat) (Fd : nat -> nat -> R -> R) (Fr : nat -> nat -> nat -> nat) (Fc : nat -> nat -> Z -> Z) (k : nat) (t : triples) : triples :=
  (bset (t_data t) (i * s + k)%nat (Fd i k (t_data t (i * s + k)%nat)),
   bset (t_rows t) (i * s + k)%nat (Fr i k (t_rows t (i * s + k)%nat)),
   bset (t_cols t) (i * s + k)%nat (Fc i k (t_cols t (i * s + k)%nat))).
Lemma update_row s i Fd Fr Fc t : let t' := for_ s (upd_body s i Fd Fr Fc) t in
  forall e k, (k < s)%nat ->
    t_data t' (e * s + k)%nat = (if Nat.eqb e i then Fd e k (t_data t (e * s + k)%nat) else t_data t (e * s + k)%nat) /\
    t_rows t' (e * s + k)%nat = (if Nat.eqb e i then Fr e k (t_rows t (e * s + k)%nat) else t_rows t (e * s + k)%nat) /\
    t_cols t' (e * s + k)%nat = (if Nat.eqb e i then Fc e k (t_cols t (e * s + k)%nat) else t_cols t (e * s + k)%nat).
Proof.
  cbn zeta. intros e k Hk.
  pose proof (for_ind (fun m t' =>
    t_data t' (e * s + k)%nat = (if andb (Nat.eqb e i) (Nat.ltb k m) then Fd e k (t_data t (e * s + k)%nat) else t_data t (e * s + k)%nat) /\
    t_rows t' (e * s + k)%nat = (if andb (Nat.eqb e i) (Nat.ltb k m) then Fr e k (t_rows t (e * s + k)%nat) else t_rows t (e * s + k)%nat) /\
    t_cols t' (e * s + k)%nat = (if andb (Nat.eqb e i) (Nat.ltb k m) then Fc e k (t_cols t (e * s + k)%nat) else t_cols t (e * s + k)%nat))
    s (upd_body s i Fd Fr Fc) t) as G.
  cbn beta in G. replace (Nat.ltb k s) with true in G by (symmetry; apply Nat.ltb_lt; exact Hk). rewrite andb_true_r in G. apply G; clear G.
  - rewrite andb_false_r. repeat split; reflexivity.
  - intros m t' Hm (E1 & E2 & E3). unfold upd_body, t_data, t_rows, t_cols in *. cbn [fst snd].
    destruct (Nat.eqb_spec e i) as [->|N].
    + cbn [andb] in *. destruct (Nat.eq_dec k m) as [->|Nk].
      * rewrite Nat.ltb_irrefl in E1, E2, E3. rewrite !bset_eq, E1, E2, E3.
        replace (Nat.ltb m (S m)) with true by (symmetry; apply Nat.ltb_lt; lia). repeat split; reflexivity.
      * rewrite !bset_ne by lia. rewrite E1, E2, E3.
        replace (Nat.ltb k (S m)) with (Nat.ltb k m) by (destruct (Nat.ltb_spec k m); symmetry; [apply Nat.ltb_lt|apply Nat.ltb_ge]; lia).
        repeat split; reflexivity.
    + cbn [andb] in *.
      assert (Q : (e * s + k <> i * s + m)%nat) by (intros Q; destruct (row_inj s e i k m Hk Hm Q); lia).
      rewrite !bset_ne by exact Q. repeat split; assumption.
Qed.
Lemma update_rows n s Fd Fr Fc t : let t' := for_ n (fun i t => for_ s (upd_body s i Fd Fr Fc) t) t in
  forall e k, (e < n)%nat -> (k < s)%nat ->
    t_data t' (e * s + k)%nat = Fd e k (t_data t (e * s + k)%nat) /\
    t_rows t' (e * s + k)%nat = Fr e k (t_rows t (e * s + k)%nat) /\
    t_cols t' (e * s + k)%nat = Fc e k (t_cols t (e * s + k)%nat).
Proof.
  cbn zeta. intros e k He Hk.
  pose proof (for_ind (fun m t' =>
    t_data t' (e * s + k)%nat = (if Nat.ltb e m then Fd e k (t_data t (e * s + k)%nat) else t_data t (e * s + k)%nat) /\
    t_rows t' (e * s + k)%nat = (if Nat.ltb e m then Fr e k (t_rows t (e * s + k)%nat) else t_rows t (e * s + k)%nat) /\
    t_cols t' (e * s + k)%nat = (if Nat.ltb e m then Fc e k (t_cols t (e * s + k)%nat) else t_cols t (e * s + k)%nat))
    n (fun i t => for_ s (upd_body s i Fd Fr Fc) t) t) as G.
  cbn beta in G. replace (Nat.ltb e n) with true in G by (symmetry; apply Nat.ltb_lt; exact He). apply G; clear G.
  - repeat split; reflexivity.
  - intros m t' Hm (E1 & E2 & E3). destruct (update_row s m Fd Fr Fc t' e k Hk) as (U1 & U2 & U3).
    rewrite U1, U2, U3, E1, E2, E3.
    destruct (Nat.eqb_spec e m) as [->|N].
    + rewrite Nat.ltb_irrefl. replace (Nat.ltb m (S m)) with true by (symmetry; apply Nat.ltb_lt; lia). repeat split; reflexivity.
    + replace (Nat.ltb e (S m)) with (Nat.ltb e m) by (destruct (Nat.ltb_spec e m); symmetry; [apply Nat.ltb_lt|apply Nat.ltb_ge]; lia).
      repeat split; reflexivity.
Qed.
Lemma for_prod l : for_ (length l) (fun ix k => (k * nth ix l 0)%nat) 1%nat = prodl l.
Proof.
  assert (G : forall l a, fold_left (fun k v => (k * v)%nat) l a = (a * prodl l)%nat).
  { intros l0. induction l0 as [|v l' IH]; intros a; [cbn; symmetry; apply Nat.mul_1_r|]. cbn [fold_left]. rewrite IH, prodl_cons. apply eq_sym, Nat.mul_assoc. }
  assert (F : forall l k, for_ k (fun ix k => (k * nth ix l 0)%nat) 1%nat = fold_left (fun k v => (k * v)%nat) (map (fun ix => nth ix l 0%nat) (seq 0 k)) 1%nat).
  { intros l0 k. induction k as [|k IH]; [reflexivity|]. rewrite for_S, seq_S, map_app, fold_left_app, IH. reflexivity. }
  rewrite F, G, Nat.mul_1_l. f_equal. clear. induction l as [|v l IH]; [reflexivity|].
  cbn [length seq map nth]. f_equal. rewrite <- seq_shift, map_map. exact IH.
Qed.

(** ** B-splines *)
Lemma rmtb_jac_rows orders ncps ix1 ix2 n pf P t :
  (forall e ix, (e < n)%nat -> (ix < length orders)%nat -> pf (e * length orders + ix)%nat = P e ix) ->
  let t' := rmtb_compute_jac orders ncps ix1 ix2 n pf t in
  forall e k, (e < n)%nat -> (k < prodl orders)%nat ->
    t_data t' (e * prodl orders + k)%nat = jac_data orders ncps ix1 ix2 (P e) k /\
    t_rows t' (e * prodl orders + k)%nat = e /\
    t_cols t' (e * prodl orders + k)%nat = jac_col orders ncps ix1 ix2 (P e) k.
Proof.
  intros HP t' e k He Hk. unfold t', rmtb_compute_jac. cbn zeta. rewrite for_prod.
  set (s := prodl orders) in *. set (nx := length orders) in *.
  unfold jac_data, jac_col. fold nx.
  match goal with |- context [for_ nx ?b ?t0] => set (body := b); set (start := t0) end.
  apply (for_ind (fun m (t' : triples) =>
    t_data t' (e * s + k)%nat = fold_left (fun d ix => d * snd (dim_basis orders ncps ix1 ix2 (P e) ix) (inz_dim orders ix k)) (seq 0 m) 1 /\
    t_rows t' (e * s + k)%nat = e /\
    t_cols t' (e * s + k)%nat = fold_left (fun c ix => (c + (Z.of_nat (inz_dim orders ix k) + fst (dim_basis orders ncps ix1 ix2 (P e) ix))
                               * Z.of_nat (prodl (skipn (S ix) ncps)))%Z) (seq 0 m) 0%Z)).
  - unfold start.
    rewrite (for_ext n _ (fun i t => for_ s (upd_body s i (fun _ _ _ => 1) (fun i _ _ => i) (fun _ _ _ => 0%Z)) t)).
    2:{ intros i u _. apply for_ext. intros q [[d r] c] _. reflexivity. }
    destruct (update_rows n s (fun _ _ _ => 1) (fun i _ _ => i) (fun _ _ _ => 0%Z) t e k He Hk) as (-> & -> & ->).
    repeat split; reflexivity.
  - intros ix u Hix (E1 & E2 & E3). unfold body. cbn beta zeta.
    set (B := fun i => choose_basis ix1 ix2 ix (nth ix orders 0%nat) (nth ix ncps 0%nat) (pf (i * nx + ix)%nat) (knots_uniform (nth ix orders 0%nat) (nth ix ncps 0%nat))).
    set (Fd := fun i q d => d * snd (B i) (inz_dim orders ix q)).
    set (Fr := fun (i q r : nat) => r).
    set (Fc := fun i q c => (c + (Z.of_nat (inz_dim orders ix q) + fst (B i)) * Z.of_nat (prodl (skipn (S ix) ncps)))%Z).
    match goal with |- context [for_ n ?f u] => assert (EQ : for_ n f u = for_ n (fun i t => for_ s
        (fun q t => (bset (t_data t) (i * s + q)%nat (Fd i q (t_data t (i * s + q)%nat)), t_rows t,
                     bset (t_cols t) (i * s + q)%nat (Fc i q (t_cols t (i * s + q)%nat)))) t) u) end.
    { apply for_ext. intros i v _. unfold Fd, Fc, B. destruct (choose_basis _ _ _ _ _ _ _) as [istart bv].
      apply for_ext. intros q [[d r] c] _. reflexivity. }
    rewrite EQ. clear EQ.
    (* the rows array is not written: compare with an update writing the same values *)
    assert (EQ : forall w, for_ n (fun i t => for_ s (fun q t => (bset (t_data t) (i * s + q)%nat (Fd i q (t_data t (i * s + q)%nat)), t_rows t,
                     bset (t_cols t) (i * s + q)%nat (Fc i q (t_cols t (i * s + q)%nat)))) t) w
        = for_ n (fun i t => for_ s (upd_body s i Fd Fr Fc) t) w).
    { intros w. apply for_ext. intros i v _. apply for_ext. intros q [[d r] c] _. unfold upd_body, t_data, t_rows, t_cols, Fr. cbn [fst snd].
      f_equal. f_equal. unfold bset. apply FunctionalExtensionality.functional_extensionality. intros z. destruct (Nat.eqb_spec z (i * s + q)) as [->|]; reflexivity. }
    rewrite EQ. clear EQ.
    destruct (update_rows n s Fd Fr Fc u e k He Hk) as (-> & -> & ->).
    rewrite !seq_S, !fold_left_app, <- E1, <- E3. cbn [fold_left Nat.add].
    assert (HB : B e = dim_basis orders ncps ix1 ix2 (P e) ix).
    { unfold B, dim_basis. cbn zeta. rewrite HP by assumption. reflexivity. }
    unfold Fd, Fr, Fc. rewrite HB. split; [reflexivity|split; [exact E2|reflexivity]].
Qed.
(** what the sparse routine must give, row by row *)
Definition raw_ok (s n : nat) (X : nat -> nat -> R) (data : nat -> nat -> (nat -> R) -> nat -> R) (col : nat -> nat -> (nat -> R) -> nat -> Z)
  (raw : triples -> nat -> nat -> nat -> (nat -> vec) -> triples) : Prop :=
  forall t ix1 ix2 e k, (e < n)%nat -> (k < s)%nat ->
    t_data (raw t ix1 ix2 n X) (e * s + k)%nat = data ix1 ix2 (X e) k /\
    t_rows (raw t ix1 ix2 n X) (e * s + k)%nat = e /\
    t_cols (raw t ix1 ix2 n X) (e * s + k)%nat = col ix1 ix2 (X e) k.
Lemma rmtb_raw_ok orders ncps lo up n X :
  raw_ok (prodl orders) n X (raw_data orders ncps lo up) (raw_col orders ncps lo up) (rmtb_raw orders ncps lo up).
Proof.
  intros t ix1 ix2 e k He Hk. unfold rmtb_raw. cbn zeta.
  set (T := fun i kx => Rmin _ _).
  destruct (rmtb_jac_rows orders ncps ix1 ix2 n (flat2 (length orders) T) (fun e kx => to_param (lo kx) (up kx) (X e kx)) t
    (fun e ix _ H => flat2_at (length orders) T e ix H) e k He Hk) as (E1 & E2 & E3).
  destruct (rmtb_compute_jac orders ncps ix1 ix2 n (flat2 (length orders) T) t) as [[d r] c].
  unfold t_data, t_rows, t_cols in *. cbn [fst snd] in *.
  split; [|split; [exact E2|exact E3]]. unfold raw_data. cbn zeta.
  destruct ix1, ix2; rewrite E1; reflexivity.
Qed.

(** ** cubic Hermite elements *)
Lemma rmtc_jac_rows nelems lo up ix1 ix2 n xf X t :
  (forall e ix, (e < n)%nat -> (ix < length nelems)%nat -> xf (e * length nelems + ix)%nat = X e ix) ->
  let t' := rmtc_compute_jac nelems lo up ix1 ix2 n xf t in
  forall e k, (e < n)%nat -> (k < nterm nelems)%nat ->
    t_data t' (e * nterm nelems + k)%nat = rmtc_data nelems lo up ix1 ix2 (X e) k /\
    t_rows t' (e * nterm nelems + k)%nat = e /\
    t_cols t' (e * nterm nelems + k)%nat = rmtc_col nelems lo up ix1 ix2 (X e) k.
Proof.
  intros HX. set (s := nterm nelems). set (nx := length nelems) in *. cbn zeta.
  set (good := fun (t : triples) (m : nat) => forall e k, (e < n)%nat -> (k < s)%nat -> (e * s + k < m)%nat ->
    t_data t (e * s + k)%nat = rmtc_data nelems lo up ix1 ix2 (X e) k /\
    t_rows t (e * s + k)%nat = e /\
    t_cols t (e * s + k)%nat = rmtc_col nelems lo up ix1 ix2 (X e) k).
  intros e k He Hk. unfold rmtc_compute_jac. cbn zeta. fold nx. fold s.
  match goal with |- context [for_ n ?b ?t0] => set (body := b); set (start := t0) end.
  assert (G : fst (for_ n body start) = (n * s)%nat /\ good (snd (for_ n body start)) (n * s)%nat).
  { apply (for_ind (fun i st => fst st = (i * s)%nat /\ good (snd st) (i * s)%nat)).
    - split; [reflexivity|]. intros e' k' _ _ H. lia.
    - intros i st Hi [I1 I2]. unfold body. cbn beta.
      match goal with |- context [for_ s ?b ?t0] => set (body2 := b) end.
      assert (P0 : forall ix, (ix < nx)%nat -> find_interval (lo ix) (up ix) (nth ix nelems 0%nat) (xf (i * nx + ix)%nat) = loc nelems lo up (X i) ix).
      { intros ix Hix. rewrite HX by assumption. reflexivity. }
      assert (PE : contract_index nelems (map (fun ix => Z.to_nat (fst (find_interval (lo ix) (up ix) (nth ix nelems 0%nat) (xf (i * nx + ix)%nat)))) (seq 0 nx))
                   = contract_index nelems (elem_list nelems lo up (X i))).
      { unfold elem_list. fold nx. f_equal. apply map_ext_in. intros ix Hix. apply in_seq in Hix. rewrite P0 by lia. reflexivity. }
      pose proof (for_ind (fun m (st' : nat * triples) => fst st' = (i * s + m)%nat /\ good (snd st') (i * s + m)%nat) s body2 st) as F.
      cbn beta in F. replace (S i * s)%nat with (i * s + s)%nat by lia. apply F; clear F.
      + rewrite Nat.add_0_r. split; assumption.
      + intros m [inz [[d r] c]] Hm [J1 J2]. cbn [fst snd] in J1, J2. subst inz. unfold body2. cbn beta zeta. rewrite PE.
        set (prod := for_ nx _ 1).
        assert (PR : prod = rmtc_data nelems lo up ix1 ix2 (X i) m).
        { unfold prod, rmtc_data. cbn zeta. fold nx. unfold for_.
          assert (FE : forall l a, (forall ix, In ix l -> (ix < nx)%nat) ->
             fold_left (fun prod ix => (fun ix prod =>
                let power := nth ix (expand_index (nterms nelems) m) 0%nat in
                let xbar := snd (find_interval (lo ix) (up ix) (nth ix nelems 0%nat) (xf (i * nx + ix)%nat)) in
                let dxb := 1 / ((up ix - lo ix) / INR (nth ix nelems 0%nat) / 2) in
                if negb (Nat.eqb (S ix) ix1) && negb (Nat.eqb (S ix) ix2) then prod * xbar ^ power
                else if Nat.eqb (S ix) ix1 && Nat.eqb (S ix) ix2 then
                  if Nat.leb 2 power then prod * (INR power * (INR power - 1) * xbar ^ (power - 2) * dxb * dxb) else 0
                else if Nat.leb 1 power then prod * (INR power * xbar ^ (power - 1) * dxb) else 0) ix prod) l a
             = fold_left (fun prod ix => prod * mono_factor nelems lo up ix1 ix2 (X i) ix (nth ix (expand_index (nterms nelems) m) 0%nat)) l a).
          { induction l as [|ix l IH]; intros a Hl; [reflexivity|]. cbn [fold_left].
            rewrite <- IH by (intros q Hq; apply Hl; right; exact Hq). f_equal. cbn zeta. rewrite P0 by (apply Hl; left; reflexivity).
            unfold mono_factor. cbn zeta. fold (dxb_dx nelems lo up ix).
            destruct (negb (Nat.eqb (S ix) ix1) && negb (Nat.eqb (S ix) ix2)); [reflexivity|].
            destruct (Nat.eqb (S ix) ix1 && Nat.eqb (S ix) ix2); destruct (Nat.leb _ _); try reflexivity; ring. }
          apply FE. intros ix Hix. apply in_seq in Hix. lia. }
        rewrite PR. split; [cbn [fst]; lia|]. cbn [snd].
        intros e' k' He' Hk' Hlt. unfold t_data, t_rows, t_cols in *. cbn [fst snd] in *.
        destruct (Nat.eq_dec (e' * s + k') (i * s + m)) as [Q|Q].
        * destruct (row_inj s e' i k' m Hk' Hm Q) as [-> ->]. rewrite !bset_eq. unfold rmtc_col. fold s. repeat split; reflexivity.
        * rewrite !bset_ne by exact Q. apply J2; [assumption|assumption|lia]. }
  destruct G as [_ G]. apply G; [exact He|exact Hk|nia].
Qed.
Lemma rmtc_raw_ok nelems lo up n X :
  raw_ok (nterm nelems) n X (rmtc_data nelems lo up) (rmtc_col nelems lo up) (rmtc_raw nelems lo up).
Proof.
  intros t ix1 ix2 e k He Hk. unfold rmtc_raw.
  apply (rmtc_jac_rows nelems lo up ix1 ix2 n (flat2 (length nelems) X) X t (fun e ix _ H => flat2_at (length nelems) X e ix H)); assumption.
Qed.

(** ** prediction matrix *)
Lemma ext_dist_rows nx lo up n s X dx : (0 < s)%nat -> forall e k ix, (e < n)%nat -> (k < s)%nat -> (ix < nx)%nat ->
  rows_of nx (compute_ext_dist nx lo up n s (flat2 nx X) dx) (e * s + k)%nat ix = ext_dist (lo ix) (up ix) (X e ix).
Proof.
  intros Hs e k ix He Hk Hix. unfold rows_of, compute_ext_dist. cbn zeta.
  assert (INJ : forall e1 k1 i1 e2 k2 i2, (k1 < s)%nat -> (i1 < nx)%nat -> (k2 < s)%nat -> (i2 < nx)%nat ->
     (e1 * s * nx + k1 * nx + i1 = e2 * s * nx + k2 * nx + i2)%nat -> e1 = e2 /\ k1 = k2 /\ i1 = i2).
  { intros e1 k1 i1 e2 k2 i2 H1 H2 H3 H4 Q.
    destruct (row_inj nx (e1 * s + k1) (e2 * s + k2) i1 i2 H2 H4 ltac:(lia)) as [Q1 Q2].
    destruct (row_inj s e1 e2 k1 k2 H1 H3 Q1). auto. }
  replace ((e * s + k) * nx + ix)%nat with (e * s * nx + k * nx + ix)%nat by lia.
  set (q := (e * s * nx + k * nx + ix)%nat).
  set (v := fun i ix => flat2 nx X (i * nx + ix)%nat - Rmin (up ix) (Rmax (lo ix) (flat2 nx X (i * nx + ix)%nat))).
  assert (V : v e ix = ext_dist (lo ix) (up ix) (X e ix)).
  { unfold v. rewrite flat2_at by exact Hix. reflexivity. }
  rewrite <- V.
  assert (G : (e < n)%nat -> for_ n (fun i dx => for_ nx (fun ix dx => for_ s (fun iterm dx => bset dx (i * s * nx + iterm * nx + ix)%nat (v i ix)) dx) dx) dx q = v e ix).
  { apply (for_ind (fun m (b : nat -> R) => (e < m)%nat -> b q = v e ix)); [lia|].
    intros i b Hi IH He'. destruct (Nat.eq_dec i e) as [->|N].
    - assert (G2 : (ix < nx)%nat -> for_ nx (fun ix dx => for_ s (fun iterm dx => bset dx (e * s * nx + iterm * nx + ix)%nat (v e ix)) dx) b q = v e ix).
      { apply (for_ind (fun m (b : nat -> R) => (ix < m)%nat -> b q = v e ix)); [lia|].
        intros j b' Hj IH' Hlt. destruct (Nat.eq_dec j ix) as [->|Nj].
        - unfold q. apply (for_write s (fun iterm => (e * s * nx + iterm * nx + ix)%nat) (fun _ => v e ix)); [|exact Hk].
          intros a c Ha Hc Q. destruct (INJ e a ix e c ix Ha Hix Hc Hix Q) as (_ & ? & _). assumption.
        - rewrite (for_write_out s (fun iterm => (e * s * nx + iterm * nx + j)%nat) (fun _ => v e j)); [apply IH'; lia|].
          intros a Ha Q. destruct (INJ e a j e k ix Ha Hj Hk Hix Q) as (_ & _ & ?). lia. }
      exact (G2 Hix).
    - assert (G2 : for_ nx (fun ix dx => for_ s (fun iterm dx => bset dx (i * s * nx + iterm * nx + ix)%nat (v i ix)) dx) b q = b q).
      { apply (for_ind (fun m (b' : nat -> R) => b' q = b q)); [reflexivity|].
        intros j b' Hj IH'. rewrite (for_write_out s (fun iterm => (i * s * nx + iterm * nx + j)%nat) (fun _ => v i j)); [exact IH'|].
        intros a Ha Q. destruct (INJ i a j e k ix Ha Hj Hk Hix Q) as (? & _ & _). lia. }
      rewrite G2. apply IH. lia. }
  exact (G He).
Qed.
Section Pred.
Variables (nx s : nat) (lo up : vec) (data : nat -> nat -> (nat -> R) -> nat -> R) (col : nat -> nat -> (nat -> R) -> nat -> Z).
Variables (raw : triples -> nat -> nat -> nat -> (nat -> vec) -> triples) (n : nat) (X : nat -> vec).
Hypothesis Hraw : raw_ok s n X data col raw.
Lemma pred_rows ext mem mem_dx kx : (0 < s)%nat -> (kx <= nx)%nat -> forall e k, (e < n)%nat -> (k < s)%nat ->
  let t := prediction_mtx nx s lo up raw ext mem mem_dx kx n X in
  t_data t (e * s + k)%nat = pred_data nx lo up data ext kx (X e) k /\
  t_rows t (e * s + k)%nat = e /\
  t_cols t (e * s + k)%nat = pred_col nx col ext kx (X e) k.
Proof.
  intros Hs Hkx e k He Hk. unfold prediction_mtx, pred_data, pred_col. cbn zeta.
  destruct ext; [|apply Hraw; assumption].
  set (dx := rows_of nx _). set (isx := fun q k => if Req_EM_T (dx q k) 0 then 0 else 1).
  assert (DX : forall ix, (ix < nx)%nat -> dx (e * s + k)%nat ix = ext_dist (lo ix) (up ix) (X e ix))
    by (intros ix Hix; apply ext_dist_rows; assumption).
  match goal with |- context [for_ nx ?b ?t0] => set (body := b); set (start := t0) end.
  pose proof (for_ind (fun m (t : triples) =>
    t_data t (e * s + k)%nat = fold_left (fun d ix =>
        let tmp := data kx (S ix) (X e) k * ext_dist (lo ix) (up ix) (X e ix) in
        let tmp := match kx with O => tmp | S k => tmp * (1 - isexternal lo up (X e) k) end in
        d + tmp) (seq 0 m) (data kx 0%nat (X e) k) /\
    t_rows t (e * s + k)%nat = e /\
    t_cols t (e * s + k)%nat = match m with O => col kx 0%nat (X e) k | S _ => col kx m (X e) k end) nx body start) as F.
  apply F; clear F.
  - unfold start. apply Hraw; assumption.
  - intros ix [[d r] c] Hix (E1 & E2 & E3). unfold body. cbn beta.
    destruct (Hraw (mem (S ix)) kx (S ix) e k He Hk) as (R1 & R2 & R3).
    destruct (raw (mem (S ix)) kx (S ix) n X) as [[d2 r2] c2]. unfold t_data, t_rows, t_cols in *. cbn [fst snd] in *.
    split; [|split; [exact R2|exact R3]].
    rewrite seq_S, fold_left_app, <- E1. cbn [fold_left Nat.add]. cbn zeta.
    destruct kx as [|kx'].
    + rewrite R1, DX by exact Hix. reflexivity.
    + rewrite R1, (DX ix) by exact Hix. unfold isx. rewrite (DX kx') by lia. unfold isexternal. reflexivity.
Qed.
Lemma csc_rows ext mem mem_dx kx coef : (0 < s)%nat -> (kx <= nx)%nat -> forall e, (e < n)%nat ->
  csc_dot (n * s) (prediction_mtx nx s lo up raw ext mem mem_dx kx n X) coef e = predict nx s lo up data col ext coef kx (X e).
Proof.
  intros Hs Hkx e He. pose proof (fun e k He Hk => pred_rows ext mem mem_dx kx Hs Hkx e k He Hk) as G. cbn zeta in G.
  destruct (prediction_mtx nx s lo up raw ext mem mem_dx kx n X) as [[d r] c]. unfold t_data, t_rows, t_cols in G. cbn [fst snd] in G.
  unfold csc_dot. rewrite rsum_mul.
  rewrite (rsum_ext n _ (fun i => if Nat.eqb i e then predict nx s lo up data col ext coef kx (X i) else 0)).
  - apply (rsum_single n (fun i => predict nx s lo up data col ext coef kx (X i))). exact He.
  - intros i Hi. destruct (Nat.eqb_spec i e) as [->|N].
    + apply rsum_ext. intros j Hj. destruct (G e j He Hj) as (-> & -> & ->). rewrite Nat.eqb_refl. reflexivity.
    + apply rsum_zero. intros j Hj. destruct (G i j Hi Hj) as (_ & -> & _). rewrite (proj2 (Nat.eqb_neq i e) N). reflexivity.
Qed.
End Pred.
Lemma rmtb_batch orders ncps lo up ext mem mem_dx coef kx n X : (0 < prodl orders)%nat -> (kx <= length orders)%nat -> forall e, (e < n)%nat ->
  rmtb_predict orders ncps lo up ext mem mem_dx coef kx n X e
  = predict (length orders) (prodl orders) lo up (raw_data orders ncps lo up) (raw_col orders ncps lo up) ext coef kx (X e).
Proof. intros H1 H2. apply csc_rows; [apply rmtb_raw_ok|exact H1|exact H2]. Qed.
Lemma rmtc_batch nelems lo up ext mem mem_dx coef kx n X : (0 < nterm nelems)%nat -> (kx <= length nelems)%nat -> forall e, (e < n)%nat ->
  rmtc_predict nelems lo up ext mem mem_dx coef kx n X e
  = predict (length nelems) (nterm nelems) lo up (rmtc_data nelems lo up) (rmtc_col nelems lo up) ext coef kx (X e).
Proof. intros H1 H2. apply csc_rows; [apply rmtc_raw_ok|exact H1|exact H2]. Qed.
