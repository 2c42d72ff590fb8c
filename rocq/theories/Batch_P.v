(** Loops over flat buffers; inverse distance weighting and radial basis functions on n query points. *)
From Coq Require Import Reals ZArith Arith Bool List Lia Lra.
From Verif Require Import RSum Mat Tri_M Kernels_M Krg_M Idw_M Rbf_M Index_M Rmtb_M Rmtc_M Batch_M.
Import ListNotations.
Open Scope list_scope.
Open Scope R_scope.

Lemma for_0 {S : Type} body (s : S) : for_ 0 body s = s.
Proof. reflexivity. Qed.
Lemma for_S {S : Type} n body (s : S) : for_ (Datatypes.S n) body s = body n (for_ n body s).
Proof. unfold for_. rewrite seq_S, fold_left_app. reflexivity. Qed.
Lemma for_ind {S : Type} (P : nat -> S -> Prop) n body (s : S) :
  P 0%nat s -> (forall i s, (i < n)%nat -> P i s -> P (Datatypes.S i) (body i s)) -> P n (for_ n body s).
Proof.
  intros H0 HS. assert (G : forall k, (k <= n)%nat -> P k (for_ k body s)).
  { induction k as [|k IH]; intros L; [exact H0|]. rewrite for_S. apply HS; [lia|]. apply IH. lia. }
  apply G. lia.
Qed.
Lemma bset_eq {A : Type} (b : nat -> A) k v : bset b k v k = v.
Proof. unfold bset. rewrite Nat.eqb_refl. reflexivity. Qed.
Lemma bset_ne {A : Type} (b : nat -> A) k v q : q <> k -> bset b k v q = b q.
Proof. intros H. unfold bset. rewrite (proj2 (Nat.eqb_neq q k) H). reflexivity. Qed.
Lemma for_write {A : Type} n (g : nat -> nat) (v : nat -> A) b k :
  (forall i j, (i < n)%nat -> (j < n)%nat -> g i = g j -> i = j) -> (k < n)%nat ->
  for_ n (fun i b => bset b (g i) (v i)) b (g k) = v k.
Proof.
  intros Hg. induction n as [|n IH]; intros Hk; [lia|]. rewrite for_S.
  destruct (Nat.eq_dec k n) as [->|E]; [apply bset_eq|].
  rewrite bset_ne by (intros X; apply E; apply Hg; lia). apply IH; [|lia]. intros i j Hi Hj. apply Hg; lia.
Qed.
Lemma for_write_out {A : Type} n (g : nat -> nat) (v : nat -> A) b q :
  (forall i, (i < n)%nat -> g i <> q) -> for_ n (fun i b => bset b (g i) (v i)) b q = b q.
Proof.
  induction n as [|n IH]; intros H; [reflexivity|]. rewrite for_S, bset_ne by (intros X; apply (H n); lia).
  apply IH. intros i Hi. apply H. lia.
Qed.
(** contiguous writes *)
Lemma for_slice {A : Type} n o (v : nat -> A) b k : (k < n)%nat -> for_ n (fun i b => bset b (o + i)%nat (v i)) b (o + k)%nat = v k.
Proof. intros H. apply (for_write n (fun i => (o + i)%nat)); [lia|exact H]. Qed.
Lemma for_slice_out {A : Type} n o (v : nat -> A) b q : (q < o \/ o + n <= q)%nat -> for_ n (fun i b => bset b (o + i)%nat (v i)) b q = b q.
Proof. intros H. apply (for_write_out n (fun i => (o + i)%nat)). lia. Qed.
Lemma for_sum n f : for_ n (fun i s => s + f i) 0 = rsum n f.
Proof. induction n as [|n IH]; [reflexivity|]. rewrite for_S, IH. reflexivity. Qed.
Lemma flat2_at {A : Type} nc (T : nat -> nat -> A) i j : (j < nc)%nat -> flat2 nc T (i * nc + j)%nat = T i j.
Proof. intros H. unfold flat2. rewrite Nat.div_add_l, Nat.div_small by lia. rewrite (Nat.add_comm (i * nc) j), Nat.mod_add, Nat.mod_small by lia. rewrite Nat.add_0_r. reflexivity. Qed.
(** two entries of rows of the same length *)
Lemma row_lt e i n k : (e < i)%nat -> (k < n)%nat -> (e * n + k < i * n)%nat.
Proof. intros H K. nia. Qed.
Lemma row_inj n i j k l : (k < n)%nat -> (l < n)%nat -> (i * n + k = j * n + l)%nat -> i = j /\ k = l.
Proof. intros Hk Hl E. assert (i = j) by nia. subst. split; lia. Qed.
Lemma for_fun_write {A : Type} n o (v : nat -> A) b q :
  for_ n (fun i b => bset b (o + i)%nat (v i)) b q = if andb (Nat.leb o q) (Nat.ltb q (o + n)) then v (q - o)%nat else b q.
Proof.
  destruct (Nat.leb_spec o q) as [H1|H1]; destruct (Nat.ltb_spec q (o + n)) as [H2|H2]; cbn [andb].
  - replace q with (o + (q - o))%nat at 1 by lia. apply for_slice. lia.
  - apply for_slice_out. lia.
  - apply for_slice_out. lia.
  - apply for_slice_out. lia.
Qed.

(** ** inverse distance weighting *)
Section Idw.
Variables (nx nt : nat) (p : R) (xt : nat -> nat -> R) (X : nat -> vec).
Let xtf := flat2 nx xt. Let xf := flat2 nx X.
Lemma c_r2_eq i it : c_r2 nx xtf xf i it = idw_r2 nx xt (X i) it.
Proof.
  unfold c_r2, xtf, xf. rewrite for_sum. apply rsum_ext. intros ix H. rewrite !flat2_at by exact H. reflexivity.
Qed.
(** the inner loop of the value routine *)
Lemma idw_scan i w : let r := for_ nt (fun it (st : R * nat * (nat -> R)) =>
        let '(min_val, min_loc, w) := st in
        let r2 := c_r2 nx xtf xf i it in
        let '(min_val, min_loc) := if Rlt_dec r2 min_val then (r2, it) else (min_val, min_loc) in
        (min_val, min_loc, bset w it (Rpower r2 (- p / 2)))) (1, 0%nat, w) in
  fst r = idw_min nx nt xt (X i) /\ forall it, (it < nt)%nat -> snd r it = idw_w nx p xt (X i) it.
Proof.
  cbn zeta. unfold idw_min.
  set (body := fun it (st : R * nat * (nat -> R)) => _).
  set (step := fun (acc : R * nat) it => _).
  apply (for_ind (fun k (r : R * nat * (nat -> R)) => fst r = fold_left step (seq 0 k) (1, 0%nat) /\
     forall it, (it < k)%nat -> snd r it = idw_w nx p xt (X i) it)).
  - split; [reflexivity|]. intros it H; lia.
  - intros k [[mv ml] w'] Hk [E1 E2]. cbn [fst snd] in E1, E2. rewrite seq_S, fold_left_app, <- E1.
    unfold body, step. rewrite c_r2_eq. cbn [fold_left fst snd Nat.add].
    split.
    + destruct (Rlt_dec _ _); reflexivity.
    + intros it Hit. assert (G : bset w' k (Rpower (idw_r2 nx xt (X i) k) (- p / 2)) it = idw_w nx p xt (X i) it).
      { destruct (Nat.eq_dec it k) as [->|N]; [rewrite bset_eq; reflexivity|rewrite bset_ne by exact N; apply E2; lia]. }
      destruct (Rlt_dec _ _); exact G.
Qed.
Lemma idw_loc_lt i : (0 < nt)%nat -> (snd (idw_min nx nt xt (X i)) < nt)%nat.
Proof.
  intros H. unfold idw_min. set (step := fun (acc : R * nat) it => _).
  assert (G : forall l acc, (snd acc < nt)%nat -> (forall k, In k l -> (k < nt)%nat) -> (snd (fold_left step l acc) < nt)%nat).
  { induction l as [|k l IH]; intros acc Ha Hl; [exact Ha|]. cbn [fold_left]. apply IH.
    - unfold step. destruct (Rlt_dec _ _); [apply Hl; left; reflexivity|exact Ha].
    - intros q Hq. apply Hl. right. exact Hq. }
  apply G; [exact H|]. intros k Hk. apply in_seq in Hk. lia.
Qed.
Lemma idw_rows n w jac : forall e it, (e < n)%nat -> (it < nt)%nat ->
  snd (idw_compute_jac nx nt p xtf n xf w jac) (e * nt + it)%nat = idw_jac nx nt p xt (X e) it.
Proof.
  unfold idw_compute_jac.
  apply (for_ind (fun k (r : (nat -> R) * (nat -> R)) => forall e it, (e < k)%nat -> (it < nt)%nat -> snd r (e * nt + it)%nat = idw_jac nx nt p xt (X e) it));
    [intros e it H; lia|].
  intros i [w' jac'] Hi IH. cbn [snd] in IH. pose proof (idw_scan i w') as Sc. cbn zeta in Sc.
  destruct (for_ nt _ (1, 0%nat, w')) as [[mv ml] w2]. cbn [fst snd] in Sc. destruct Sc as [S1 S2].
  intros e it He Hit. unfold idw_jac. pose proof (idw_loc_lt i ltac:(lia)) as L. rewrite <- S1 in L. cbn [snd] in L.
  destruct (Req_EM_T mv 0) as [Z|Z]; cbn [snd].
  - destruct (Nat.eq_dec e i) as [->|N].
    + rewrite <- S1. cbn [fst snd]. destruct (Req_EM_T mv 0) as [_|B]; [|lra].
      destruct (Nat.eqb_spec it ml) as [->|Q]; [apply bset_eq|].
      rewrite bset_ne by lia. apply (for_slice nt (i * nt) (fun _ => 0)). exact Hit.
    + pose proof (row_lt e i nt it ltac:(lia) Hit). rewrite bset_ne by lia.
      rewrite (for_slice_out nt (i * nt) (fun _ => 0)) by lia. rewrite IH by lia. reflexivity.
  - destruct (Nat.eq_dec e i) as [->|N].
    + rewrite <- S1. cbn [fst snd]. destruct (Req_EM_T mv 0) as [B|_]; [lra|].
      rewrite (for_slice nt (i * nt) (fun it => w2 it / for_ nt (fun it0 s => s + w2 it0) 0)) by exact Hit.
      rewrite for_sum. rewrite S2 by exact Hit. rewrite (rsum_ext nt w2 (idw_w nx p xt (X i))) by exact S2. reflexivity.
    + pose proof (row_lt e i nt it ltac:(lia) Hit).
      rewrite (for_slice_out nt (i * nt) (fun it => w2 it / for_ nt (fun it0 s => s + w2 it0) 0)) by lia. rewrite IH by lia. reflexivity.
Qed.
Lemma idw_scan_d kx i w dw : (kx < nx)%nat -> let r := for_ nt (fun it (st : R * nat * (nat -> R) * (nat -> R)) =>
        let '(min_val, min_loc, w, dw) := st in
        let r2 := c_r2 nx xtf xf i it in
        let d := xf (i * nx + kx)%nat - xtf (it * nx + kx)%nat in
        let dr2_dx := 2 * d in
        let '(min_val, min_loc) := if Rlt_dec r2 min_val then (r2, it) else (min_val, min_loc) in
        (min_val, min_loc, bset w it (Rpower r2 (- p / 2)), bset dw it (- p / 2 * Rpower r2 (- p / 2 - 1) * dr2_dx))) (1, 0%nat, w, dw) in
  fst (fst r) = idw_min nx nt xt (X i) /\ forall it, (it < nt)%nat -> snd (fst r) it = idw_w nx p xt (X i) it /\ snd r it = idw_dw nx p xt (X i) kx it.
Proof.
  intros Hkx. cbn zeta. unfold idw_min.
  set (body := fun it (st : R * nat * (nat -> R) * (nat -> R)) => _).
  set (step := fun (acc : R * nat) it => _).
  apply (for_ind (fun k (r : R * nat * (nat -> R) * (nat -> R)) => fst (fst r) = fold_left step (seq 0 k) (1, 0%nat) /\
     forall it, (it < k)%nat -> snd (fst r) it = idw_w nx p xt (X i) it /\ snd r it = idw_dw nx p xt (X i) kx it)).
  - split; [reflexivity|]. intros it H; lia.
  - intros k [[[mv ml] w'] dw'] Hk [E1 E2]. cbn [fst snd] in E1, E2. rewrite seq_S, fold_left_app, <- E1.
    unfold body, step. rewrite c_r2_eq. unfold xf, xtf. rewrite !flat2_at by exact Hkx. cbn [fold_left fst snd Nat.add].
    split.
    + destruct (Rlt_dec _ _); reflexivity.
    + intros it Hit.
      assert (G : bset w' k (Rpower (idw_r2 nx xt (X i) k) (- p / 2)) it = idw_w nx p xt (X i) it /\
        bset dw' k (- p / 2 * Rpower (idw_r2 nx xt (X i) k) (- p / 2 - 1) * (2 * (X i kx - xt k kx))) it = idw_dw nx p xt (X i) kx it).
      { destruct (Nat.eq_dec it k) as [->|N]; [rewrite !bset_eq; split; reflexivity|rewrite !bset_ne by exact N; apply E2; lia]. }
      destruct (Rlt_dec _ _); exact G.
Qed.
Lemma for_sum2 n f g : for_ n (fun i (st : R * R) => let '(s, t) := st in (s + f i, t + g i)) (0, 0) = (rsum n f, rsum n g).
Proof. induction n as [|n IH]; [reflexivity|]. rewrite for_S, IH. reflexivity. Qed.
Lemma idw_rows_d n kx w dw jac : (kx < nx)%nat -> forall e it, (e < n)%nat -> (it < nt)%nat ->
  snd (idw_compute_jac_derivs nx nt p xtf n kx xf w dw jac) (e * nt + it)%nat = idw_djac nx nt p xt (X e) kx it.
Proof.
  intros Hkx. unfold idw_compute_jac_derivs.
  apply (for_ind (fun k (r : (nat -> R) * (nat -> R) * (nat -> R)) => forall e it, (e < k)%nat -> (it < nt)%nat -> snd r (e * nt + it)%nat = idw_djac nx nt p xt (X e) kx it));
    [intros e it H; lia|].
  intros i [[w' dw'] jac'] Hi IH. cbn [snd] in IH. pose proof (idw_scan_d kx i w' dw' Hkx) as Sc. cbn zeta in Sc.
  destruct (for_ nt _ (1, 0%nat, w', dw')) as [[[mv ml] w2] dw2]. cbn [fst snd] in Sc. destruct Sc as [S1 S2].
  intros e it He Hit. unfold idw_djac.
  destruct (Req_EM_T mv 0) as [Z|Z]; cbn [snd].
  - destruct (Nat.eq_dec e i) as [->|N].
    + rewrite <- S1. cbn [fst snd]. destruct (Req_EM_T mv 0) as [_|B]; [|lra].
      apply (for_slice nt (i * nt) (fun _ => 0)). exact Hit.
    + pose proof (row_lt e i nt it ltac:(lia) Hit).
      rewrite (for_slice_out nt (i * nt) (fun _ => 0)) by lia. rewrite IH by lia. reflexivity.
  - rewrite for_sum2. cbn [snd].
    destruct (Nat.eq_dec e i) as [->|N].
    + rewrite <- S1. cbn [fst snd]. destruct (Req_EM_T mv 0) as [B|_]; [lra|].
      rewrite (for_slice nt (i * nt) (fun it => (dw2 it * rsum nt w2 - w2 it * rsum nt dw2) / rsum nt w2 ^ 2)) by exact Hit.
      destruct (S2 it Hit) as [-> ->].
      rewrite (rsum_ext nt w2 (idw_w nx p xt (X i))) by (intros q Hq; apply S2; exact Hq).
      rewrite (rsum_ext nt dw2 (idw_dw nx p xt (X i) kx)) by (intros q Hq; apply S2; exact Hq). reflexivity.
    + pose proof (row_lt e i nt it ltac:(lia) Hit).
      rewrite (for_slice_out nt (i * nt) (fun it => (dw2 it * rsum nt w2 - w2 it * rsum nt dw2) / rsum nt w2 ^ 2)) by lia. rewrite IH by lia. reflexivity.
Qed.
End Idw.
Lemma idw_batch nx nt p xt yt w jac n X e o : (e < n)%nat ->
  idw_predict nx nt p xt yt w jac n X e o = idw_value nx nt p xt (fun it => yt it o) (X e).
Proof. intros He. apply rsum_ext. intros it Hit. unfold rows_of. rewrite idw_rows by assumption. reflexivity. Qed.
Lemma idw_batch_d nx nt p xt yt w dw jac n X kx e o : (kx < nx)%nat -> (e < n)%nat ->
  idw_predict_d nx nt p xt yt w dw jac n X kx e o = idw_derivative nx nt p xt (fun it => yt it o) kx (X e).
Proof. intros Hk He. apply rsum_ext. intros it Hit. unfold rows_of. rewrite idw_rows_d by assumption. reflexivity. Qed.

(** ** radial basis functions *)
(** nested loop writing n rows of c entries at column o of rows of length s *)
Lemma nested_write n c s o (v : nat -> nat -> R) b : (o + c <= s)%nat -> forall e j, (e < n)%nat -> (j < s)%nat ->
  for_ n (fun i b => for_ c (fun k b => bset b (i * s + o + k)%nat (v i k)) b) b (e * s + j)%nat
  = if andb (Nat.leb o j) (Nat.ltb j (o + c)) then v e (j - o)%nat else b (e * s + j)%nat.
Proof.
  intros Hs e j He Hj.
  assert (G : forall k, (k <= n)%nat -> for_ k (fun i b => for_ c (fun k b => bset b (i * s + o + k)%nat (v i k)) b) b (e * s + j)%nat
     = if andb (Nat.ltb e k) (andb (Nat.leb o j) (Nat.ltb j (o + c))) then v e (j - o)%nat else b (e * s + j)%nat).
  { induction k as [|k IH]; intros L; [reflexivity|]. rewrite for_S, for_fun_write, IH by lia.
    destruct (Nat.eq_dec e k) as [->|N].
    - replace (Nat.ltb k k) with false by (symmetry; apply Nat.ltb_ge; lia).
      replace (Nat.ltb k (S k)) with true by (symmetry; apply Nat.ltb_lt; lia). cbn [andb].
      replace (Nat.leb (k * s + o) (k * s + j)) with (Nat.leb o j) by (destruct (Nat.leb_spec o j); symmetry; [apply Nat.leb_le|apply Nat.leb_gt]; lia).
      replace (Nat.ltb (k * s + j) (k * s + o + c)) with (Nat.ltb j (o + c)) by (destruct (Nat.ltb_spec j (o + c)); symmetry; [apply Nat.ltb_lt|apply Nat.ltb_ge]; lia).
      replace (k * s + j - (k * s + o))%nat with (j - o)%nat by lia. reflexivity.
    - replace (andb (Nat.leb (k * s + o) (e * s + j)) (Nat.ltb (e * s + j) (k * s + o + c))) with false.
      + replace (Nat.ltb e (S k)) with (Nat.ltb e k) by (destruct (Nat.ltb_spec e k); symmetry; [apply Nat.ltb_lt|apply Nat.ltb_ge]; lia). reflexivity.
      + symmetry. apply andb_false_iff. destruct (Nat.lt_total e k) as [H|[H|H]]; [|lia|].
        * left. apply Nat.leb_gt. pose proof (row_lt e k s j H Hj). lia.
        * right. apply Nat.ltb_ge. assert (S k * s <= e * s)%nat by (apply Nat.mul_le_mono_r; lia). cbn [Nat.mul] in *. lia. }
  rewrite G by lia. replace (Nat.ltb e n) with true by (symmetry; apply Nat.ltb_lt; exact He). reflexivity.
Qed.
Lemma for_ext {S : Type} n f g (s : S) : (forall i s, (i < n)%nat -> f i s = g i s) -> for_ n f s = for_ n g s.
Proof. induction n as [|n IH]; intros H; [reflexivity|]. rewrite !for_S, IH by (intros; apply H; lia). apply H. lia. Qed.
Section Rbf.
Variables (nx nt : nat) (deg : degree) (d0 : vec) (xt X : nat -> vec).
Let nd := num_dof nx nt deg. Let xtf := flat2 nx xt. Let xf := flat2 nx X.
Lemma c_rr2_eq i it : c_rr2 nx d0 xtf xf i it = rsum nx (fun ix => ((X i ix - xt it ix) / d0 ix) ^ 2).
Proof. unfold c_rr2, xtf, xf. rewrite for_sum. apply rsum_ext. intros ix H. rewrite !flat2_at by exact H. reflexivity. Qed.
Lemma deg_cases : deg = NoPoly \/ deg = Constant \/ deg = Linear.
Proof. clear. destruct deg; auto. Qed.
Lemma nd_val : nd = (nt + num_poly nx deg)%nat.
Proof. reflexivity. Qed.
Lemma block1 n (v : nat -> nat -> R) b e j : (e < n)%nat -> (j < nd)%nat ->
  for_ n (fun i jac => for_ nt (fun it jac => bset jac (i * nd + it)%nat (v i it)) jac) b (e * nd + j)%nat
  = if Nat.ltb j nt then v e j else b (e * nd + j)%nat.
Proof.
  intros He Hj.
  rewrite (for_ext n _ (fun i b => for_ nt (fun k b => bset b (i * nd + 0 + k)%nat (v i k)) b))
    by (intros i s _; apply for_ext; intros k s' _; rewrite Nat.add_0_r; reflexivity).
  rewrite (nested_write n nt nd 0 v b) by (rewrite ?nd_val in *; lia). cbn [Nat.leb andb Nat.add]. rewrite Nat.sub_0_r. reflexivity.
Qed.
Lemma block2 n (c : R) b e j : (nt < nd)%nat -> (e < n)%nat -> (j < nd)%nat ->
  for_ n (fun i jac => bset jac (i * nd + nt)%nat c) b (e * nd + j)%nat = if Nat.eqb j nt then c else b (e * nd + j)%nat.
Proof.
  intros Hd He Hj.
  rewrite (for_ext n _ (fun i b => for_ 1 (fun k b => bset b (i * nd + nt + k)%nat c) b))
    by (intros i s _; rewrite for_S, for_0, Nat.add_0_r; reflexivity).
  rewrite (nested_write n 1 nd nt (fun _ _ => c) b) by lia.
  destruct (Nat.leb_spec nt j); destruct (Nat.ltb_spec j (nt + 1)); destruct (Nat.eqb_spec j nt); cbn [andb]; try reflexivity; lia.
Qed.
Lemma rbf_rows n jac : forall e j, (e < n)%nat -> (j < nd)%nat ->
  rbf_compute_jac nx nt deg d0 xtf n xf jac (e * nd + j)%nat = rbf_jac nx nt deg d0 xt (X e) j.
Proof.
  intros e j He Hj. unfold rbf_compute_jac, rbf_jac. fold nd.
  assert (B1 : for_ n (fun i jac => for_ nt (fun it jac => bset jac (i * nd + it)%nat (exp (- c_rr2 nx d0 xtf xf i it))) jac) jac (e * nd + j)%nat
     = if Nat.ltb j nt then rbf_radial nx d0 xt (X e) j else jac (e * nd + j)%nat).
  { rewrite (block1 n (fun i it => exp (- c_rr2 nx d0 xtf xf i it))) by assumption. rewrite c_rr2_eq. reflexivity. }
  pose proof nd_val as ND. unfold num_poly in ND.
  destruct deg_cases as [E|[E|E]]; rewrite E in ND |- *; cbn [has_const has_linear].
  - rewrite B1. destruct (Nat.ltb_spec j nt); [reflexivity|lia].
  - rewrite block2 by lia. rewrite B1. destruct (Nat.ltb_spec j nt); destruct (Nat.eqb_spec j nt); try reflexivity; lia.
  - rewrite (for_ext n _ (fun i b => for_ nx (fun k b => bset b (i * nd + (nt + 1) + k)%nat (xf (i * nx + k)%nat)) b))
      by (intros i s _; apply for_ext; intros k s' _; rewrite Nat.add_assoc; reflexivity).
    rewrite (nested_write n nx nd (nt + 1) (fun i k => xf (i * nx + k)%nat)) by lia.
    destruct (Nat.leb_spec (nt + 1) j) as [H1|H1]; destruct (Nat.ltb_spec j (nt + 1 + nx)) as [H2|H2]; cbn [andb]; try lia.
    + unfold xf. rewrite flat2_at by lia. destruct (Nat.ltb_spec j nt); [lia|]. destruct (Nat.eqb_spec j nt); [lia|reflexivity].
    + rewrite block2 by lia. rewrite B1. destruct (Nat.ltb_spec j nt); destruct (Nat.eqb_spec j nt); try reflexivity; lia.
Qed.
Lemma rbf_rows_d n kx jac : (kx < nx)%nat -> forall e j, (e < n)%nat -> (j < nd)%nat ->
  rbf_compute_jac_derivs nx nt deg d0 xtf n kx xf jac (e * nd + j)%nat = rbf_djac nx nt deg d0 xt kx (X e) j.
Proof.
  intros Hk e j He Hj. unfold rbf_compute_jac_derivs, rbf_djac. fold nd. cbn zeta.
  assert (B1 : for_ n (fun i jac => for_ nt (fun it jac => bset jac (i * nd + it)%nat
       (- exp (- c_rr2 nx d0 xtf xf i it) * (2 * (xf (i * nx + kx)%nat - xtf (it * nx + kx)%nat) / d0 kx ^ 2))) jac) jac (e * nd + j)%nat
     = if Nat.ltb j nt then - exp (- rsum nx (fun ix => ((X e ix - xt j ix) / d0 ix) ^ 2)) * (2 * (X e kx - xt j kx) / d0 kx ^ 2) else jac (e * nd + j)%nat).
  { rewrite (block1 n (fun i it => - exp (- c_rr2 nx d0 xtf xf i it) * (2 * (xf (i * nx + kx)%nat - xtf (it * nx + kx)%nat) / d0 kx ^ 2))) by assumption.
    rewrite c_rr2_eq. unfold xf, xtf. rewrite !flat2_at by exact Hk. reflexivity. }
  pose proof nd_val as ND. unfold num_poly in ND.
  destruct deg_cases as [E|[E|E]]; rewrite E in ND |- *; cbn [has_const has_linear].
  - rewrite B1. destruct (Nat.ltb_spec j nt); [reflexivity|lia].
  - rewrite block2 by lia. rewrite B1. destruct (Nat.ltb_spec j nt); destruct (Nat.eqb_spec j nt); try reflexivity; lia.
  - rewrite (for_ext n _ (fun i b => for_ 1 (fun k b => bset b (i * nd + (nt + 1 + kx) + k)%nat ((fun _ _ => 1) i k))
        (for_ nx (fun k b => bset b (i * nd + (nt + 1) + k)%nat 0) b))).
    2:{ intros i s _. rewrite for_S, for_0, Nat.add_0_r, !Nat.add_assoc. reflexivity. }
    set (b0 := for_ n (fun i jac0 => bset jac0 (i * nd + nt)%nat 0) _).
    assert (B2 : b0 (e * nd + j)%nat = if Nat.eqb j nt then 0 else if Nat.ltb j nt then
        - exp (- rsum nx (fun ix => ((X e ix - xt j ix) / d0 ix) ^ 2)) * (2 * (X e kx - xt j kx) / d0 kx ^ 2) else jac (e * nd + j)%nat).
    { unfold b0. rewrite block2 by lia. rewrite B1. reflexivity. }
    clearbody b0.
    assert (G : forall k, (k <= n)%nat -> for_ k (fun i b => for_ 1 (fun k b => bset b (i * nd + (nt + 1 + kx) + k)%nat 1)
        (for_ nx (fun k b => bset b (i * nd + (nt + 1) + k)%nat 0) b)) b0 (e * nd + j)%nat
      = if Nat.ltb e k then (if Nat.ltb nt j then (if Nat.eqb j (nt + 1 + kx) then 1 else 0) else b0 (e * nd + j)%nat) else b0 (e * nd + j)%nat).
    { induction k as [|k IH]; intros L; [reflexivity|]. rewrite for_S, !for_fun_write, IH by lia.
      destruct (Nat.eq_dec e k) as [->|N].
      - replace (Nat.ltb k k) with false by (symmetry; apply Nat.ltb_ge; lia).
        replace (Nat.ltb k (S k)) with true by (symmetry; apply Nat.ltb_lt; lia).
        destruct (Nat.leb_spec (k * nd + (nt + 1 + kx)) (k * nd + j)); destruct (Nat.ltb_spec (k * nd + j) (k * nd + (nt + 1 + kx) + 1));
          destruct (Nat.leb_spec (k * nd + (nt + 1)) (k * nd + j)); destruct (Nat.ltb_spec (k * nd + j) (k * nd + (nt + 1) + nx));
          destruct (Nat.ltb_spec nt j); destruct (Nat.eqb_spec j (nt + 1 + kx)); cbn [andb]; try reflexivity; lia.
      - assert (F : forall o c, (o + c <= nd)%nat -> andb (Nat.leb (k * nd + o) (e * nd + j)) (Nat.ltb (e * nd + j) (k * nd + o + c)) = false).
        { intros o c Hoc. apply andb_false_iff. destruct (Nat.lt_total e k) as [H|[H|H]]; [|lia|].
          * left. apply Nat.leb_gt. pose proof (row_lt e k nd j H Hj). lia.
          * right. apply Nat.ltb_ge. assert (S k * nd <= e * nd)%nat by (apply Nat.mul_le_mono_r; lia). cbn [Nat.mul] in *. lia. }
        rewrite !F by lia.
        replace (Nat.ltb e (S k)) with (Nat.ltb e k) by (destruct (Nat.ltb_spec e k); symmetry; [apply Nat.ltb_lt|apply Nat.ltb_ge]; lia). reflexivity. }
    etransitivity; [apply (G n); lia|]. replace (Nat.ltb e n) with true by (symmetry; apply Nat.ltb_lt; exact He). rewrite B2.
    destruct (Nat.ltb_spec nt j); destruct (Nat.ltb_spec j nt); destruct (Nat.eqb_spec j nt); destruct (Nat.eqb_spec j (nt + 1 + kx)); try reflexivity; lia.
Qed.
End Rbf.
Lemma rbf_batch nx nt deg d0 xt sol jac n X e o : (e < n)%nat ->
  rbf_predict nx nt deg d0 xt sol jac n X e o = rbf_value nx nt deg d0 xt (fun j => sol j o) (X e).
Proof. intros He. apply rsum_ext. intros j Hj. unfold rows_of. rewrite rbf_rows by assumption. reflexivity. Qed.
Lemma rbf_batch_d nx nt deg d0 xt sol jac n X kx e o : (kx < nx)%nat -> (e < n)%nat ->
  rbf_predict_d nx nt deg d0 xt sol jac n X kx e o = rbf_derivative nx nt deg d0 xt (fun j => sol j o) kx (X e).
Proof. intros Hk He. apply rsum_ext. intros j Hj. unfold rows_of. rewrite rbf_rows_d by assumption. reflexivity. Qed.
