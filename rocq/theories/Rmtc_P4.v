From Coq Require Import Reals ZArith Arith Bool List Lia Lra.
From Coquelicot Require Import Coquelicot.
From Verif Require Import RSum Index_M Index_P Rmtb_M Rmtb_P2 Rmtb_P3 Rmtb_P4 Rmtc_M Rmtc_S Rmtc_P Rmtc_P2 Rmtc_P3.
Import ListNotations.
Open Scope list_scope.
Open Scope R_scope.

(** * unique columns *)
Lemma side_le t : (side_map t <= 1)%nat.
Proof. unfold side_map. destruct (Nat.even t); lia. Qed.
Lemma derv_lt : forall (ts : list nat), Forall2 lt (map derv_map ts) (map (fun _ => 2%nat) ts).
Proof. induction ts as [|t ts IH]; cbn; constructor; [|exact IH]. unfold derv_map. destruct (Nat.leb 2 t); lia. Qed.
Section Uniq.
Variable nelems : list nat.
Let nx := length nelems.
Lemma ndofs_map (ts : list nat) : length ts = nx -> ndofs_list nelems = map (fun _ => 2%nat) ts.
Proof.
  unfold ndofs_list, nx. revert ts. induction nelems as [|n l IH]; intros [|t ts] H; cbn in *; try lia; [reflexivity|]. f_equal. apply IH. lia.
Qed.
Definition verts (el tl : list nat) : list nat := map (fun et => (fst et + side_map (snd et))%nat) (combine el tl).
Lemma verts_lt el tl : Forall2 lt el nelems -> length tl = nx -> Forall2 lt (verts el tl) (nuniqs nelems).
Proof.
  unfold verts, nuniqs, nx. intros H. revert tl. induction H as [|e n el nl He H IH]; intros [|t tl] L; cbn in *; try lia; constructor.
  - pose proof (side_le t). cbn. lia.
  - apply IH. lia.
Qed.
Lemma uniq_inj a1 b1 a2 b2 n : (b1 < n)%nat -> (b2 < n)%nat -> (a1 * n + b1 = a2 * n + b2)%nat -> a1 = a2 /\ b1 = b2.
Proof. intros H1 H2 E. assert (a1 = a2) by nia. subst. lia. Qed.
Lemma uniq_range el tl : Forall2 lt el nelems -> length tl = nx -> (uniq_col_l nelems el tl < 2 ^ nx * nuniq nelems)%nat.
Proof.
  intros H L. unfold uniq_col_l. fold (verts el tl). pose proof (contract_lt _ _ (verts_lt el tl H L)) as V. fold (nuniq nelems) in V.
  pose proof (contract_lt _ _ (derv_lt tl)) as D. rewrite <- (ndofs_map tl L) in D.
  assert (P : prodl (ndofs_list nelems) = (2 ^ nx)%nat).
  { unfold ndofs_list, nx. clear. induction nelems as [|n l IH]; cbn [map length]; [reflexivity|]. rewrite prodl_cons, IH. reflexivity. }
  rewrite P in D. nia.
Qed.
Lemma uniq_iff (el tl el' tl' : list nat) : Forall2 lt el nelems -> Forall2 lt el' nelems -> length tl = nx -> length tl' = nx ->
  (uniq_col_l nelems el tl = uniq_col_l nelems el' tl' <-> map derv_map tl = map derv_map tl' /\ verts el tl = verts el' tl').
Proof.
  intros H H' L L'. unfold uniq_col_l. fold (verts el tl). fold (verts el' tl').
  pose proof (verts_lt el tl H L) as V. pose proof (verts_lt el' tl' H' L') as V'.
  split; [|intros (-> & ->); reflexivity]. intros E.
  apply uniq_inj in E; [|apply contract_lt; exact V|apply contract_lt; exact V'].
  destruct E as (E1 & E2). split.
  - apply (contract_inj (ndofs_list nelems)); [rewrite (ndofs_map tl L); apply derv_lt|rewrite (ndofs_map tl' L'); apply derv_lt|exact E1].
  - apply (contract_inj (nuniqs nelems)); assumption.
Qed.
(** every (derivative flags, vertex) pair is the image of some element corner *)
Lemma uniq_onto : List.Forall (fun n => (0 < n)%nat) nelems -> forall ds vs, List.Forall (fun d => (d < 2)%nat) ds -> length ds = nx -> Forall2 (fun v n => (v <= n)%nat) vs nelems ->
  exists el tl, Forall2 lt el nelems /\ List.Forall (fun t => (t < 4)%nat) tl /\ length tl = nx /\ map derv_map tl = ds /\ verts el tl = vs.
Proof.
  unfold nx. intros Hp ds vs Hd L Hv. revert ds Hd L. revert Hp. induction Hv as [|v n vs nl Hv H IH]; intros Hp ds Hd L; destruct ds as [|d ds]; cbn in L; try lia.
  - exists [], []. repeat split; constructor.
  - inversion Hp; subst. inversion Hd; subst. destruct (IH H3 ds H5 ltac:(lia)) as (el & tl & A & B & C & D & F).
    destruct (Nat.eq_dec v 0) as [V|V].
    + exists (0%nat :: el), ((2 * d)%nat :: tl). split; [constructor; assumption|]. split; [constructor; [lia|exact B]|]. split; [cbn; lia|].
      assert (d = 0 \/ d = 1)%nat as [-> | ->] by lia; cbn; rewrite D; (split; [reflexivity|]); unfold verts in *; cbn; rewrite F, V; reflexivity.
    + exists ((v - 1)%nat :: el), ((2 * d + 1)%nat :: tl). split; [constructor; [lia|exact A]|]. split; [constructor; [lia|exact B]|]. split; [cbn; lia|].
      assert (d = 0 \/ d = 1)%nat as [-> | ->] by lia; cbn; rewrite D; (split; [reflexivity|]); unfold verts in *; cbn; rewrite F; f_equal; lia.
Qed.
Lemma uniq_shift kx e k0 k1 : derv_map k0 = derv_map k1 -> side_map k0 = 0%nat -> side_map k1 = 1%nat -> forall el tl,
  uniq_col_l nelems (lset kx e el) (lset kx k1 tl) = uniq_col_l nelems (lset kx (S e) el) (lset kx k0 tl).
Proof.
  intros D S0 S1 el tl. unfold uniq_col_l.
  assert (A : map derv_map (lset kx k1 tl) = map derv_map (lset kx k0 tl)).
  { clear -D. revert kx. induction tl as [|t tl IH]; intros [|kx]; cbn; try reflexivity; [rewrite D; reflexivity|]. f_equal. apply IH. }
  assert (B : map (fun et => (fst et + side_map (snd et))%nat) (combine (lset kx e el) (lset kx k1 tl)) = map (fun et => (fst et + side_map (snd et))%nat) (combine (lset kx (S e) el) (lset kx k0 tl))).
  { clear -S0 S1. revert kx el. induction tl as [|t tl IH]; intros [|kx] [|a el]; cbn; try reflexivity; [rewrite S0, S1; f_equal; lia|]. f_equal. apply IH. }
  rewrite A, B. reflexivity.
Qed.
End Uniq.

Section R.
Variables (nelems : list nat) (lo up : nat -> R) (inv : nat -> nat -> R) (dof : nat -> R).
Let nx := length nelems.
Notation nterms := (Rmtc_M.nterms nelems).
Notation nterm := (Rmtc_M.nterm nelems).
Hypothesis Hbox : forall k, (k < nx)%nat -> lo k < up k.
Hypothesis Hel : forall k, (k < nx)%nat -> (0 < nth k nelems 0)%nat.
Hypothesis Hinv : forall i j, (i < nterm)%nat -> (j < nterm)%nat -> rsum nterm (fun k => inv i k * coeff2nodal nelems k j) = if Nat.eqb i j then 1 else 0.
Notation E x := (elem_list nelems lo up x).
Notation U := (rawsum nterm (rmtc_data nelems lo up) (rmtc_col nelems lo up) (fun z => dof2coeff nelems inv dof (Z.to_nat z))).
Lemma Ueq ix1 ix2 x : U ix1 ix2 x = msum nterms (fun ls => lprod 0 ls (hfac nelems lo up ix1 ix2 x) * dof (uniq_col_l nelems (E x) ls)).
Proof. apply U_eq; assumption. Qed.
Lemma value_eq ext x : rmtc_value nelems lo up ext inv dof x = gen_value nx lo up U ext x.
Proof.
  unfold rmtc_value. rewrite predict_eq by reflexivity. unfold gen_value. f_equal. destruct ext; [|reflexivity].
  apply rsum_ext. intros ix _. unfold mask. ring.
Qed.
Lemma deriv_eq ext kx x : rmtc_derivative nelems lo up ext inv dof kx x = gen_deriv nx lo up U ext kx x.
Proof. unfold rmtc_derivative. rewrite predict_eq by reflexivity. reflexivity. Qed.

Lemma E_upd x kx z : (kx < nx)%nat -> E (upd x kx z) = lset kx (Z.to_nat (fst (find_interval (lo kx) (up kx) (nth kx nelems 0%nat) z))) (E x).
Proof.
  intros Hk. apply nth_ext_nat; [rewrite lset_length, !E_length; reflexivity|]. intros k Hlt. rewrite E_length in Hlt.
  rewrite E_nth by exact Hlt. destruct (Nat.eq_dec k kx) as [-> |N].
  - rewrite lset_nth_eq by (rewrite E_length; exact Hlt). unfold loc. rewrite upd_eq. reflexivity.
  - rewrite lset_nth_neq by exact N. rewrite E_nth by exact Hlt. unfold loc. rewrite upd_neq by exact N. reflexivity.
Qed.
Lemma lset_same x kx : lset kx (nth kx (E x) 0%nat) (E x) = E x.
Proof. generalize (E x). induction l as [|a l IH] in kx |- *; destruct kx; cbn; [reflexivity|reflexivity|reflexivity|]. f_equal. apply IH. Qed.
Lemma hfac_loc ix1 ix2 x y ix l : loc nelems lo up x ix = loc nelems lo up y ix -> hfac nelems lo up ix1 ix2 x ix l = hfac nelems lo up ix1 ix2 y ix l.
Proof. intros H. unfold hfac, mono_factor. rewrite H. reflexivity. Qed.
Lemma loc_upd x kx z ix : ix <> kx -> loc nelems lo up (upd x kx z) ix = loc nelems lo up x ix.
Proof. intros H. unfold loc. rewrite upd_neq by exact H. reflexivity. Qed.

Definition cc (ix2 : nat) (x : nat -> R) (kx : nat) (e k : nat) : R :=
  msum (lset kx 1%nat nterms) (fun is => lprod 0 is (fun ix i => if Nat.eqb ix kx then 1 else hfac nelems lo up 0 ix2 x ix i) *
     dof (uniq_col_l nelems (lset kx e (E x)) (lset kx k is))).
Lemma U_1d ix2 x kx z : (kx < nx)%nat -> S kx <> ix2 ->
  U 0 ix2 (upd x kx z) = pw (lo kx) (up kx) (nth kx nelems 0%nat) (cc ix2 x kx) z.
Proof.
  intros Hk N. rewrite Ueq. rewrite (msum_pull _ nterms 0 kx) by (rewrite nterms_length; exact Hk). rewrite nterms_nth by exact Hk. cbn [Nat.add].
  unfold pw. apply rsum_ext. intros k Hk4. f_equal.
  - rewrite hfac_0 by (try exact Hk4; try lia; exact N). f_equal. unfold loc. rewrite upd_eq. reflexivity.
  - unfold cc. apply msum_ext. intros is His. f_equal.
    + apply lprod_ext. intros j Hj. cbn [Nat.add]. destruct (Nat.eqb_spec j kx); [reflexivity|]. apply hfac_loc. apply loc_upd. assumption.
    + rewrite E_upd by exact Hk. reflexivity.
Qed.
Lemma dU_1d ix2 x kx : (kx < nx)%nat -> S kx <> ix2 ->
  U (S kx) ix2 x = dpw (lo kx) (up kx) (nth kx nelems 0%nat) (cc ix2 x kx) (x kx) * scale (lo kx) (up kx) (nth kx nelems 0%nat).
Proof.
  intros Hk N. rewrite Ueq. rewrite (msum_pull _ nterms 0 kx) by (rewrite nterms_length; exact Hk). rewrite nterms_nth by exact Hk. cbn [Nat.add].
  unfold dpw. rewrite <- rsum_scal_r. apply rsum_ext. intros k Hk4.
  rewrite (hfac_1 nelems lo up dof); [|left; split; [reflexivity|exact N]|exact Hk4].
  assert (D : dxb_dx nelems lo up kx = scale (lo kx) (up kx) (nth kx nelems 0%nat)).
  { unfold dxb_dx, scale. pose proof (num_pos _ (Hel kx Hk)). pose proof (Hbox kx Hk). field. split; lra. }
  rewrite D. unfold loc.
  match goal with |- _ * _ * ?m = _ => replace m with (cc ix2 x kx (Z.to_nat (fst (find_interval (lo kx) (up kx) (nth kx nelems 0%nat) (x kx)))) k); [ring|] end.
  unfold cc. apply msum_ext. intros is His. f_equal.
  - apply lprod_ext. intros j Hj. cbn [Nat.add]. destruct (Nat.eqb_spec j kx); [reflexivity|].
    unfold hfac. apply rsum_ext. intros p _. f_equal. unfold mono_factor. destruct (Nat.eqb_spec (S j) (S kx)); [lia|]. cbn [Nat.eqb]. reflexivity.
  - f_equal. f_equal. rewrite <- (lset_same x kx) at 2. rewrite E_nth by exact Hk. reflexivity.
Qed.
Lemma U_in ix2 x kx : (kx < nx)%nat -> S kx <> ix2 -> lo kx < x kx < up kx ->
  is_derive (fun z => U 0 ix2 (upd x kx z)) (x kx) (U (S kx) ix2 x).
Proof.
  intros Hk N Hi. apply (is_derive_ext (pw (lo kx) (up kx) (nth kx nelems 0%nat) (cc ix2 x kx))).
  { intros z. symmetry. apply U_1d; assumption. }
  rewrite dU_1d by assumption. apply pw_derive; [apply Hbox; exact Hk|apply Hel; exact Hk| | |exact Hi].
  - intros e _. unfold cc. apply msum_ext. intros is _. f_equal. f_equal. apply uniq_shift; reflexivity.
  - intros e _. unfold cc. apply msum_ext. intros is _. f_equal. f_equal. apply uniq_shift; reflexivity.
Qed.
Lemma U_loc_ext ix1 ix2 x y : (forall k, (k < nx)%nat -> loc nelems lo up x k = loc nelems lo up y k) -> U ix1 ix2 x = U ix1 ix2 y.
Proof.
  intros H. rewrite !Ueq. apply msum_ext. intros ls Hls. pose proof (F2_length _ _ _ Hls) as L. rewrite nterms_length in L. f_equal.
  - apply lprod_ext. intros k Hk. apply hfac_loc. apply H. cbn [Nat.add]. fold nx in L. lia.
  - f_equal. f_equal. apply nth_ext_nat; [rewrite !E_length; reflexivity|]. intros k Hk. rewrite E_length in Hk. rewrite !E_nth by exact Hk. rewrite H by exact Hk. reflexivity.
Qed.
Lemma U_nearest ix1 ix2 x : U ix1 ix2 (fun k => nearest (lo k) (up k) (x k)) = U ix1 ix2 x.
Proof. apply U_loc_ext. intros k Hk. unfold loc. apply fi_nearest; [apply Hbox|apply Hel]; exact Hk. Qed.
Lemma nearest_out_loc l u x : l < u -> (x < l \/ u < x) -> locally x (fun z => nearest l u z = nearest l u x).
Proof.
  intros L [H|H].
  - apply (nhood (fun y => y) (x - 1) l); [apply continuous_id|lra|]. intros y Hy. unfold nearest. rewrite !Rmax_left by lra. reflexivity.
  - apply (nhood (fun y => y) u (x + 1)); [apply continuous_id|lra|]. intros y Hy. unfold nearest. rewrite !Rmax_right by lra. rewrite !Rmin_left by lra. reflexivity.
Qed.
Lemma U_out x kx : (kx < nx)%nat -> x kx < lo kx \/ up kx < x kx -> forall ix1 ix2, locally (x kx) (fun z => U ix1 ix2 (upd x kx z) = U ix1 ix2 x).
Proof.
  intros Hk Ho ix1 ix2. refine (filter_imp _ _ _ (nearest_out_loc (lo kx) (up kx) (x kx) (Hbox kx Hk) Ho)). intros z Hz.
  rewrite <- (U_nearest ix1 ix2 (upd x kx z)), <- (U_nearest ix1 ix2 x). apply U_loc_ext. intros k _. unfold loc. f_equal.
  destruct (Nat.eq_dec k kx) as [-> |N]; [rewrite upd_eq; exact Hz|rewrite upd_neq by exact N; reflexivity].
Qed.
Lemma U_sym kx x : U 0 (S kx) x = U (S kx) 0 x.
Proof.
  rewrite !Ueq. apply msum_ext. intros ls _. f_equal. apply lprod_ext. intros k _. unfold hfac. apply rsum_ext. intros p _. f_equal.
  unfold mono_factor. cbn [Nat.add Nat.eqb]. destruct (Nat.eqb k kx); reflexivity.
Qed.
Lemma derivative_correct ext kx x : (kx < nx)%nat -> lo kx < x kx < up kx \/ (ext = true /\ (x kx < lo kx \/ up kx < x kx)) ->
  is_partial (rmtc_value nelems lo up ext inv dof) x kx (rmtc_derivative nelems lo up ext inv dof kx x).
Proof.
  intros Hk H. rewrite deriv_eq. unfold is_partial.
  apply (is_derive_ext (fun z => gen_value nx lo up U ext (upd x kx z))). { intros z. symmetry. apply value_eq. }
  apply gen_derivative; [exact Hk|apply Hbox; exact Hk| | |apply U_sym|exact H].
  - intros Hi ix2 N. apply U_in; [exact Hk|congruence|exact Hi].
  - intros Ho. apply U_out; assumption.
Qed.
Lemma value_inside x : (forall k, (k < nx)%nat -> lo k <= x k <= up k) -> rmtc_value nelems lo up true inv dof x = rmtc_value nelems lo up false inv dof x.
Proof.
  intros H. rewrite !value_eq. unfold gen_value. f_equal. apply rsum_zero. intros ix Hix. rewrite ext_dist_in by (apply H; exact Hix). ring.
Qed.
Lemma value_expansion x : let b := fun k => nearest (lo k) (up k) (x k) in
  rmtc_value nelems lo up true inv dof x =
  rmtc_value nelems lo up false inv dof b + rsum nx (fun k => rmtc_derivative nelems lo up false inv dof k b * (x k - b k)).
Proof.
  cbv zeta. rewrite !value_eq. unfold gen_value. rewrite Rplus_0_r, U_nearest. f_equal. apply rsum_ext. intros k _.
  rewrite deriv_eq. unfold gen_deriv. rewrite Rplus_0_r, U_nearest, U_sym. reflexivity.
Qed.
(** tensor Hermite form *)
Lemma value_tensor x : rmtc_value nelems lo up false inv dof x =
  tensor_herm nx 0 (fun ix => snd (loc nelems lo up x ix)) (fun ls => dof (uniq_col_l nelems (E x) ls)).
Proof.
  rewrite value_eq. unfold gen_value. rewrite Rplus_0_r, Ueq.
  set (G0 := fun ls => dof (uniq_col_l nelems (E x) ls)).
  change (msum nterms (fun ls => lprod 0 ls (hfac nelems lo up 0 0 x) * G0 ls) = tensor_herm nx 0 (fun ix => snd (loc nelems lo up x ix)) G0). generalize G0. clear G0.
  assert (X : forall n d G, msum (repeat 4%nat n) (fun ls => lprod d ls (hfac nelems lo up 0 0 x) * G ls) = tensor_herm n d (fun ix => snd (loc nelems lo up x ix)) G).
  { induction n as [|n IH]; intros d G; cbn [repeat msum tensor_herm lprod]; [ring|]. apply rsum_ext. intros k Hk.
    rewrite <- IH, <- msum_scal. apply msum_ext. intros is _. rewrite hfac_0 by (try exact Hk; lia). ring. }
  intros G. rewrite <- X. assert (Et : nterms = repeat 4%nat nx).
  { unfold Rmtc_M.nterms, nx. clear. induction nelems as [|n l IH]; cbn; [reflexivity|]. f_equal. exact IH. }
  rewrite Et. reflexivity.
Qed.
(** nodal interpolation *)
Lemma fi_vertex a b num v : a < b -> (0 < num)%nat -> (v <= num)%nat ->
  exists t, (t < 2)%nat /\ snd (find_interval a b num (a + (b - a) * (INR v / INR num))) = xval_of t /\
            (Z.to_nat (fst (find_interval a b num (a + (b - a) * (INR v / INR num)))) + side_map t)%nat = v.
Proof.
  intros Hab Hn Hv. pose proof (num_pos num Hn) as Np. set (z := a + (b - a) * (INR v / INR num)).
  assert (Er : (z - a) / (b - a) * INR num = INR v) by (unfold z; field; lra).
  pose proof (pos_INR v) as Vp. pose proof (le_INR _ _ Hv) as Vn.
  assert (Q : 0 < (b - a) / INR num) by (apply Rdiv_lt_0_compat; lra).
  assert (Ez : z = a + INR v * ((b - a) / INR num)) by (unfold z; field; lra).
  assert (Eb : b = a + INR num * ((b - a) / INR num)) by (field; lra).
  destruct (fi_cases a b num z Hab Hn) as (Rg & [(C & _)|[(C & F & G)|[(C & _)|(C & F & G)]]]).
  - exfalso. nra.
  - exists 0%nat. split; [lia|]. rewrite F, G. split; [reflexivity|]. cbn.
    destruct v as [|v]; [reflexivity|exfalso]. rewrite S_INR in *. pose proof (pos_INR v). nra.
  - exfalso. nra.
  - exists 1%nat. rewrite Er in F, G. split; [lia|]. set (f := fst (find_interval a b num z)) in *.
    rewrite INR_IZR_INZ in F. destruct F as (F1 & F2). rewrite <- plus_IZR in F2. apply lt_IZR in F1. apply le_IZR in F2.
    assert (Ef : f = (Z.of_nat v - 1)%Z) by lia. split; [|unfold side_map; cbn [Nat.even]; lia]. rewrite G, Ef, minus_IZR, <- INR_IZR_INZ. unfold xval_of. cbn [Nat.even]. lra.
Qed.
Lemma nodal (vs : list nat) x : Forall2 (fun v n => (v <= n)%nat) vs nelems ->
  (forall k, (k < nx)%nat -> x k = lo k + (up k - lo k) * (INR (nth k vs 0%nat) / INR (nth k nelems 0%nat))) ->
  rmtc_value nelems lo up false inv dof x = dof (contract_index (nuniqs nelems) vs).
Proof.
  intros Hv Hx. pose proof (F2_length _ _ _ Hv) as Lv. fold nx in Lv. rewrite value_eq. unfold gen_value. rewrite Rplus_0_r, Ueq.
  assert (T : exists ts, length ts = nx /\ forall k, (k < nx)%nat -> (nth k ts 0 < 2)%nat /\ snd (loc nelems lo up x k) = xval_of (nth k ts 0%nat) /\ (nth k (E x) 0 + side_map (nth k ts 0) = nth k vs 0)%nat).
  { assert (W : forall k, exists t, (k < nx)%nat -> (t < 2)%nat /\ snd (loc nelems lo up x k) = xval_of t /\ (nth k (E x) 0 + side_map t = nth k vs 0)%nat).
    { intros k. destruct (Nat.lt_ge_cases k nx) as [Hk|Hk]; [|exists 0%nat; lia].
      destruct (fi_vertex (lo k) (up k) (nth k nelems 0%nat) (nth k vs 0%nat) (Hbox k Hk) (Hel k Hk)) as (t & A & B & C).
      - apply (F2_nth (fun v n => (v <= n)%nat)); [exact Hv|exact Hk].
      - exists t. intros _. rewrite E_nth by exact Hk. unfold loc. rewrite Hx by exact Hk. auto. }
    assert (W2 : forall m, exists ts, length ts = m /\ forall k, (k < m)%nat -> (k < nx)%nat -> (nth k ts 0 < 2)%nat /\ snd (loc nelems lo up x k) = xval_of (nth k ts 0%nat) /\ (nth k (E x) 0 + side_map (nth k ts 0) = nth k vs 0)%nat).
    { induction m as [|m (ts & L & IH)]; [exists []; split; [reflexivity|lia]|]. destruct (W m) as (t & Ht). exists (ts ++ [t]). split; [rewrite app_length, L; cbn; lia|].
      intros k Hk Hkx. destruct (Nat.eq_dec k m) as [-> |N].
      - rewrite app_nth2 by lia. rewrite L, Nat.sub_diag. cbn [nth]. apply Ht. exact Hkx.
      - rewrite app_nth1 by lia. apply IH; [lia|exact Hkx]. }
    destruct (W2 nx) as (ts & L & H). exists ts. split; [exact L|]. intros k Hk. apply H; exact Hk. }
  destruct T as (ts & Lt & HT).
  rewrite (msum_ext nterms _ (fun ls => lprod 0 ls (fun ix k => if Nat.eqb (nth ix ts 0%nat) k then 1 else 0) * dof (uniq_col_l nelems (E x) ls))).
  - rewrite (msum_single (fun ix => nth ix ts 0%nat) nterms 0 (fun ls => dof (uniq_col_l nelems (E x) ls))).
    + rewrite nterms_length. fold nx. f_equal.
      assert (Em : map (fun ix => nth ix ts 0%nat) (seq 0 nx) = ts).
      { rewrite <- Lt. clear. apply (nth_ext _ _ 0%nat 0%nat); [rewrite map_length, seq_length; reflexivity|]. intros k Hk. rewrite map_length, seq_length in Hk.
        set (f := fun ix => nth ix ts 0%nat). rewrite (nth_indep _ 0%nat (f 0%nat)) by (rewrite map_length, seq_length; exact Hk). rewrite map_nth, seq_nth by exact Hk. reflexivity. }
      rewrite Em. unfold uniq_col_l. fold (verts (E x) ts).
      assert (D : contract_index (ndofs_list nelems) (map derv_map ts) = 0%nat).
      { assert (Z : forall ds, length ds = nx -> (forall k, (k < nx)%nat -> nth k ds 0%nat = 0%nat) -> contract_index (ndofs_list nelems) ds = 0%nat).
        { unfold ndofs_list, nx. clear. induction nelems as [|n l IH]; intros [|d ds] L H; cbn in L; try lia; [reflexivity|]. cbn [map].
          rewrite contract_cons' by (rewrite map_length; lia). rewrite (IH ds); [|lia|intros k Hk; apply (H (S k)); cbn; lia].
          pose proof (H 0%nat ltac:(cbn; lia)) as H0. cbn in H0. rewrite H0. reflexivity. }
        apply Z; [rewrite map_length; exact Lt|]. intros k Hk. change 0%nat with (derv_map 0). rewrite map_nth.
        destruct (HT k Hk) as (A & _). unfold derv_map. destruct (Nat.leb_spec 2 (nth k ts 0%nat)); [lia|reflexivity]. }
      rewrite D. cbn [Nat.mul Nat.add]. f_equal. apply nth_ext_nat.
      * unfold verts. rewrite map_length, combine_length, E_length. fold nx. lia.
      * intros k Hk. unfold verts in *. rewrite map_length, combine_length, E_length in Hk. fold nx in Hk. assert (Hk' : (k < nx)%nat) by lia.
        set (f := fun et : nat * nat => (fst et + side_map (snd et))%nat). change 0%nat with (f (0%nat, 0%nat)) at 1. rewrite map_nth, combine_nth by (rewrite E_length; fold nx; lia).
        unfold f. cbn [fst snd]. apply HT. exact Hk'.
    + intros k Hk. rewrite nterms_length in Hk. cbn [Nat.add]. rewrite nterms_nth by exact Hk. destruct (HT k Hk) as (A & _). lia.
  - intros ls Hls. f_equal. apply lprod_ext. intros k Hk. cbn [Nat.add]. pose proof (F2_length _ _ _ Hls) as L. rewrite nterms_length in L. fold nx in L.
    assert (Hkx : (k < nx)%nat) by lia.
    assert (H4 : (nth k ls 0 < 4)%nat). { rewrite <- (nterms_nth nelems k Hkx). apply (F2_nth lt); [exact Hls|rewrite nterms_length; exact Hkx]. }
    rewrite hfac_0 by (try exact H4; lia). destruct (HT k Hkx) as (A & B & _). rewrite B.
    rewrite <- (herm_node (nth k ts 0%nat) (nth k ls 0%nat)) by lia. unfold deriv_of. destruct (Nat.leb_spec 2 (nth k ts 0%nat)); [lia|reflexivity].
Qed.
Lemma col_range ix1 ix2 x t : (t < nterm)%nat -> (0 <= rmtc_col nelems lo up ix1 ix2 x t < Z.of_nat (Rmtc_M.nelem nelems * nterm))%Z.
Proof.
  intros Ht. unfold rmtc_col. pose proof (elem_lt nelems lo up Hbox Hel x). fold (Rmtc_M.nelem nelems) in *. split; [lia|]. apply Nat2Z.inj_lt. nia.
Qed.
End R.

Lemma B4 k l : (k < 4)%nat -> (l < 4)%nat -> rsum 4 (fun p => Bc k p * c2n_factor p l) = if Nat.eqb k l then 1 else 0.
Proof. intros Hk Hl. four k Hk; four l Hl; unfold c2n_factor, deriv_of, xval_of, Bc; cbn; lra. Qed.
Lemma lprod_flip (f : nat -> nat -> R) : forall is js d, length is = length js ->
  lprod d is (fun ix p => f p (nth (ix - d) js 0%nat)) = lprod d js (fun ix q => f (nth (ix - d) is 0%nat) q).
Proof.
  induction is as [|i is IH]; intros [|j js] d L; cbn in L; try discriminate; [reflexivity|]. cbn [lprod]. rewrite Nat.sub_diag. cbn [nth]. f_equal.
  rewrite (lprod_ext _ (fun ix p => f p (nth (ix - S d) js 0%nat))).
  - rewrite IH by lia. apply lprod_ext. intros k Hk. replace (S d + k - d)%nat with (S (S d + k - S d)) by lia. reflexivity.
  - intros k Hk. replace (S d + k - d)%nat with (S (S d + k - S d)) by lia. reflexivity.
Qed.
Lemma kron_c2n nelems i j : (i < nterm nelems)%nat -> (j < nterm nelems)%nat ->
  rsum (nterm nelems) (fun m => kron nelems i m * coeff2nodal nelems m j) = if Nat.eqb i j then 1 else 0.
Proof.
  intros Hi Hj. set (nt := nterms nelems).
  transitivity (msum nt (fun ms => lprod 0 ms (fun ix q => Bc (nth ix (expand_index nt i) 0%nat) q * c2n_factor q (nth ix (expand_index nt j) 0%nat)))).
  { rewrite <- msum_expand. apply rsum_ext. intros m Hm. unfold kron. rewrite c2n_lprod. fold nt. rewrite lprod_mult. f_equal.
    - pose proof (lprod_flip Bc (expand_index nt i) (expand_index nt m) 0 ltac:(rewrite !expand_length; reflexivity)) as F.
      rewrite (lprod_ext _ (fun ix p => Bc p (nth (ix - 0) (expand_index nt m) 0%nat))) by (intros; rewrite Nat.sub_0_r; reflexivity).
      rewrite F. apply lprod_ext. intros; rewrite Nat.sub_0_r; reflexivity.
    - pose proof (lprod_flip c2n_factor (expand_index nt m) (expand_index nt j) 0 ltac:(rewrite !expand_length; reflexivity)) as F.
      rewrite (lprod_ext _ (fun ix p => c2n_factor (nth (ix - 0) (expand_index nt m) 0%nat) p)) by (intros; rewrite Nat.sub_0_r; reflexivity).
      rewrite <- F. apply lprod_ext. intros; rewrite Nat.sub_0_r; reflexivity. }
  rewrite msum_lprod.
  rewrite (sprod_delta (fun ix => nth ix (expand_index nt i) 0%nat) (fun ix => nth ix (expand_index nt j) 0%nat)).
  - cbn [Nat.add]. destruct (Nat.eqb_spec i j) as [-> |N].
    + assert (T : forallb (fun k => Nat.eqb (nth k (expand_index nt j) 0%nat) (nth k (expand_index nt j) 0%nat)) (seq 0 (length nt)) = true).
      { apply forallb_forall. intros k _. apply Nat.eqb_refl. }
      rewrite T. reflexivity.
    + destruct (forallb _ _) eqn:T; [|reflexivity]. exfalso. apply N. rewrite forallb_forall in T.
      rewrite <- (contract_expand nt i Hi), <- (contract_expand nt j Hj). f_equal.
      apply nth_ext_nat; [rewrite !expand_length; reflexivity|]. intros k Hk. rewrite expand_length in Hk.
      apply Nat.eqb_eq. apply T. apply in_seq. lia.
  - intros k Hk. cbn [Nat.add]. unfold nt in *. rewrite nterms_length in Hk. rewrite nterms_nth by exact Hk. apply B4; apply term_lt; assumption.
Qed.
Lemma inverse_exists nelems : is_inverse (nterm nelems) (coeff2nodal nelems) (kron nelems).
Proof. intros i j Hi Hj. split; [apply c2n_kron; assumption|apply kron_c2n; assumption]. Qed.
Lemma inverse_left nelems inv : is_inverse (nterm nelems) (coeff2nodal nelems) inv ->
  forall i j, (i < nterm nelems)%nat -> (j < nterm nelems)%nat -> rsum (nterm nelems) (fun k => inv i k * coeff2nodal nelems k j) = if Nat.eqb i j then 1 else 0.
Proof. intros H i j Hi Hj. apply H; assumption. Qed.
