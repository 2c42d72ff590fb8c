From Coq Require Import Reals ZArith Arith Bool List Lia Lra.
From Coquelicot Require Import Coquelicot.
From Verif Require Import RSum Index_M Index_P Rmtb_M Rmtb_P2 Rmtb_P3 Rmtb_P4 Rmtc_M Rmtc_S Rmtc_P Rmtc_P2.
Import ListNotations.
Open Scope list_scope.
Open Scope R_scope.

(** * generic: derivative of an extrapolated prediction *)
Section Gen.
Variables (nx : nat) (lo up : nat -> R) (U : nat -> nat -> (nat -> R) -> R).
Variable kx : nat.
Variable x : nat -> R.
Hypothesis Hk : (kx < nx)%nat.
Hypothesis Lk : lo kx < up kx.
Definition gen_value (ext : bool) (x : nat -> R) : R :=
  U 0 0 x + (if ext then rsum nx (fun ix => U 0 (S ix) x * ext_dist (lo ix) (up ix) (x ix)) else 0).
Definition gen_deriv (ext : bool) (kx : nat) (x : nat -> R) : R :=
  U (S kx) 0 x + (if ext then rsum nx (fun ix => U (S kx) (S ix) x * ext_dist (lo ix) (up ix) (x ix) * (1 - isexternal lo up x kx)) else 0).
Hypothesis Hin : lo kx < x kx < up kx -> forall ix2, ix2 <> S kx -> is_derive (fun z => U 0 ix2 (upd x kx z)) (x kx) (U (S kx) ix2 x).
Hypothesis Hout : x kx < lo kx \/ up kx < x kx -> forall ix1 ix2, locally (x kx) (fun z => U ix1 ix2 (upd x kx z) = U ix1 ix2 x).
Hypothesis Hsym : U 0 (S kx) x = U (S kx) 0 x.
Lemma gen_derivative ext : lo kx < x kx < up kx \/ (ext = true /\ (x kx < lo kx \/ up kx < x kx)) ->
  is_partial (gen_value ext) x kx (gen_deriv ext kx x).
Proof.
  intros HC. unfold is_partial, gen_value, gen_deriv.
  destruct HC as [Hi|(-> & Ho)].
  - assert (IN : locally (x kx) (fun z => ext_dist (lo kx) (up kx) z = 0)).
    { apply (nhood (fun y => y) (lo kx) (up kx)); [apply continuous_id|exact Hi|]. intros y Hy. apply ext_dist_in. lra. }
    assert (X0 : ext_dist (lo kx) (up kx) (x kx) = 0) by (apply locally_singleton in IN; exact IN).
    assert (EX : isexternal lo up x kx = 0) by (unfold isexternal; destruct (Req_EM_T _ _); [reflexivity|contradiction]).
    apply (is_derive_plus (fun z => U 0 0 (upd x kx z))); [apply Hin; [exact Hi|lia]|].
    destruct ext; [|apply (is_derive_const 0 (x kx))].
    apply (is_derive_rsum nx (fun ix z => U 0 (S ix) (upd x kx z) * ext_dist (lo ix) (up ix) (upd x kx z ix))).
    intros ix Hix. rewrite EX. destruct (Nat.eq_dec ix kx) as [-> |N].
    + rewrite X0. replace (U (S kx) (S kx) x * 0 * (1 - 0)) with 0 by ring.
      apply (is_derive_loc_const _ _ 0). apply (filter_imp (fun z => ext_dist (lo kx) (up kx) z = 0)); [|exact IN].
      intros z Hz. rewrite upd_eq, Hz. ring.
    + replace (U (S kx) (S ix) x * ext_dist (lo ix) (up ix) (x ix) * (1 - 0)) with (U (S kx) (S ix) x * ext_dist (lo ix) (up ix) (x ix)) by ring.
      apply (is_derive_ext (fun z => U 0 (S ix) (upd x kx z) * ext_dist (lo ix) (up ix) (x ix))).
      { intros z. rewrite upd_neq by exact N. reflexivity. }
      apply (is_derive_scal_l (fun z => U 0 (S ix) (upd x kx z)) (x kx) (U (S kx) (S ix) x) (ext_dist (lo ix) (up ix) (x ix))).
      apply Hin; [exact Hi|lia].
  - assert (EX : isexternal lo up x kx = 1).
    { unfold isexternal. destruct (Req_EM_T _ _) as [E|E]; [|reflexivity]. exfalso. revert E. apply ext_dist_out; [lra|exact Ho]. }
    rewrite EX.
    rewrite (rsum_zero nx (fun ix => U (S kx) (S ix) x * _ * _)) by (intros; ring). rewrite Rplus_0_r.
    replace (U (S kx) 0 x) with (0 + U (S kx) 0 x) by ring.
    apply (is_derive_plus (fun z => U 0 0 (upd x kx z))).
    + apply (is_derive_loc_const _ _ (U 0 0 x)). apply Hout. exact Ho.
    + rewrite <- Hsym. rewrite <- (rsum_single nx (fun ix => U 0 (S ix) x) kx Hk).
      apply (is_derive_rsum nx (fun ix z => U 0 (S ix) (upd x kx z) * ext_dist (lo ix) (up ix) (upd x kx z ix))).
      intros ix Hix. destruct (Nat.eqb_spec ix kx) as [-> |N].
      * apply (is_derive_ext_loc (fun z => U 0 (S kx) x * ext_dist (lo kx) (up kx) z)).
        -- apply (filter_imp (fun z => U 0 (S kx) (upd x kx z) = U 0 (S kx) x)); [|apply Hout; exact Ho].
           intros z Hz. rewrite Hz, upd_eq. reflexivity.
        -- pose proof (is_derive_scal (ext_dist (lo kx) (up kx)) (x kx) (U 0 (S kx) x) 1 (ext_dist_derive _ _ _ Lk Ho)) as Q.
           rewrite Rmult_1_r in Q. exact Q.
      * apply (is_derive_loc_const _ _ (U 0 (S ix) x * ext_dist (lo ix) (up ix) (x ix))).
        apply (filter_imp (fun z => U 0 (S ix) (upd x kx z) = U 0 (S ix) x)); [|apply Hout; exact Ho].
        intros z Hz. rewrite Hz, upd_neq by exact N. reflexivity.
Qed.
End Gen.

(** * gluing two functions with the same value and slope *)
Lemma glue (f g F : R -> R) (x d : R) : is_derive f x d -> is_derive g x d -> F x = f x -> F x = g x ->
  (exists e, 0 < e /\ (forall y, x - e < y <= x -> F y = f y) /\ (forall y, x <= y < x + e -> F y = g y)) -> is_derive F x d.
Proof.
  intros Hf Hg Ef Eg (e & He & L & R). apply is_derive_Reals in Hf. apply is_derive_Reals in Hg. apply is_derive_Reals.
  intros eps Heps. destruct (Hf eps Heps) as (d1 & H1). destruct (Hg eps Heps) as (d2 & H2).
  assert (P : 0 < Rmin (Rmin d1 d2) e). { apply Rmin_glb_lt; [apply Rmin_glb_lt; [apply (cond_pos d1)|apply (cond_pos d2)]|exact He]. }
  exists (mkposreal _ P). intros h Hh Hlt. cbn in Hlt.
  assert (A1 : Rabs h < d1) by (eapply Rlt_le_trans; [exact Hlt|eapply Rle_trans; [apply Rmin_l|apply Rmin_l]]).
  assert (A2 : Rabs h < d2) by (eapply Rlt_le_trans; [exact Hlt|eapply Rle_trans; [apply Rmin_l|apply Rmin_r]]).
  assert (A3 : Rabs h < e) by (eapply Rlt_le_trans; [exact Hlt|apply Rmin_r]).
  apply Rabs_def2 in A3. destruct (Rlt_le_dec h 0) as [N|N].
  - rewrite (L (x + h)) by lra. rewrite Ef. apply H1; assumption.
  - rewrite (R (x + h)) by lra. rewrite Eg. apply H2; assumption.
Qed.

(** * one-dimensional piecewise Hermite function *)
Section Pw.
Variables (a b : R) (num : nat).
Hypothesis Hab : a < b.
Hypothesis Hn : (0 < num)%nat.
Variable c : nat -> nat -> R.
Hypothesis Hc0 : forall e, (S e < num)%nat -> c e 1%nat = c (S e) 0%nat.
Hypothesis Hc1 : forall e, (S e < num)%nat -> c e 3%nat = c (S e) 2%nat.
Definition pw (z : R) : R := rsum 4 (fun k => herm k (snd (find_interval a b num z)) * c (Z.to_nat (fst (find_interval a b num z))) k).
Definition dpw (z : R) : R := rsum 4 (fun k => dherm k (snd (find_interval a b num z)) * c (Z.to_nat (fst (find_interval a b num z))) k).
Definition scale : R := 2 * INR num / (b - a).
Definition local (e : nat) (z : R) : R := (z - a) * scale - 2 * INR e - 1.
Definition P (e : nat) (z : R) : R := rsum 4 (fun k => herm k (local e z) * c e k).
Lemma scale_pos : 0 < scale.
Proof. unfold scale. pose proof (num_pos num Hn). apply Rdiv_lt_0_compat; lra. Qed.
Lemma local_derive e z : is_derive (local e) z scale.
Proof. unfold local. auto_derive; [exact I|]. ring. Qed.
Lemma P_derive e z : is_derive (P e) z (rsum 4 (fun k => dherm k (local e z) * c e k) * scale).
Proof.
  unfold P. rewrite <- rsum_scal_r. apply (is_derive_rsum 4 (fun k z => herm k (local e z) * c e k)). intros k Hk.
  replace (dherm k (local e z) * c e k * scale) with ((scale * dherm k (local e z)) * c e k) by ring.
  apply (is_derive_scal_l (fun z => herm k (local e z)) z (scale * dherm k (local e z)) (c e k)).
  apply (is_derive_comp (herm k) (local e)); [apply herm_derive|apply local_derive].
Qed.
(** left and right ends *)
Lemma herm_p1 e : rsum 4 (fun k => herm k 1 * c e k) = c e 1%nat.
Proof. cbn. field. Qed.
Lemma herm_m1 e : rsum 4 (fun k => herm k (-1) * c e k) = c e 0%nat.
Proof. cbn. field. Qed.
Lemma dherm_p1 e : rsum 4 (fun k => dherm k 1 * c e k) = c e 3%nat.
Proof. cbn. field. Qed.
Lemma dherm_m1 e : rsum 4 (fun k => dherm k (-1) * c e k) = c e 2%nat.
Proof. cbn. field. Qed.
Lemma r_scale z : (z - a) / (b - a) * INR num = (z - a) * scale / 2.
Proof. unfold scale. field. lra. Qed.
Lemma pw_P e z : (e < num)%nat -> -1 <= local e z <= 1 -> pw z = P e z.
Proof.
  intros He Hl. unfold local in Hl. pose proof scale_pos as Sp.
  assert (Hz : a <= z).
  { destruct (Rle_dec a z); [assumption|exfalso]. pose proof (pos_INR e). assert ((z - a) * scale < 0) by nra. lra. }
  destruct (fi_cases a b num z Hab Hn) as (Rg & [C|[(E & F & G)|[(U & F & G)|(I & F & G)]]]); [lra| | |].
  - assert (e = 0%nat). { destruct e; [reflexivity|exfalso]. rewrite E in Hl. rewrite S_INR in Hl. pose proof (pos_INR e). lra. } subst e.
    unfold pw. rewrite F, G. cbn [Z.to_nat]. unfold P, local. rewrite E. apply rsum_ext. intros k _. f_equal. f_equal. cbn. ring.
  - exfalso. assert (Q : (b - a) * scale = 2 * INR num) by (unfold scale; field; lra).
    assert ((z - a) * scale > 2 * INR num) by nra.
    assert (INR e + 1 <= INR num) by (rewrite <- S_INR; apply le_INR; lia). lra.
  - rewrite r_scale in F, G. set (f := fst (find_interval a b num z)) in *.
    assert (Ef : IZR f = INR (Z.to_nat f)) by (rewrite INR_IZR_INZ, Z2Nat.id by lia; reflexivity).
    set (m := Z.to_nat f) in *. rewrite Ef in F, G.
    assert (M : m = e \/ S m = e).
    { destruct (Nat.lt_trichotomy m e) as [L|[L|L]]; [right|left; exact L|exfalso].
      - assert (INR e < INR (S (S m))) by (rewrite !S_INR; lra). apply INR_lt in H. lia.
      - apply le_INR in L. rewrite S_INR in L. lra. }
    destruct M as [M|M].
    + unfold pw. fold f. fold m. rewrite G, M. unfold P, local. apply rsum_ext. intros k _. f_equal. f_equal. lra.
    + assert (INR e = INR m + 1) by (rewrite <- M, S_INR; reflexivity).
      assert (G1 : 2 * ((z - a) * scale / 2 - INR m) - 1 = 1) by lra. rewrite G1 in G.
      assert (L1 : local e z = -1) by (unfold local; lra).
      unfold pw, P. fold f. fold m. rewrite G, L1, herm_p1, herm_m1. rewrite <- M. apply Hc0. lia.
Qed.
Lemma fi_local z : a < z <= b -> let e := Z.to_nat (fst (find_interval a b num z)) in
  (e < num)%nat /\ snd (find_interval a b num z) = local e z /\ -1 < local e z <= 1.
Proof.
  intros Hz. destruct (fi_cases a b num z Hab Hn) as (Rg & [C|[C|[C|(I & F & G)]]]); try lra.
  rewrite r_scale in F, G. set (f := fst (find_interval a b num z)) in *. cbv zeta.
  assert (Ef : IZR f = INR (Z.to_nat f)) by (rewrite INR_IZR_INZ, Z2Nat.id by lia; reflexivity).
  rewrite Ef in F, G. unfold local. split; [lia|]. split; lra.
Qed.
Lemma pw_derive z : a < z < b -> is_derive pw z (dpw z * scale).
Proof.
  intros Hz. pose proof scale_pos as Sp. destruct (fi_local z ltac:(lra)) as (He & Es & Hl). set (e := Z.to_nat (fst (find_interval a b num z))) in *.
  assert (D : dpw z = rsum 4 (fun k => dherm k (local e z) * c e k)) by (unfold dpw; fold e; rewrite Es; reflexivity).
  assert (CL : forall e' y, continuous (local e') y) by (intros e' y; apply (ex_derive_continuous (local e')); exists scale; apply local_derive).
  destruct (Rlt_le_dec (local e z) 1) as [L|L].
  - rewrite D. apply (is_derive_ext_loc (P e)); [|apply P_derive].
    apply (nhood (local e) (-1) 1); [apply CL|lra|]. intros y Hy. symmetry. apply pw_P; [exact He|lra].
  - assert (L1 : local e z = 1) by lra.
    assert (Hs : (S e < num)%nat).
    { destruct (Nat.eq_dec (S e) num) as [E|E]; [|lia]. exfalso. unfold local in L1.
      assert (INR e = INR num - 1) by (rewrite <- E, S_INR; lra).
      assert (Q : (b - a) * scale = 2 * INR num) by (unfold scale; field; lra). assert ((z - a) * scale < (b - a) * scale) by nra. lra. }
    assert (L2 : local (S e) z = -1) by (unfold local in *; rewrite S_INR; lra).
    apply (glue (P e) (P (S e))).
    + rewrite D. apply P_derive.
    + replace (dpw z) with (rsum 4 (fun k => dherm k (local (S e) z) * c (S e) k)); [apply P_derive|].
      rewrite D, L1, L2, dherm_p1, dherm_m1. symmetry. apply Hc1. exact Hs.
    + apply pw_P; [exact He|lra].
    + apply pw_P; [exact Hs|lra].
    + exists (2 / scale). split; [apply Rdiv_lt_0_compat; lra|].
      assert (Q : 2 / scale * scale = 2) by (field; lra).
      split; intros y Hy.
      * apply pw_P; [exact He|]. unfold local in *. split; nra.
      * apply pw_P; [exact Hs|]. unfold local in *. rewrite S_INR in *. split; nra.
Qed.
End Pw.
