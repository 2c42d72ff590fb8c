From Coq Require Import Reals ZArith Arith Bool List Lia Lra Psatz.
From Coquelicot Require Import Coquelicot.
From Verif Require Import RSum Problems_M Problems_S CStep_M CStep_P CStep_P2.
Import ListNotations.
Open Scope list_scope.
Open Scope R_scope.

Lemma val_cont e x k : regular e x -> continuous (fun t => val e (upd x k t)) (x k).
Proof. intros H. apply (ex_derive_continuous (K := R_AbsRing) (V := R_NormedModule)). eexists. apply val_derive. exact H. Qed.
Lemma regular_open e x k : regular e x -> locally (x k) (fun t => regular e (upd x k t)).
Proof.
  assert (P : forall e, regular e x -> 0 < val e x -> locally (x k) (fun t => 0 < val e (upd x k t))).
  { intros e' H Q. apply (val_cont e' x k H (fun a => 0 < a)). apply open_gt. rewrite (val_ext e' _ _ (upd_self x k)). exact Q. }
  induction e; cbn [regular]; intros H.
  - apply filter_forall. trivial.
  - apply filter_forall. trivial.
  - destruct H. apply filter_and; auto.
  - destruct H. apply filter_and; auto.
  - destruct H. apply filter_and; auto.
  - destruct H as (A & B & N). apply filter_and; [auto|]. apply filter_and; [auto|]. apply (val_cont e2 x k B (fun a => a <> 0)). apply open_neq. rewrite (val_ext e2 _ _ (upd_self x k)). exact N.
  - auto.
  - auto.
  - destruct H. apply filter_and; auto.
  - destruct H. apply filter_and; auto.
  - destruct H. apply filter_and; auto.
  - auto.
Qed.
Lemma wrap_nat n k : (k < n)%nat -> wrap n (Z.of_nat k) = Some k.
Proof. intros H. unfold wrap. destruct (Z.leb_spec 0 (Z.of_nat k)); [|lia]. destruct (Z.ltb_spec (Z.of_nat k) (Z.of_nat n)); [|lia]. cbn [andb]. rewrite Nat2Z.id. reflexivity. Qed.
Section P.
Variables (n : nat) (lo up : list R) (e : expr).
Let p (fd : bool) (ch dx : R) := numerical n lo up fd ch dx e.
Lemma value_val fd ch dx x : regular e x -> value (p fd ch dx) x = val e x.
Proof. intros H. unfold value. cbn. rewrite evalR_val by exact H. reflexivity. Qed.
Lemma num_partial fd ch dx x k : regular e x -> is_partial (value (p fd ch dx)) x k (der e x k).
Proof.
  intros H. unfold is_partial. apply (is_derive_ext_loc (fun t => val e (upd x k t))); [|apply val_derive; exact H].
  generalize (regular_open e x k H). apply filter_imp. intros t Ht. symmetry. apply value_val. exact Ht.
Qed.
Lemma num_step dx x k : (k < n)%nat -> regular e x ->
  is_lim (fun ch => match evaluate (p false ch dx) x (Some (Z.of_nat k)) with Some v => v | None => 0 end) 0 (der e x k) /\
  exists eps, 0 < eps /\ forall ch, Rabs ch < eps -> evaluate (p false ch dx) x (Some (Z.of_nat k)) <> None.
Proof.
  intros Hk H. destruct (good_limit _ _ _ (evalC_good e x k H)) as (L & D). split.
  - revert L. apply is_lim_ext. intros ch. cbn [p numerical evaluate]. rewrite wrap_nat by exact Hk. unfold complex_step. destruct (evalC e _); reflexivity.
  - destruct D as (eps & D). exists eps. split; [apply cond_pos|]. intros ch Hc. cbn [p numerical evaluate]. rewrite wrap_nat by exact Hk. unfold complex_step.
    specialize (D ch). assert (B : ball 0 eps ch) by (change (Rabs (ch - 0) < eps); rewrite Rminus_0_r; exact Hc). specialize (D B). destruct (evalC e _); [discriminate|contradiction].
Qed.
Lemma upd2 (x : vec) k s t j : upd (upd x k s) k t j = upd x k t j.
Proof. destruct (Nat.eq_dec j k) as [-> |N]; [rewrite !upd_eq; reflexivity|rewrite !upd_neq by exact N; reflexivity]. Qed.
Lemma line_derive x k t : regular e (upd x k t) -> is_derive (fun s => val e (upd x k s)) t (der e (upd x k t) k).
Proof.
  intros H. pose proof (val_derive e (upd x k t) k H) as D. rewrite upd_eq in D. apply (is_derive_ext (fun s => val e (upd (upd x k t) k s))); [|exact D].
  intros s. apply val_ext. intros j. apply upd2.
Qed.
Lemma num_central ch dx x k : (k < n)%nat -> 0 < dx -> (forall t, Rabs (t - x k) <= dx -> regular e (upd x k t)) ->
  exists t, Rabs (t - x k) < dx /\ exists d, evaluate (p true ch dx) x (Some (Z.of_nat k)) = Some d /\ is_derive (fun z => value (p true ch dx) (upd x k z)) t d.
Proof.
  intros Hk Hd H. set (f := fun s => val e (upd x k s)).
  destruct (MVT_gen f (x k - dx) (x k + dx) (fun t => der e (upd x k t) k)) as (t & Ht & E).
  - intros t Ht. rewrite Rmin_left, Rmax_right in Ht by lra. apply line_derive. apply H. apply Rabs_le. lra.
  - intros t Ht. rewrite Rmin_left, Rmax_right in Ht by lra. apply continuity_pt_filterlim. apply (ex_derive_continuous (K := R_AbsRing) (V := R_NormedModule)). eexists. apply line_derive. apply H. apply Rabs_le. lra.
  - assert (Q : exists t, Rabs (t - x k) < dx /\ f (x k + dx) - f (x k - dx) = der e (upd x k t) k * (2 * dx)).
    { destruct (MVT_cor2 f (fun t => der e (upd x k t) k) (x k - dx) (x k + dx)) as (c & Ec & Hc); [lra| |].
      - intros c Hc. apply is_derive_Reals. apply line_derive. apply H. apply Rabs_le. lra.
      - exists c. split; [apply Rabs_lt_between; lra|]. rewrite Ec. ring. }
    clear t Ht E. destruct Q as (t & Ht & E). exists t. split; [exact Ht|]. exists (der e (upd x k t) k). split.
    + cbn [p numerical evaluate]. rewrite wrap_nat by exact Hk. unfold central.
      rewrite !evalR_val; [|apply H..].
      * cbn [bind]. f_equal. fold (f (x k - dx)) (f (x k + dx)). apply Rmult_eq_reg_r with (2 * dx); [|lra]. rewrite <- E. field. lra.
      * replace (x k + dx - x k) with dx by ring. rewrite Rabs_pos_eq; lra.
      * replace (x k - x k) with 0 by ring. rewrite Rabs_R0. lra.
      * replace (x k - dx - x k) with (- dx) by ring. rewrite Rabs_Ropp, Rabs_pos_eq; lra.
    + assert (Rt : regular e (upd x k t)) by (apply H; lra).
      apply (is_derive_ext_loc f); [|apply line_derive; exact Rt].
      pose proof (regular_open e (upd x k t) k Rt) as O. rewrite upd_eq in O. revert O. apply filter_imp. intros s Hs. symmetry. apply value_val.
      eapply regular_ext; [|exact Hs]. intros j. apply upd2.
Qed.
End P.

(** * the five problems are regular on their domains *)
Definition within (n : nat) (lo up : list R) (m : R) (x : vec) : Prop := forall i, (i < n)%nat -> nth i lo 0 - m <= x i <= nth i up 0 + m.
Ltac dims W := match type of W with within ?n ?lo ?up ?m ?x =>
  let rec go i k := match k with O => idtac | S ?k' => let H := fresh "B" in pose proof (W i ltac:(lia)) as H; cbv [nth flow_lo flow_up wing_lo wing_up torsion_lo torsion_up the_dx] in H; go (S i) k' end in go O n end.
Lemma flow_regular c s x : 0 < s -> within 8 flow_lo flow_up the_dx x -> regular (flow_expr c s) x.
Proof.
  intros Hs W. dims W.
  assert (E6 : / 10 ^ 6 = / 1000000) by (f_equal; ring). rewrite !E6 in *. 
  assert (X0 : 0 < x 0%nat) by lra. assert (X1 : x 0%nat < x 1%nat) by lra.
  assert (L0 : 0 < x 1%nat / x 0%nat) by (apply Rdiv_lt_0_compat; lra).
  assert (L1 : 1 < x 1%nat / x 0%nat) by (apply Rmult_lt_reg_r with (x 0%nat); [lra|]; replace (x 1%nat / x 0%nat * x 0%nat) with (x 1%nat) by (field; lra); lra).
  assert (L : 0 < ln (x 1%nat / x 0%nat)) by (rewrite <- ln_1; apply ln_increasing; lra).
  assert (D : 0 < ln (x 1%nat / x 0%nat) * x 0%nat ^ 2 * x 7%nat) by (apply Rmult_lt_0_compat; [apply Rmult_lt_0_compat; [exact L|nra]|lra]).
  assert (Q1 : 0 < 2 * x 6%nat * x 2%nat / (ln (x 1%nat / x 0%nat) * x 0%nat ^ 2 * x 7%nat)) by (apply Rdiv_lt_0_compat; [apply Rmult_lt_0_compat; lra|exact D]).
  assert (Q2 : 0 < x 2%nat / x 4%nat) by (apply Rdiv_lt_0_compat; lra).
  unfold flow_expr, V, N. cbn [regular val].
  repeat match goal with |- _ /\ _ => split end; try exact I; try exact L0; try lra.
  apply Rgt_not_eq. apply Rmult_lt_0_compat; lra.
Qed.
Lemma wing_regular x : within 10 wing_lo wing_up the_dx x -> regular wing_expr x.
Proof.
  intros W. dims W. assert (E6 : / 10 ^ 6 = / 1000000) by (f_equal; ring). rewrite !E6 in *.
  assert (P4 : 3 < PI <= 4) by (split; [pose proof PI2_3_2; unfold PI2 in *; lra|apply PI_4]).
  assert (A : - (PI / 2) < x 3%nat / 180 * PI < PI / 2) by (split; nra).
  assert (C : 0 < cos (x 3%nat / 180 * PI)) by (apply cos_gt_0; lra).
  assert (C2 : 0 < cos (x 3%nat / 180 * PI) ^ 2) by nra.
  unfold wing_expr, V, N. cbn [regular val].
  repeat match goal with |- _ /\ _ => split end; try exact I; try lra; try (apply Rdiv_lt_0_compat; lra); try (apply Rmult_lt_0_compat; lra).
Qed.
Lemma beam_regular x : within 3 [5; 125 / 1000; 5] [10; 1; 10] the_dx x -> regular beam_expr x.
Proof.
  intros W. dims W. assert (E6 : / 10 ^ 6 = / 1000000) by (f_equal; ring). rewrite !E6 in *.
  assert (X0 : 0 < x 0%nat) by lra. assert (X1 : 0 < x 1%nat) by lra. assert (X2 : 0 < x 2%nat) by lra.
  assert (S2 : 0 < sqrt 2) by (apply sqrt_lt_R0; lra).
  assert (Z : 0 < (x 1%nat + x 0%nat) ^ 2) by nra.
  assert (Q0 : 0 < 25 / 100 * (x 2%nat ^ 2 + (x 1%nat + x 0%nat) ^ 2)) by nra.
  assert (Q : 0 < sqrt (25 / 100 * (x 2%nat ^ 2 + (x 1%nat + x 0%nat) ^ 2))) by (apply sqrt_lt_R0; exact Q0).
  assert (T1d : 0 < sqrt 2 * x 1%nat * x 2%nat) by (apply Rmult_lt_0_compat; [apply Rmult_lt_0_compat|]; assumption).
  assert (T2d : 0 < 2 * (707 / 1000 * x 1%nat * x 2%nat * (x 2%nat / 12 + 25 / 100 * (x 1%nat + x 0%nat) ^ 2))).
  { apply Rmult_lt_0_compat; [lra|]. apply Rmult_lt_0_compat; [|lra]. apply Rmult_lt_0_compat; [lra|exact X2]. }
  set (q := sqrt (25 / 100 * (x 2%nat ^ 2 + (x 1%nat + x 0%nat) ^ 2))) in *.
  assert (T1 : 0 < 6000 / (sqrt 2 * x 1%nat * x 2%nat)) by (apply Rdiv_lt_0_compat; [lra|exact T1d]).
  assert (T2 : 0 < 6000 * (14 + 1 / 2 * x 2%nat) * q / (2 * (707 / 1000 * x 1%nat * x 2%nat * (x 2%nat / 12 + 25 / 100 * (x 1%nat + x 0%nat) ^ 2)))).
  { apply Rdiv_lt_0_compat; [apply Rmult_lt_0_compat; [lra|exact Q]|exact T2d]. }
  unfold beam_expr, V, N. cbn [regular val]. fold q.
  set (t1 := 6000 / (sqrt 2 * x 1%nat * x 2%nat)) in *. set (t2 := 6000 * (14 + 1 / 2 * x 2%nat) * q / _) in *.
  assert (TT : 0 < x 2%nat * t1 * t2 / q) by (apply Rdiv_lt_0_compat; [apply Rmult_lt_0_compat; [apply Rmult_lt_0_compat|]; assumption|exact Q]).
  assert (TP : 0 < t1 ^ 2 /\ 0 < t2 ^ 2) by (split; apply pow_lt; assumption).
  repeat match goal with |- _ /\ _ => split end; try exact I; try lra.
Qed.
Lemma torsion_roots K1 K2 K3 J1 J2 : 0 < K1 -> 0 < K2 -> 0 < K3 -> 0 < J1 -> 0 < J2 ->
  let b := - ((K1 + K2) / J1 + (K2 + K3) / J2) in let c := (K1 * K2 + K2 * K3 + K3 * K1) / (J1 * J2) in
  0 < b ^ 2 - 4 * 1 * c /\ 0 < (- b - sqrt (b ^ 2 - 4 * 1 * c)) / (2 * 1).
Proof.
  intros A1 A2 A3 B1 B2 b c.
  set (u := (K1 + K2) / J1). set (v := (K2 + K3) / J2).
  assert (U : 0 < u) by (apply Rdiv_lt_0_compat; lra). assert (Vp : 0 < v) by (apply Rdiv_lt_0_compat; lra).
  assert (JJ : 0 < J1 * J2) by (apply Rmult_lt_0_compat; assumption).
  set (w := K2 ^ 2 / (J1 * J2)). assert (Wp : 0 < w) by (apply Rdiv_lt_0_compat; [nra|exact JJ]).
  assert (Ec : c = u * v - w) by (unfold c, u, v, w; field; lra).
  assert (Cp : 0 < c) by (apply Rdiv_lt_0_compat; [|exact JJ]; assert (0 < K1 * K2) by (apply Rmult_lt_0_compat; assumption); assert (0 < K2 * K3) by (apply Rmult_lt_0_compat; assumption); assert (0 < K3 * K1) by (apply Rmult_lt_0_compat; assumption); lra).
  assert (Eb : b = - (u + v)) by reflexivity.
  assert (D : b ^ 2 - 4 * 1 * c = (u - v) ^ 2 + 4 * w) by (rewrite Eb, Ec; ring).
  assert (D0 : 0 < b ^ 2 - 4 * 1 * c) by (rewrite D; pose proof (pow2_ge_0 (u - v)); lra). split; [exact D0|].
  assert (S1 : sqrt (b ^ 2 - 4 * 1 * c) < u + v).
  { rewrite <- (sqrt_pow2 (u + v)) by lra. apply sqrt_lt_1; [lra|apply pow2_ge_0|]. rewrite Eb. replace ((u + v) ^ 2) with ((- (u + v)) ^ 2) by ring. lra. }
  set (sq := sqrt _) in *. lra.
Qed.
Ltac posi := repeat match goal with |- 0 < _ * _ => apply Rmult_lt_0_compat | |- 0 < _ / _ => apply Rdiv_lt_0_compat | |- 0 < _ ^ _ => apply pow_lt end.
Lemma torsion_regular x : within 15 torsion_lo torsion_up the_dx x -> regular torsion_expr x.
Proof.
  intros W. dims W. assert (E6 : / 10 ^ 6 = / 1000000) by (f_equal; ring). rewrite !E6 in *.
  assert (X : forall i, (i < 15)%nat -> 0 < x i).
  { intros i Hi. do 15 (destruct i as [|i]; [lra|]). lia. }
  pose proof PI_RGT_0 as Pp.
  assert (K1 : 0 < PI * x 2%nat * x 0%nat / (32 * x 1%nat)) by (posi; lra).
  assert (K2 : 0 < PI * x 8%nat * x 6%nat / (32 * x 7%nat)) by (posi; lra).
  assert (K3 : 0 < PI * x 4%nat * x 9%nat / (32 * x 3%nat)) by (posi; lra).
  assert (J1 : 0 < 1 / 2 * (x 11%nat * PI * x 10%nat * x 5%nat / (4 * (980665 / 100000))) * (x 5%nat / 2) ^ 2) by (posi; lra).
  assert (J2 : 0 < 1 / 2 * (x 14%nat * PI * x 13%nat * x 12%nat / (4 * (980665 / 100000))) * (x 12%nat / 2) ^ 2) by (posi; lra).
  destruct (torsion_roots _ _ _ _ _ K1 K2 K3 J1 J2) as (D & S). cbv zeta in D, S.
  unfold torsion_expr, V, N. cbn [regular val].
  repeat match goal with |- _ /\ _ => split end; try exact I; try exact D; try exact S; try lra.
  all: try (apply Rgt_not_eq; apply Rmult_lt_0_compat; assumption).
  all: try (apply Rgt_not_eq; apply Rmult_lt_0_compat; [lra|apply X; lia]).
Qed.
