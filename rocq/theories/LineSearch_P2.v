From Coq Require Import Reals Arith Bool List Lia Lra Psatz.
From Coquelicot Require Import Coquelicot.
From Verif Require Import RSum Mat LineSearch_M LineSearch_P.
Open Scope R_scope.
Section P.
Variables (n : nat) (x dx : vec) (func : vec -> R) (grad : vec -> vec) (u1 u2 : R).
Notation ph := (phi x dx func). Notation dph := (dphi n x dx grad).
Notation dec := (func_decreased n x dx func grad u1).
Notation gdec := (grad_decreased n x dx grad u2).
Hypothesis U : 0 <= u1 < u2 /\ u2 < 1.
Hypothesis D : forall a, 0 <= a -> is_derive ph a (dph a).
Hypothesis C : forall a, 0 <= a -> continuity_pt dph a.
Hypothesis S0 : dph 0 < 0.
Lemma gdec_true a : gdec a = true <-> Rabs (dph a) <= u2 * - dph 0.
Proof.
  unfold grad_decreased. rewrite Rabs_mult, (Rabs_pos_eq u2) by lra. rewrite (Rabs_left (dph 0)) by exact S0.
  destruct (Rle_dec _ _); split; intros; try assumption; try reflexivity; try discriminate; contradiction.
Qed.
Definition inv (a1 a2 : R) : Prop := 0 <= a1 /\ 0 <= a2 /\ ph a1 <= ph 0 + u1 * a1 * dph 0 /\ u2 * - dph 0 < Rabs (dph a1) /\ dph a1 * (a2 - a1) < 0 /\
  (ph 0 + u1 * a2 * dph 0 < ph a2 \/ ph a1 <= ph a2).
Lemma inv_gap a1 a2 : inv a1 a2 -> exists c, Rmin a1 a2 <= c <= Rmax a1 a2 /\ (u2 - u1) * - dph 0 <= Rabs (dph c - dph a1).
Proof.
  intros (H1 & H2 & F1 & G1 & N & B). assert (M : 0 <= Rmin a1 a2) by (apply Rmin_glb; assumption).
  destruct (MVT_gen ph a1 a2 dph) as (c & Hc & E).
  - intros y Hy. apply D. lra.
  - intros y Hy. apply derivable_continuous_pt. exists (dph y). apply is_derive_Reals. apply D. lra.
  - exists c. split; [exact Hc|]. clear Hc. assert (GAP : 0 < (u2 - u1) * - dph 0) by (apply Rmult_lt_0_compat; lra). assert (GAP1 : 0 <= u1 * - dph 0) by (apply Rmult_le_pos; lra).
    destruct (Rlt_le_dec a1 a2) as [L|L].
    + assert (N1 : dph a1 < 0) by nra. rewrite (Rabs_left (dph a1) N1) in G1.
      assert (Hc : u1 * dph 0 <= dph c).
      { destruct (Rle_lt_dec (u1 * dph 0) (dph c)) as [|Hlt]; [assumption|]. exfalso. assert (dph c * (a2 - a1) < u1 * dph 0 * (a2 - a1)) by (apply Rmult_lt_compat_r; lra).
        destruct B; [lra|]. assert (0 <= (u1 * - dph 0) * (a2 - a1)) by (apply Rmult_le_pos; [apply Rmult_le_pos; lra|lra]). lra. }
      rewrite Rabs_pos_eq; lra.
    + assert (L' : a2 < a1) by (destruct L as [|L]; [assumption|subst; lra]). assert (N1 : 0 < dph a1) by nra. rewrite (Rabs_pos_eq (dph a1)) in G1 by lra.
      assert (Hc : dph c <= 0).
      { destruct (Rle_lt_dec (dph c) 0) as [|Hlt]; [assumption|]. exfalso. assert (dph c * (a2 - a1) < 0) by nra.
        destruct B; [|lra]. assert (0 <= u1 * dph 0 * (a2 - a1)) by (replace (u1 * dph 0 * (a2 - a1)) with (u1 * ((- dph 0) * (a1 - a2))) by ring; apply Rmult_le_pos; [lra|apply Rmult_le_pos; lra]). lra. }
      rewrite Rabs_left1; lra.
Qed.
Notation zm := (zoom n x dx func grad u1 u2 midpoint_rule).
Lemma zoom_ends A delta : 0 <= A -> 0 < delta -> (forall s t, 0 <= s <= A -> 0 <= t <= A -> Rabs (s - t) < delta -> Rabs (dph s - dph t) < (u2 - u1) * - dph 0) ->
  forall k a1 a2 dp1 p2 dp2, inv a1 a2 -> a1 <= A -> a2 <= A -> Rabs (a2 - a1) < delta * 2 ^ k ->
  forall f, (k <= f)%nat -> exists a, zm f a1 (ph a1) dp1 a2 p2 dp2 = Found a /\ Rmin a1 a2 < a < Rmax a1 a2.
Proof.
  intros HA Hd Hu. induction k as [|k IH]; intros a1 a2 dp1 p2 dp2 I L1 L2 W f Hf.
  - exfalso. destruct (inv_gap a1 a2 I) as (c & Hc & G). destruct I as (P1 & P2 & _). cbn [pow] in W. rewrite Rmult_1_r in W.
    assert (Hm : 0 <= Rmin a1 a2) by (apply Rmin_glb; assumption). assert (HM : Rmax a1 a2 <= A) by (apply Rmax_lub; assumption).
    specialize (Hu c a1 ltac:(lra) ltac:(lra)). enough (Rabs (c - a1) < delta) by (specialize (Hu H); lra).
    eapply Rle_lt_trans; [|exact W]. clear -Hc. unfold Rmin, Rmax in Hc. destruct (Rle_dec a1 a2); unfold Rabs; destruct (Rcase_abs _), (Rcase_abs _); lra.
  - destruct f as [|f]; [lia|]. cbn [zoom midpoint_rule]. set (a := 1 / 2 * a1 + 1 / 2 * a2).
    destruct I as (P1 & P2 & F1 & G1 & N & B). assert (Ne : a1 <> a2) by (intros ->; replace (a2 - a2) with 0 in N by ring; lra).
    assert (Hin : Rmin a1 a2 < a < Rmax a1 a2) by (unfold a, Rmin, Rmax; destruct (Rle_dec a1 a2); lra).
    assert (Pa : 0 <= a) by (unfold a; lra). assert (La : a <= A) by (unfold a; lra).
    assert (W1 : Rabs (a - a1) < delta * 2 ^ k) by (replace (a - a1) with ((a2 - a1) / 2) by (unfold a; lra); unfold Rdiv; rewrite Rabs_mult, (Rabs_pos_eq (/ 2)) by lra; cbn [pow] in W; lra).
    assert (W2 : Rabs (a2 - a) < delta * 2 ^ k) by (replace (a2 - a) with ((a2 - a1) / 2) by (unfold a; lra); unfold Rdiv; rewrite Rabs_mult, (Rabs_pos_eq (/ 2)) by lra; cbn [pow] in W; lra).
    assert (K : forall b1 b2, Rmin a1 a2 <= Rmin b1 b2 -> Rmax b1 b2 <= Rmax a1 a2 -> forall r, Rmin b1 b2 < r < Rmax b1 b2 -> Rmin a1 a2 < r < Rmax a1 a2) by (intros; lra).
    assert (B1 : dec a = false \/ ph a1 < ph a -> exists r, zm f a1 (ph a1) dp1 a (ph a) (dph a) = Found r /\ Rmin a1 a2 < r < Rmax a1 a2).
    { intros H. destruct (IH a1 a dp1 (ph a) (dph a)) with (f := f) as (r & E & Hr); try assumption; [|lia|].
      - unfold inv. split; [exact P1|]. split; [exact Pa|]. split; [exact F1|]. split; [exact G1|]. split; [unfold a; lra|].
        destruct H as [H|H]; [left; apply Rnot_le_lt; intros X; apply dec_true in X; congruence|right; lra].
      - exists r. split; [exact E|]. revert Hr. apply K; clear -Hin; unfold Rmin, Rmax in *; destruct (Rle_dec a1 a2), (Rle_dec a1 a); lra. }
    destruct (dec a) eqn:Ed; cbn [negb orb]; [|apply B1; left; reflexivity]. destruct (Rlt_dec (ph a1) (ph a)) as [Hp|Hp]; [apply B1; right; exact Hp|].
    apply Rnot_lt_le in Hp. apply dec_true in Ed. destruct (gdec a) eqn:Eg; [exists a; split; [reflexivity|exact Hin]|].
    assert (G : u2 * - dph 0 < Rabs (dph a)) by (apply Rnot_le_lt; intros X; apply gdec_true in X; congruence).
    assert (Z : dph a <> 0) by (intros X; rewrite X, Rabs_R0 in G; assert (0 < u2 * - dph 0) by (apply Rmult_lt_0_compat; lra); lra).
    destruct (Rle_dec 0 (dph a * (a2 - a1))) as [Hs|Hs].
    + destruct (IH a a1 (dph a) (ph a1) dp1) with (f := f) as (r & E & Hr); try assumption; [|rewrite Rabs_minus_sym; exact W1|lia|].
      * unfold inv. split; [exact Pa|]. split; [exact P1|]. split; [exact Ed|]. split; [exact G|]. split; [|right; exact Hp].
        replace (a1 - a) with (- ((a2 - a1) / 2)) by (unfold a; lra). assert (dph a * (a2 - a1) <> 0) by (apply Rmult_integral_contrapositive_currified; [exact Z|lra]). lra.
      * exists r. split; [exact E|]. revert Hr. apply K; clear -Hin; unfold Rmin, Rmax in *; destruct (Rle_dec a1 a2), (Rle_dec a a1); lra.
    + apply Rnot_le_lt in Hs. destruct (IH a a2 (dph a) p2 dp2) with (f := f) as (r & E & Hr); try assumption; [|lia|].
      * unfold inv. split; [exact Pa|]. split; [exact P2|]. split; [exact Ed|]. split; [exact G|]. split; [unfold a in *; lra|]. destruct B as [B|B]; [left; exact B|right; lra].
      * exists r. split; [exact E|]. revert Hr. apply K; clear -Hin; unfold Rmin, Rmax in *; destruct (Rle_dec a1 a2), (Rle_dec a a2); lra.
Qed.
(** the zoom phase from a valid bracket ends *)
Lemma zoom_terminates a1 a2 dp1 p2 dp2 : inv a1 a2 -> exists N, forall f, (N <= f)%nat -> exists a, zm f a1 (ph a1) dp1 a2 p2 dp2 = Found a /\ Rmin a1 a2 < a < Rmax a1 a2.
Proof.
  intros I. pose proof I as (P1 & P2 & _). set (A := Rmax a1 a2). assert (HA : 0 <= A) by (eapply Rle_trans; [exact P1|apply Rmax_l]).
  assert (E : 0 < (u2 - u1) * - dph 0) by (apply Rmult_lt_0_compat; lra).
  destruct (Rle_lt_or_eq_dec _ _ HA) as [HA'|HA'].
  - destruct (Heine_cor2 (f := dph) (a := 0) (b := A) ltac:(intros y Hy; apply C; lra) (mkposreal _ E)) as (delta & Hd). cbn in Hd.
    assert (Dp := cond_pos delta). destruct (Pow_x_infinity 2 ltac:(rewrite Rabs_pos_eq; lra) ((Rabs (a2 - a1) + 1) / delta)) as (k & Hk). specialize (Hk k (le_n k)).
    exists k. intros f Hf. eapply (zoom_ends A delta HA Dp); [|exact I|apply Rmax_l|apply Rmax_r| |exact Hf].
    + intros s t Hs Ht Hst. apply Hd; assumption.
    + rewrite Rabs_pos_eq in Hk by (apply pow_le; lra). apply Rge_le in Hk. apply (Rmult_le_compat_l delta) in Hk; [|lra]. replace (delta * ((Rabs (a2 - a1) + 1) / delta)) with (Rabs (a2 - a1) + 1) in Hk by (field; lra). lra.
  - exfalso. destruct I as (_ & _ & _ & _ & N & _). assert (a1 <= A) by apply Rmax_l. assert (a2 <= A) by apply Rmax_r. assert (a1 = 0) by lra. assert (a2 = 0) by lra. subst. replace (0 - 0) with 0 in N by ring. lra.
Qed.
(** no bracket, no Wolfe point: what lets the search go on *)
Definition goes_on (prev a : R) : Prop := ph a <= ph 0 + u1 * a * dph 0 /\ ph a <= ph prev /\ dph a < u2 * dph 0.
Lemma bracket_ends : forall rounds a1 a2 dp1, 0 <= a1 < a2 -> ph a1 <= ph 0 + u1 * a1 * dph 0 -> dph a1 < u2 * dph 0 ->
  exists N, forall f, (N <= f)%nat -> let r := bracket n x dx func grad u1 u2 midpoint_rule f rounds a1 (ph a1) dp1 a2 (ph a2) (dph a2) in
  ((exists a, r = Found a /\ 0 < a <= a2 * (3 / 2) ^ (rounds - 1)) /\ ~ (goes_on a1 a2 /\ forall k, (S k < rounds)%nat -> goes_on (a2 * (3 / 2) ^ k) (a2 * (3 / 2) ^ S k)) \/
   r = ReturnsNone /\ (rounds = 0%nat \/ goes_on a1 a2 /\ forall k, (S k < rounds)%nat -> goes_on (a2 * (3 / 2) ^ k) (a2 * (3 / 2) ^ S k))).
Proof.
  induction rounds as [|r IH]; intros a1 a2 dp1 H F S1.
  - exists 0%nat. intros f _. right. split; [reflexivity|left; reflexivity].
  - cbn [bracket]. assert (Up : forall a, a <= a2 -> a <= a2 * (3 / 2) ^ (S r - 1)).
    { intros a Ha. replace (S r - 1)%nat with r by lia. assert (1 <= (3 / 2) ^ r) by (apply pow_R1_Rle; lra). nra. }
    assert (G1 : u2 * - dph 0 < Rabs (dph a1)) by (assert (u2 * dph 0 < 0) by (assert (0 < u2 * - dph 0) by (apply Rmult_lt_0_compat; lra); lra); rewrite Rabs_left by lra; lra).
    assert (B1 : dec a2 = false \/ ph a1 < ph a2 -> inv a1 a2).
    { intros X. unfold inv. split; [lra|]. split; [lra|]. split; [exact F|]. split; [exact G1|]. split; [assert (u2 * dph 0 < 0) by (assert (0 < u2 * - dph 0) by (apply Rmult_lt_0_compat; lra); lra); nra|].
      destruct X as [X|X]; [left; apply Rnot_le_lt; intros Y; apply dec_true in Y; congruence|right; lra]. }
    assert (Mm : Rmin a1 a2 = a1) by (apply Rmin_left; lra). assert (MM : Rmax a1 a2 = a2) by (apply Rmax_right; lra).
    assert (Z1 : (dec a2 = false \/ ph a1 < ph a2) -> exists N, forall f, (N <= f)%nat -> exists a, zm f a1 (ph a1) dp1 a2 (ph a2) (dph a2) = Found a /\ 0 < a <= a2 * (3 / 2) ^ (S r - 1)).
    { intros X. destruct (zoom_terminates a1 a2 dp1 (ph a2) (dph a2) (B1 X)) as (N & HN). exists N. intros f Hf. destruct (HN f Hf) as (a & E & Ha). exists a. split; [exact E|]. rewrite Mm, MM in Ha. split; [lra|apply Up; lra]. }
    destruct (dec a2) eqn:Ed; cbn [negb orb].
    2:{ destruct (Z1 (or_introl eq_refl)) as (N & HN). exists N. intros f Hf. left. split; [exact (HN f Hf)|]. intros ((X & _) & _). apply dec_true in X. congruence. }
    destruct (Rlt_dec (ph a1) (ph a2)) as [Hp|Hp].
    { destruct (Z1 (or_intror Hp)) as (N & HN). exists N. intros f Hf. left. split; [exact (HN f Hf)|]. intros ((_ & X & _) & _). lra. }
    apply dec_true in Ed. apply Rnot_lt_le in Hp. destruct (gdec a2) eqn:Eg.
    { exists 0%nat. intros f _. left. split; [exists a2; split; [reflexivity|split; [lra|apply Up; lra]]|]. intros ((_ & _ & X) & _). apply gdec_true in Eg. assert (dph a2 < 0) by (assert (0 < u2 * - dph 0) by (apply Rmult_lt_0_compat; lra); lra). rewrite Rabs_left in Eg by assumption. lra. }
    assert (G : u2 * - dph 0 < Rabs (dph a2)) by (apply Rnot_le_lt; intros X; apply gdec_true in X; congruence).
    assert (U2 : 0 < u2 * - dph 0) by (apply Rmult_lt_0_compat; lra).
    destruct (Rle_dec 0 (dph a2)) as [Hs|Hs].
    { rewrite Rabs_pos_eq in G by exact Hs. assert (I : inv a2 a1).
      { unfold inv. split; [lra|]. split; [lra|]. split; [exact Ed|]. split; [rewrite Rabs_pos_eq; assumption|]. split; [nra|right; exact Hp]. }
      destruct (zoom_terminates a2 a1 (dph a2) (ph a1) dp1 I) as (N & HN). exists N. intros f Hf. left. split.
      - destruct (HN f Hf) as (a & E & Ha). exists a. split; [exact E|]. rewrite Rmin_comm, Rmax_comm, Mm, MM in Ha. split; [lra|apply Up; lra].
      - intros ((_ & _ & X) & _). lra. }
    apply Rnot_le_lt in Hs. rewrite Rabs_left in G by exact Hs. set (a3 := a2 * (3 / 2)).
    destruct (IH a2 a3 (dph a2)) as (N & HN); [unfold a3; lra|exact Ed|lra|]. exists N. intros f Hf. specialize (HN f Hf). cbv zeta in HN.
    assert (Q : goes_on a1 a2) by (split; [exact Ed|split; [exact Hp|lra]]).
    assert (Eq : forall k, a3 * (3 / 2) ^ k = a2 * (3 / 2) ^ S k) by (intros k; unfold a3; cbn [pow]; ring).
    assert (Eqv : (goes_on a1 a2 /\ forall k, (S k < S r)%nat -> goes_on (a2 * (3 / 2) ^ k) (a2 * (3 / 2) ^ S k)) <->
                  (r = 0%nat \/ goes_on a2 a3 /\ forall k, (S k < r)%nat -> goes_on (a3 * (3 / 2) ^ k) (a3 * (3 / 2) ^ S k))).
    { split.
      - intros (_ & X). destruct r as [|r']; [left; reflexivity|right]. split.
        + specialize (X 0%nat ltac:(lia)). replace (a2 * (3 / 2) ^ 0) with a2 in X by (cbn; ring). replace (a2 * (3 / 2) ^ 1) with a3 in X by (unfold a3; ring). exact X.
        + intros k Hk. rewrite !Eq. apply X. lia.
      - intros X. split; [exact Q|]. intros k Hk. destruct X as [->|(X & Y)]; [lia|]. destruct k as [|k].
        + replace (a2 * (3 / 2) ^ 0) with a2 by (cbn; ring). replace (a2 * (3 / 2) ^ 1) with a3 by (unfold a3; ring). exact X.
        + specialize (Y k ltac:(lia)). rewrite !Eq in Y. exact Y. }
    cbv zeta. destruct HN as [((a & E & Ha) & X)|(E & X)].
    + left. split.
      * exists a. split; [exact E|]. split; [apply Ha|]. destruct r as [|r']; [cbn [bracket] in E; discriminate|]. replace (S (S r') - 1)%nat with (S r') by lia. rewrite <- Eq. replace (S r' - 1)%nat with r' in Ha by lia. apply Ha.
      * intros Y. apply Eqv in Y. destruct Y as [->|Y]; [cbn [bracket] in E; discriminate|apply X; exact Y].
    + right. split; [exact E|]. right. apply Eqv. exact X.
Qed.
Lemma bracketed_ends a0 : 0 < a0 -> exists N, forall f, (N <= f)%nat -> let r := bracketed n x dx func grad u1 u2 midpoint_rule f a0 in
  let on := goes_on 0 a0 /\ forall k, (S k < 20)%nat -> goes_on (a0 * (3 / 2) ^ k) (a0 * (3 / 2) ^ S k) in
  (~ on -> exists a, r = Found a /\ 0 < a <= a0 * (3 / 2) ^ 19) /\ (on -> r = ReturnsNone).
Proof.
  intros Ha. destruct (bracket_ends 20 0 a0 (dph 0)) as (N & HN); [lra|lra|nra|]. exists N. intros f Hf. specialize (HN f Hf). unfold bracketed. cbv zeta in *.
  change (20 - 1)%nat with 19%nat in HN. destruct HN as [(E & X)|(E & [X|X])]; [|discriminate|].
  - split; [intros _; exact E|intros Y; contradiction].
  - split; [intros Y; contradiction|intros _; exact E].
Qed.
End P.
