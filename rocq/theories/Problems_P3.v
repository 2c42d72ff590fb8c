From Coq Require Import Reals ZArith Arith Bool List Lia Lra.
From Coquelicot Require Import Coquelicot.
From Verif Require Import RSum Rbf_P Poly_P Problems_M Problems_S Problems_P Problems_P2.
Import ListNotations.
Open Scope R_scope.
Lemma bound_ge n z : (Z.of_nat n <= z)%Z -> bound n z = n.
Proof. intros H. unfold bound. destruct (Z.ltb_spec z 0); [lia|]. lia. Qed.
Lemma tail_eq m x i z : (i <= m)%nat -> z = (2 + 3 * Z.of_nat i)%Z -> beam_tail (3 * m) x z = beam_arm m x i.
Proof.
  intros Hi ->. unfold beam_tail, beam_arm. destruct (Nat.eq_dec i m) as [-> |N].
  - replace (m - m)%nat with 0%nat by lia. cbn [rsum]. unfold slice_sum. rewrite !bound_ge by lia. apply rsum_zero. intros j Hj. destruct (Nat.leb_spec (3 * m) j); [lia|]. reflexivity.
  - replace (2 + 3 * Z.of_nat i)%Z with (Z.of_nat (2 + 3 * i)) by lia. rewrite (slice_eq (3 * m) x (2 + 3 * i) (3 * m) 3 (m - i)) by (intros; lia). apply rsum_ext. intros. f_equal. lia.
Qed.
Lemma osum_map (f : nat -> option R) (g : nat -> R) m : forall s, (forall i, (s <= i < s + m)%nat -> f i = Some (g i)) -> osum (map f (seq s m)) = Some (rsum m (fun i => g (s + i)%nat)).
Proof.
  induction m as [|m IH]; intros s H; [reflexivity|]. cbn [seq map osum]. rewrite (H s) by lia. rewrite (IH (S s)) by (intros; apply H; lia). rewrite rsum_S_l. rewrite Nat.add_0_r. do 2 f_equal. apply rsum_ext. intros. f_equal. lia.
Qed.
Lemma elem_eq n x i z g : z = Z.of_nat i -> (3 * i + 1 < n)%nat -> beam_elem n x z g = Some (g (x (3 * i)%nat) (x (3 * i + 1)%nat)).
Proof. intros -> H. unfold beam_elem. rewrite (at_eq n x (3 * i) (3 * Z.of_nat i)%Z), (at_eq n x (3 * i + 1) (3 * Z.of_nat i + 1)%Z) by lia. reflexivity. Qed.
Lemma beam_is P E n p : cantilever_beam P E n = Some p -> p = beam_problem P E n.
Proof. unfold cantilever_beam. destruct (negb _); congruence. Qed.
Lemma third m : ((3 * m) / 3)%nat = m.
Proof. rewrite Nat.mul_comm, Nat.div_mul; lia. Qed.
Definition bterm (m : nat) (x : vec) (i : nat) : R := 12 / x (3 * i)%nat / x (3 * i + 1)%nat ^ 3 * beam_arm m x i ^ 3 - 12 / x (3 * i)%nat / x (3 * i + 1)%nat ^ 3 * beam_arm m x (S i) ^ 3.
Lemma beam_eval P E m x : evaluate (beam_problem P E (3 * m)) x None = Some (P / 3 / E * rsum m (bterm m x)).
Proof.
  unfold beam_problem. cbn [evaluate]. rewrite third. cbv zeta. rewrite (osum_map _ (bterm m x) m 0); [reflexivity|]. intros i Hi.
  rewrite (elem_eq (3 * m) x i) by lia. rewrite (tail_eq m x i), (tail_eq m x (S i)) by lia. reflexivity.
Qed.
Lemma beam_value P E m p x : E <> 0 -> (forall i, (i < m)%nat -> x (3 * i)%nat <> 0 /\ x (3 * i + 1)%nat <> 0) -> cantilever_beam P E (3 * m) = Some p -> value p x = beam_f P E m x.
Proof.
  intros HE H Hp. rewrite (beam_is _ _ _ _ Hp). unfold value. rewrite beam_eval. unfold beam_f. replace (P / 3 / E) with (P / (3 * E)) by (field; exact HE). f_equal. apply rsum_ext. intros i Hi. destruct (H i Hi). unfold bterm. field. split; assumption.
Qed.
Lemma arm_const m x k i : (k mod 3 <> 2)%nat -> forall t, beam_arm m (upd x k t) i = beam_arm m x i.
Proof.
  intros H t. unfold beam_arm. apply rsum_ext. intros j Hj. apply upd_neq. intros E. apply H. rewrite <- E. replace (3 * (i + j) + 2)%nat with (2 + (i + j) * 3)%nat by lia. rewrite Nat.mod_add by lia. reflexivity.
Qed.
Lemma arm_derive m x k i : (k mod 3 = 2)%nat -> (k < 3 * m)%nat -> is_derive (fun t => beam_arm m (upd x k t) i) (x k) (if Nat.leb i (k / 3) then 1 else 0).
Proof.
  intros Hk Hm. pose proof (Nat.div_mod k 3 ltac:(lia)) as D. unfold beam_arm. match goal with |- is_derive _ _ ?d => replace d with (rsum (m - i) (fun j => if Nat.eqb (3 * (i + j) + 2) k then 1 else 0)) end.
  - apply (is_derive_rsum (m - i) (fun j t => upd x k t (3 * (i + j) + 2)%nat)). intros j Hj. apply derive_x.
  - destruct (Nat.leb_spec i (k / 3)) as [L|L].
    + rewrite (rsum_ext (m - i) _ (fun j => if Nat.eqb j (k / 3 - i) then 1 else 0)); [apply (rsum_single (m - i) (fun _ => 1) (k / 3 - i)); lia|]. intros j Hj. destruct (Nat.eqb_spec (3 * (i + j) + 2) k), (Nat.eqb_spec j (k / 3 - i)); try lia; reflexivity.
    + apply rsum_zero. intros j Hj. destruct (Nat.eqb_spec (3 * (i + j) + 2) k); [lia|reflexivity].
Qed.
Lemma cube_derive (f : R -> R) t df c : is_derive f t df -> is_derive (fun s => c * f s ^ 3) t (c * (3 * f t ^ 2 * df)).
Proof.
  intros H. apply (is_derive_ext (fun s => c * (f s * (f s * f s)))); [intros; match goal with |- ?a = ?b => change (@eq R a b) end; ring|].
  pose proof (derive_mul f (fun s => f s * f s) t df _ H (derive_mul f f t df df H H)) as D. pose proof (is_derive_scal (fun s => f s * (f s * f s)) t c _ D) as D2. match type of D2 with is_derive _ _ ?d => replace (c * (3 * f t ^ 2 * df)) with d; [exact D2|] end. unfold scal; cbn; unfold mult; cbn. ring.
Qed.
Lemma Zmod3 k : (Z.of_nat k mod 3)%Z = Z.of_nat (k mod 3).
Proof. rewrite Nat2Z.inj_mod. reflexivity. Qed.
Lemma Zdiv3 k : (Z.of_nat k / 3)%Z = Z.of_nat (k / 3).
Proof. rewrite Nat2Z.inj_div. reflexivity. Qed.
Lemma beam_ok P E m p x k : cantilever_beam P E (3 * m) = Some p -> (k < 3 * m)%nat -> (forall i, (i < m)%nat -> x (3 * i)%nat <> 0 /\ x (3 * i + 1)%nat <> 0) -> derivative_correct p x k.
Proof.
  intros Hp Hk HN. rewrite (beam_is _ _ _ _ Hp). clear Hp p. pose proof (Nat.div_mod k 3 ltac:(lia)) as D. pose proof (Nat.mod_upper_bound k 3 ltac:(lia)) as M. set (e := (k / 3)%nat) in *. assert (He : (e < m)%nat) by lia.
  enough (K : exists d, evaluate (beam_problem P E (3 * m)) x (Some (Z.of_nat k)) = Some (P / 3 / E * d) /\ is_derive (fun t => rsum m (bterm m (upd x k t))) (x k) d).
  { destruct K as (d & K1 & K2). eexists. split; [exact K1|]. unfold is_partial. apply (is_derive_ext (fun t => P / 3 / E * rsum m (bterm m (upd x k t)))); [intros t; unfold value; rewrite beam_eval; reflexivity|]. apply (is_derive_scal (fun t => rsum m (bterm m (upd x k t))) (x k) (P / 3 / E) d K2). }
  unfold beam_problem. cbn [evaluate]. rewrite Zmod3, Zdiv3. fold e. cbv zeta. assert (R : (k mod 3 = 0 \/ k mod 3 = 1 \/ k mod 3 = 2)%nat) by lia. destruct R as [R|[R|R]]; rewrite R.
  - cbn [Z.of_nat Z.eqb]. rewrite (elem_eq (3 * m) x e) by lia. rewrite (tail_eq m x e), (tail_eq m x (S e)) by lia. eexists. split; [reflexivity|].
    set (d := - 12 / x (3 * e)%nat ^ 2 / x (3 * e + 1)%nat ^ 3 * beam_arm m x e ^ 3 - - 12 / x (3 * e)%nat ^ 2 / x (3 * e + 1)%nat ^ 3 * beam_arm m x (S e) ^ 3).
    rewrite <- (rsum_single m (fun _ => d) e He). apply (is_derive_rsum m (fun i t => bterm m (upd x k t) i)). intros i Hi. destruct (Nat.eqb_spec i e) as [-> |N].
    + apply (is_derive_ext (fun t => 12 / t / x (3 * e + 1)%nat ^ 3 * beam_arm m x e ^ 3 - 12 / t / x (3 * e + 1)%nat ^ 3 * beam_arm m x (S e) ^ 3)).
      * intros t. unfold bterm. rewrite !arm_const by lia. replace (3 * e)%nat with k by lia. rewrite upd_eq, upd_neq by lia. reflexivity.
      * unfold d. replace (x k) with (x (3 * e)%nat) by (f_equal; lia). destruct (HN e He) as [N1 N2]. set (b := x (3 * e)%nat) in *. set (h := x (3 * e + 1)%nat) in *. set (A := beam_arm m x e). set (B := beam_arm m x (S e)). clearbody b h A B. auto_derive; [tauto|]. field. split; assumption.
    + apply (is_derive_ext (fun _ => bterm m x i)); [|apply derive_cst]. intros t. unfold bterm. rewrite !arm_const by lia. rewrite !upd_neq by lia. reflexivity.
  - cbn [Z.of_nat Pos.of_succ_nat Z.eqb Pos.eqb]. rewrite (elem_eq (3 * m) x e) by lia. rewrite (tail_eq m x e), (tail_eq m x (S e)) by lia. eexists. split; [reflexivity|].
    set (d := - 36 / x (3 * e)%nat / x (3 * e + 1)%nat ^ 4 * beam_arm m x e ^ 3 - - 36 / x (3 * e)%nat / x (3 * e + 1)%nat ^ 4 * beam_arm m x (S e) ^ 3).
    rewrite <- (rsum_single m (fun _ => d) e He). apply (is_derive_rsum m (fun i t => bterm m (upd x k t) i)). intros i Hi. destruct (Nat.eqb_spec i e) as [-> |N].
    + apply (is_derive_ext (fun t => 12 / x (3 * e)%nat / t ^ 3 * beam_arm m x e ^ 3 - 12 / x (3 * e)%nat / t ^ 3 * beam_arm m x (S e) ^ 3)).
      * intros t. unfold bterm. rewrite !arm_const by lia. replace (3 * e + 1)%nat with k by lia. rewrite upd_eq, upd_neq by lia. reflexivity.
      * unfold d. replace (x k) with (x (3 * e + 1)%nat) by (f_equal; lia). destruct (HN e He) as [N1 N2]. set (b := x (3 * e)%nat) in *. set (h := x (3 * e + 1)%nat) in *. set (A := beam_arm m x e). set (B := beam_arm m x (S e)). clearbody b h A B.
        assert (N3 : h ^ 3 <> 0) by (apply pow_nonzero; exact N2). auto_derive; [repeat split; try exact N1; cbn [pow] in N3; tauto|]. field. split; assumption.
    + apply (is_derive_ext (fun _ => bterm m x i)); [|apply derive_cst]. intros t. unfold bterm. rewrite !arm_const by lia. rewrite !upd_neq by lia. reflexivity.
  - cbn [Z.of_nat Pos.of_succ_nat Pos.succ Z.eqb Pos.eqb]. replace (Z.to_nat (Z.of_nat e + 1)) with (S e) by lia.
    set (g := fun i => 36 / x (3 * i)%nat / x (3 * i + 1)%nat ^ 3 * beam_arm m x i ^ 2 - (if Nat.ltb i e then 36 / x (3 * i)%nat / x (3 * i + 1)%nat ^ 3 * beam_arm m x (S i) ^ 2 else 0)).
    rewrite (osum_map _ g (S e) 0).
    2:{ intros i Hi. rewrite (elem_eq (3 * m) x i) by lia. rewrite (tail_eq m x i), (tail_eq m x (S i)) by lia. unfold g. destruct (Z.ltb_spec (Z.of_nat i) (Z.of_nat e)), (Nat.ltb_spec i e); try lia; reflexivity. }
    eexists. split; [reflexivity|].
    replace (rsum (S e) (fun i => g (0 + i)%nat)) with (rsum m (fun i => if Nat.leb i e then g i else 0)).
    2:{ replace m with (S e + (m - S e))%nat by lia. rewrite rsum_app. rewrite (rsum_zero (m - S e)); [|intros i Hi; destruct (Nat.leb_spec (S e + i) e); [lia|reflexivity]]. rewrite Rplus_0_r. apply rsum_ext. intros i Hi. destruct (Nat.leb_spec i e); [reflexivity|lia]. }
    apply (is_derive_rsum m (fun i t => bterm m (upd x k t) i)). intros i Hi. set (c := 12 / x (3 * i)%nat / x (3 * i + 1)%nat ^ 3).
    apply (is_derive_ext (fun t => c * beam_arm m (upd x k t) i ^ 3 - c * beam_arm m (upd x k t) (S i) ^ 3)).
    + intros t. unfold bterm, c. rewrite (upd_neq x k t (3 * i)), (upd_neq x k t (3 * i + 1)) by lia. reflexivity.
    + pose proof (is_derive_minus (K := R_AbsRing) (V := R_NormedModule) _ _ (x k) _ _ (cube_derive _ _ _ c (arm_derive m x k i R Hk)) (cube_derive _ _ _ c (arm_derive m x k (S i) R Hk))) as Q. cbv beta in Q. fold e in Q.
      match type of Q with is_derive _ _ ?d => replace (if Nat.leb i e then g i else 0) with d; [exact Q|] end.
      assert (AS : forall a, beam_arm m (upd x k (x k)) a = beam_arm m x a) by (intros a; unfold beam_arm; apply rsum_ext; intros; apply upd_same). rewrite !AS. change (c * (3 * beam_arm m x i ^ 2 * (if Nat.leb i e then 1 else 0)) - c * (3 * beam_arm m x (S i) ^ 2 * (if Nat.leb (S i) e then 1 else 0)) = (if Nat.leb i e then g i else 0)).
      unfold g, c. destruct (Nat.leb_spec i e), (Nat.leb_spec (S i) e), (Nat.ltb_spec i e); try lia; unfold Rdiv; ring.
Qed.
