From Coq Require Import Reals ZArith Arith Bool List Lia Lra FunctionalExtensionality.
From Coquelicot Require Import Coquelicot.
From Verif Require Import RSum Index_M Index_P Rmtb_M Rmtb_S Rmtb_P Rmtb_P2 Rmtb_P3 Rmtb_P4 Repro_S Repro_P.
Import ListNotations.
Open Scope list_scope.
Open Scope R_scope.

Notation pt := (nat -> R).
(** a tensor product of functionals g -> (a - b) g(0) + b g(1) *)
Fixpoint Phi (a b : nat -> nat -> R) (d : nat) (is : list nat) (f : pt -> R) (x : pt) : R :=
  match is with
  | [] => f x
  | i :: r => (a d i - b d i) * Phi a b (S d) r f (upd x d 0) + b d i * Phi a b (S d) r f (upd x d 1)
  end.
Lemma msum_Phi (a b W : nat -> nat -> R) (f : pt -> R) (al be : nat -> R) : forall ns d x,
  (forall k, (k < length ns)%nat -> rsum (nth k ns 0%nat) (fun i => W (d + k)%nat i * a (d + k)%nat i) = al (d + k)%nat) ->
  (forall k, (k < length ns)%nat -> rsum (nth k ns 0%nat) (fun i => W (d + k)%nat i * b (d + k)%nat i) = be (d + k)%nat) ->
  msum ns (fun is => lprod d is W * Phi a b d is f x) = Phi (fun k _ => al k) (fun k _ => be k) d ns f x.
Proof.
  induction ns as [|n ns IH]; intros d x Ha Hb; cbn [msum lprod Phi]; [ring|].
  transitivity (rsum n (fun i => W d i * (a d i - b d i) * Phi (fun k _ => al k) (fun k _ => be k) (S d) ns f (upd x d 0)
                       + W d i * b d i * Phi (fun k _ => al k) (fun k _ => be k) (S d) ns f (upd x d 1))).
  - apply rsum_ext. intros i _.
    rewrite <- !IH by (intros k Hk; specialize (Ha (S k) ltac:(cbn; lia)); specialize (Hb (S k) ltac:(cbn; lia)); rewrite Nat.add_succ_r in Ha, Hb; assumption).
    rewrite <- !msum_scal, <- msum_plus. apply msum_ext. intros is _. ring.
  - rewrite rsum_plus, !rsum_scal_r. f_equal.
    + f_equal. specialize (Ha 0%nat ltac:(cbn; lia)). specialize (Hb 0%nat ltac:(cbn; lia)). rewrite Nat.add_0_r in Ha, Hb. cbn [nth] in Ha, Hb.
      rewrite <- Ha, <- Hb, <- rsum_minus. apply rsum_ext. intros; ring.
    + f_equal. specialize (Hb 0%nat ltac:(cbn; lia)). rewrite Nat.add_0_r in Hb. exact Hb.
Qed.

(** coordinates d, d+1, ... replaced by [b] of the indices *)
Definition subst_pt (b : nat -> nat -> R) (d : nat) (is : list nat) (x : pt) : pt :=
  fun k => if (Nat.leb d k && Nat.ltb k (d + length is))%bool then b k (nth (k - d) is 0%nat) else x k.
Lemma subst_cons b d i r x c : forall k, subst_pt b (S d) r (upd x d c) k = upd (subst_pt b d (i :: r) x) d c k.
Proof.
  intros k. unfold subst_pt, upd. cbn [length].
  destruct (Nat.eqb_spec k d) as [-> |N].
  - destruct (Nat.leb_spec (S d) d); [lia|reflexivity].
  - destruct (Nat.leb_spec (S d) k), (Nat.leb_spec d k); try lia; cbn [andb]; [|reflexivity].
    replace (d + S (length r))%nat with (S d + length r)%nat by lia.
    destruct (Nat.ltb_spec k (S d + length r)); [|reflexivity]. replace (k - d)%nat with (S (k - S d)) by lia. reflexivity.
Qed.
Lemma subst_head b d i r x : upd (subst_pt b d (i :: r) x) d (b d i) = subst_pt b d (i :: r) x.
Proof.
  apply functional_extensionality. intros k. unfold upd. destruct (Nat.eqb_spec k d) as [-> |N]; [|reflexivity].
  unfold subst_pt. cbn [length]. destruct (Nat.leb_spec d d); [|lia]. destruct (Nat.ltb_spec d (d + S (length r))); [|lia].
  cbn [andb]. rewrite Nat.sub_diag. reflexivity.
Qed.
Lemma subst_cons_f b d i r x c : subst_pt b (S d) r (upd x d c) = upd (subst_pt b d (i :: r) x) d c.
Proof. apply functional_extensionality. apply subst_cons. Qed.
Section A.
Variables (nx : nat) (f : pt -> R).
Hypothesis Hf : multi_affine nx f.
Lemma aff k x z : (k < nx)%nat -> (1 - z) * f (upd x k 0) + z * f (upd x k 1) = f (upd x k z).
Proof. intros Hk. destruct Hf as (_ & A). rewrite (A k x z Hk). unfold slope. ring. Qed.
Lemma Phi_value (a b : nat -> nat -> R) : forall is d x, (d + length is <= nx)%nat ->
  (forall k, (k < length is)%nat -> a (d + k)%nat (nth k is 0%nat) = 1) -> Phi a b d is f x = f (subst_pt b d is x).
Proof.
  induction is as [|i r IH]; intros d x L Ha; cbn [Phi].
  - f_equal. apply functional_extensionality. intros k. unfold subst_pt. cbn [length]. destruct (Nat.leb_spec d k), (Nat.ltb_spec k (d + 0)); try reflexivity; lia.
  - cbn [length] in L. specialize (IH (S d)).
    rewrite !IH by (try lia; intros k Hk; specialize (Ha (S k) ltac:(cbn; lia)); rewrite Nat.add_succ_r in Ha; exact Ha).
    rewrite !(subst_cons_f b d i r). specialize (Ha 0%nat ltac:(cbn; lia)). rewrite Nat.add_0_r in Ha. cbn [nth] in Ha. rewrite Ha.
    rewrite aff by lia. rewrite subst_head. reflexivity.
Qed.
Lemma upd_comm (x : pt) k l a b : k <> l -> upd (upd x k a) l b = upd (upd x l b) k a.
Proof.
  intros N. apply functional_extensionality. intros j. unfold upd. destruct (Nat.eqb_spec j l), (Nat.eqb_spec j k); try reflexivity. lia.
Qed.
Lemma upd_twice (x : pt) k a b : upd (upd x k a) k b = upd x k b.
Proof. apply functional_extensionality. intros j. unfold upd. destruct (Nat.eqb_spec j k); reflexivity. Qed.
Lemma slope_aff k l x z : (k < nx)%nat -> k <> l -> (1 - z) * slope f l (upd x k 0) + z * slope f l (upd x k 1) = slope f l (upd x k z).
Proof.
  intros Hk N. unfold slope. rewrite !(upd_comm x k l) by exact N. rewrite <- !(aff k _ z Hk). ring.
Qed.
Lemma slope_self k x c : slope f k (upd x k c) = slope f k x.
Proof. unfold slope. rewrite !upd_twice. reflexivity. Qed.
Lemma Phi_slope (a b : nat -> nat -> R) kx w : forall is d x, (d + length is <= nx)%nat -> (d <= kx < d + length is)%nat ->
  (forall k, (k < length is)%nat -> (d + k <> kx)%nat -> a (d + k)%nat (nth k is 0%nat) = 1) ->
  a kx (nth (kx - d) is 0%nat) = 0 -> b kx (nth (kx - d) is 0%nat) = w ->
  Phi a b d is f x = slope f kx (subst_pt b d is x) * w.
Proof.
  induction is as [|i r IH]; intros d x L Hk Ha A0 B0; cbn [length] in *; [lia|]. cbn [Phi].
  destruct (Nat.eq_dec d kx) as [-> |N].
  - rewrite Nat.sub_diag in A0, B0. cbn [nth] in A0, B0. rewrite A0, B0.
    rewrite !Phi_value by (try lia; intros k Hk'; specialize (Ha (S k) ltac:(lia) ltac:(lia)); rewrite Nat.add_succ_r in Ha; exact Ha).
    rewrite !(subst_cons_f b kx i r). unfold slope. ring.
  - replace (kx - d)%nat with (S (kx - S d)) in A0, B0 by lia. cbn [nth] in A0, B0.
    rewrite !(IH (S d)); try lia; try assumption;
      try (intros k Hk' Nk; specialize (Ha (S k) ltac:(lia) ltac:(lia)); rewrite Nat.add_succ_r in Ha; exact Ha).
    rewrite !(subst_cons_f b d i r). specialize (Ha 0%nat ltac:(lia) ltac:(lia)). rewrite Nat.add_0_r in Ha. cbn [nth] in Ha. rewrite Ha.
    rewrite <- !Rmult_assoc, <- Rmult_plus_distr_r. f_equal.
    rewrite slope_aff by (try lia). rewrite subst_head. reflexivity.
Qed.
Lemma f_ext x y : (forall k, (k < nx)%nat -> x k = y k) -> f x = f y.
Proof. destruct Hf as (A & _). apply A. Qed.
Lemma slope_ext l x y : (forall k, (k < nx)%nat -> k <> l -> x k = y k) -> slope f l x = slope f l y.
Proof.
  intros H. unfold slope. f_equal; apply f_ext; intros k Hk; unfold upd; destruct (Nat.eqb_spec k l); auto.
Qed.
Lemma slope_derive k x : (k < nx)%nat -> forall z, is_derive (fun z => f (upd x k z)) z (slope f k x).
Proof.
  intros Hk z. destruct Hf as (_ & A). apply (is_derive_ext (fun z => f (upd x k 0) + slope f k x * z)).
  - intros t. symmetry. apply A. exact Hk.
  - auto_derive; [exact I|ring].
Qed.
End A.

Section B.
Variables (orders ncps : list nat) (lo up : nat -> R) (f : pt -> R).
Hypothesis Hdim : Forall2 (fun o n => (2 <= o <= n)%nat) orders ncps.
Let nx := length orders.
Hypothesis Hbox : forall k, (k < nx)%nat -> lo k < up k.
Hypothesis Hf : multi_affine nx f.
Let Hd1 := Hdim1 orders ncps Hdim.
Let coef : Z -> R := fun z => greville_values orders ncps lo up f (Z.to_nat z).
(** the clamped point *)
Definition clamp (x : pt) : pt := fun k => lo k + (up k - lo k) * to_param (lo k) (up k) (x k).
Lemma ncl : length ncps = nx.
Proof. apply (ncps_length orders ncps Hd1). Qed.
Let G (k i : nat) : R := lo k + (up k - lo k) * greville (nth k orders 0%nat) (nth k ncps 0%nat) i.
Lemma coef_Phi is x : Forall2 lt is ncps -> coef (Z.of_nat (contract_index ncps is)) = Phi (fun _ _ => 1) G 0 is f x.
Proof.
  intros H. unfold coef. rewrite Nat2Z.id. pose proof (F2_length _ _ _ H) as L. rewrite ncl in L.
  rewrite (Phi_value nx f Hf) by (try lia; reflexivity).
  unfold greville_values. rewrite (expand_contract ncps is H). apply (f_ext nx f Hf). intros k Hk.
  unfold subst_pt. cbn [Nat.leb Nat.add andb]. rewrite Nat.sub_0_r. destruct (Nat.ltb_spec k (length is)); [reflexivity|lia].
Qed.
Lemma dim_value p ix : (ix < nx)%nat -> 0 <= p ix < 1 -> 
  rsum (nth ix ncps 0%nat) (fun i => fac0 orders ncps p ix i * 1) = 1 /\
  rsum (nth ix ncps 0%nat) (fun i => fac0 orders ncps p ix i * G ix i) = lo ix + (up ix - lo ix) * p ix.
Proof.
  intros H Hp. assert (rsum (nth ix ncps 0%nat) (fac0 orders ncps p ix) = 1) as E by (apply fac0_sum; assumption).
  split.
  - rewrite <- E at 1. apply rsum_ext. intros; ring.
  - rewrite (rsum_ext _ _ (fun i => lo ix * fac0 orders ncps p ix i + (up ix - lo ix) * (fac0 orders ncps p ix i * greville (nth ix orders 0%nat) (nth ix ncps 0%nat) i))) by (intros; unfold G; ring).
    rewrite rsum_plus, !rsum_scal_l, E. rewrite (fac0_linear orders ncps Hdim p ix H Hp). ring.
Qed.
Lemma dim_slope p ix : (ix < nx)%nat -> 0 <= p ix < 1 -> 
  rsum (nth ix ncps 0%nat) (fun i => fac1 orders ncps p ix i * 1) = 0 /\
  rsum (nth ix ncps 0%nat) (fun i => fac1 orders ncps p ix i * G ix i) = up ix - lo ix.
Proof.
  intros H Hp. assert (rsum (nth ix ncps 0%nat) (fac1 orders ncps p ix) = 0) as E by (apply fac1_sum; assumption).
  split.
  - rewrite <- E. apply rsum_ext. intros; ring.
  - rewrite (rsum_ext _ _ (fun i => lo ix * fac1 orders ncps p ix i + (up ix - lo ix) * (fac1 orders ncps p ix i * greville (nth ix orders 0%nat) (nth ix ncps 0%nat) i))) by (intros; unfold G; ring).
    rewrite rsum_plus, !rsum_scal_l, E. rewrite (fac1_linear orders ncps Hdim p ix H Hp). ring.
Qed.
Theorem rmtb_reproduces x : rmtb_value orders ncps lo up false coef x = f (clamp x).
Proof.
  rewrite value_eq, Rplus_0_r, U0_eq by exact Hd1. unfold grid_sum.
  rewrite (msum_ext ncps _ (fun is => lprod 0 is (fac0 orders ncps (fun k => to_param (lo k) (up k) (x k))) * Phi (fun _ _ => 1) G 0 is f x))
    by (intros is His; f_equal; apply coef_Phi; exact His).
  rewrite (msum_Phi (fun _ _ => 1) G _ f (fun _ => 1) (clamp x)).
  - rewrite (Phi_value nx f Hf) by (try reflexivity; rewrite ncl; lia).
    apply (f_ext nx f Hf). intros k Hk. unfold subst_pt. cbn [Nat.leb Nat.add andb]. destruct (Nat.ltb_spec k (length ncps)) as [|N]; [reflexivity|rewrite ncl in N; lia].
  - intros k Hk. rewrite ncl in Hk. cbn [Nat.add]. apply dim_value; [exact Hk|apply to_param_01].
  - intros k Hk. rewrite ncl in Hk. cbn [Nat.add]. apply (dim_value (fun k => to_param (lo k) (up k) (x k)) k Hk (to_param_01 _ _ _)).
Qed.
Theorem rmtb_reproduces_slope kx x : (kx < nx)%nat -> rmtb_derivative orders ncps lo up false coef kx x = slope f kx (clamp x).
Proof.
  intros Hk. rewrite deriv_eq, Rplus_0_r, U_eq by exact Hd1. unfold grid_sum. cbn [wid].
  set (p := fun k => to_param (lo k) (up k) (x k)).
  rewrite (msum_ext ncps _ (fun is => lprod 0 is (fac orders ncps (S kx) 0 p) * Phi (fun _ _ => 1) G 0 is f x))
    by (intros is His; f_equal; apply coef_Phi; exact His).
  rewrite (msum_Phi (fun _ _ => 1) G _ f (fun k => if Nat.eqb k kx then 0 else 1) (fun k => if Nat.eqb k kx then up kx - lo kx else clamp x k)).
  - rewrite (Phi_slope nx f Hf _ _ kx (up kx - lo kx)).
    + rewrite Rmult_1_r, Rmult_assoc, Rinv_r by (pose proof (Hbox kx Hk); lra). rewrite Rmult_1_r.
      apply (slope_ext nx f Hf). intros k Hk' N. unfold subst_pt. cbn [Nat.leb Nat.add andb]. destruct (Nat.ltb_spec k (length ncps)) as [|N']; [|rewrite ncl in N'; lia].
      destruct (Nat.eqb_spec k kx); [contradiction|reflexivity].
    + rewrite ncl. lia.
    + rewrite ncl. lia.
    + intros k _ N. cbn [Nat.add] in *. destruct (Nat.eqb_spec k kx); [contradiction|reflexivity].
    + rewrite Nat.eqb_refl. reflexivity.
    + rewrite Nat.eqb_refl. reflexivity.
  - intros k Hk'. rewrite ncl in Hk'. cbn [Nat.add]. destruct (Nat.eqb_spec k kx) as [-> |N].
    + rewrite <- (proj1 (dim_slope p kx Hk (to_param_01 _ _ _))). apply rsum_ext. intros i _. unfold fac. rewrite Nat.eqb_refl. reflexivity.
    + rewrite <- (proj1 (dim_value p k Hk' (to_param_01 _ _ _))) at 1. apply rsum_ext. intros i _. unfold fac. destruct (Nat.eqb_spec (S k) (S kx)); [lia|reflexivity].
  - intros k Hk'. rewrite ncl in Hk'. cbn [Nat.add]. destruct (Nat.eqb_spec k kx) as [-> |N].
    + rewrite <- (proj2 (dim_slope p kx Hk (to_param_01 _ _ _))). apply rsum_ext. intros i _. unfold fac. rewrite Nat.eqb_refl. reflexivity.
    + change (clamp x k) with (lo k + (up k - lo k) * p k). rewrite <- (proj2 (dim_value p k Hk' (to_param_01 _ _ _))). apply rsum_ext. intros i _. unfold fac. destruct (Nat.eqb_spec (S k) (S kx)); [lia|reflexivity].
Qed.
End B.
