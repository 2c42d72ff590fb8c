(** Reordering the input variables permutes the trend functions and leaves the correlations unchanged. *)
From Coq Require Import Reals Arith Bool List Lia Lra FunctionalExtensionality Permutation.
From Verif Require Import RSum Mat Kernels_M Krg_M Krg_P Krg_P2 Krg_P3 Het_S Het_P4 Order_P1 Order_P2 Trend_T Inp_S.
Import ListNotations.
Open Scope list_scope.
Open Scope R_scope.
(** ** monomials *)
Definition norm (m : mono) : mono := match m with MXX i j => if Nat.leb i j then MXX i j else MXX j i | _ => m end.
Definition act (f : nat -> nat) (m : mono) : mono := match m with M1 => M1 | MX i => MX (f i) | MXX i j => norm (MXX (f i) (f j)) end.
Lemma act_eval f x m : meval (swap_in f x) m = meval x (act f m).
Proof. destruct m as [|i|i j]; cbn; try reflexivity. destruct (Nat.leb (f i) (f j)); cbn; unfold swap_in; [reflexivity|ring]. Qed.
Definition in_monos (po : poly) (nx : nat) (m : mono) : Prop :=
  match m with M1 => True | MX i => po <> PConstant /\ (i < nx)%nat | MXX i j => po = PQuadratic /\ (i <= j < nx)%nat end.
Lemma monos_in po nx m : In m (monos po nx) <-> in_monos po nx m.
Proof.
  assert (L : forall m, In m (M1 :: map MX (seq 0 nx)) <-> match m with M1 => True | MX i => (i < nx)%nat | MXX _ _ => False end).
  { intros [|i|i j]; cbn; split; try (intros; left; reflexivity); try (intros; exact I).
    - intros [H|H]; [discriminate|]. apply in_map_iff in H. destruct H as (k & E & H). injection E as <-. apply in_seq in H. lia.
    - intros H. right. apply in_map. apply in_seq. lia.
    - intros [H|H]; [discriminate|]. apply in_map_iff in H. destruct H as (k & E & H). discriminate.
    - intros []. }
  destruct po; cbn [monos].
  - destruct m as [|i|i j]; cbn; split; try (intros; left; reflexivity); try (intros; exact I); try (intros [H|[]]; discriminate); try (intros [H _]; congruence).
  - rewrite L. destruct m as [|i|i j]; cbn; split; try exact (fun x => x); try (intros H; split; [discriminate|exact H]); try (intros [_ H]; exact H); try (intros []; fail); try (intros [H _]; discriminate H); try (intros []).
  - change (In m ((M1 :: map MX (seq 0 nx)) ++ pairs nx) <-> in_monos PQuadratic nx m). rewrite in_app_iff, L. unfold pairs. rewrite in_flat_map. destruct m as [|i|i j]; cbn; split.
    + intros _. exact I.
    + intros _. left. exact I.
    + intros [H|(k & _ & H)]; [split; [discriminate|exact H]|]. apply in_map_iff in H. destruct H as (j & E & _). discriminate.
    + intros [_ H]. left. exact H.
    + intros [[]|(k & Hk & H)]. apply in_map_iff in H. destruct H as (l & E & Hl). injection E as <- <-. apply in_seq in Hk. apply in_seq in Hl. split; [reflexivity|lia].
    + intros [_ H]. right. exists i. split; [apply in_seq; lia|]. apply in_map. apply in_seq. lia.
Qed.
Lemma NoDup_map_in {A B} (h : A -> B) l : (forall a b, In a l -> In b l -> h a = h b -> a = b) -> NoDup l -> NoDup (map h l).
Proof.
  intros H N. induction N as [|a l Na N IH]; cbn; constructor.
  - intros C. apply in_map_iff in C. destruct C as (b & E & Hb). apply Na. rewrite <- (H b a); [exact Hb|right; exact Hb|left; reflexivity|exact E].
  - apply IH. intros; apply H; try (right; assumption); assumption.
Qed.
Lemma NoDup_app_in {A} (l l' : list A) : NoDup l -> NoDup l' -> (forall a, In a l -> In a l' -> False) -> NoDup (l ++ l').
Proof.
  intros N N' D. induction N as [|a l Na N IH]; cbn; [exact N'|]. constructor.
  - intros C. apply in_app_or in C. destruct C as [C|C]; [contradiction|]. apply (D a); [left; reflexivity|exact C].
  - apply IH. intros b Hb Hb'. apply (D b); [right; exact Hb|exact Hb'].
Qed.
Lemma monos_nodup po nx : NoDup (monos po nx).
Proof.
  assert (L : NoDup (M1 :: map MX (seq 0 nx))).
  { constructor; [intros C; apply in_map_iff in C; destruct C as (k & E & _); discriminate|]. apply NoDup_map_in; [intros a b _ _ E; injection E as ->; reflexivity|apply seq_NoDup]. }
  destruct po; cbn [monos]; [constructor; [intros []|constructor]|exact L|]. change (NoDup ((M1 :: map MX (seq 0 nx)) ++ pairs nx)). apply NoDup_app_in; [exact L| |].
  - unfold pairs. generalize (seq_NoDup nx 0). generalize (seq 0 nx). intros l N. induction N as [|k l Nk N IH]; cbn; [constructor|]. apply NoDup_app_in; [|exact IH|].
    + apply NoDup_map_in; [intros a b _ _ E; injection E as ->; reflexivity|apply seq_NoDup].
    + intros a Ha Ha'. apply in_map_iff in Ha. destruct Ha as (j & <- & _). apply in_flat_map in Ha'. destruct Ha' as (k' & Hk' & Ha'). apply in_map_iff in Ha'. destruct Ha' as (j' & E & _). injection E as -> _. contradiction.
  - intros a Ha Ha'. unfold pairs in Ha'. apply in_flat_map in Ha'. destruct Ha' as (k & _ & Ha'). apply in_map_iff in Ha'. destruct Ha' as (j & <- & _). destruct Ha as [Ha|Ha]; [discriminate|]. apply in_map_iff in Ha. destruct Ha as (i & E & _). discriminate.
Qed.
Lemma monos_length po nx : length (monos po nx) = n_regr po nx.
Proof. rewrite <- (regr_length po nx (fun _ => 0)), regr_monos, map_length. reflexivity. Qed.
Lemma fvec_mono po nx x j : (j < n_regr po nx)%nat -> fvec po nx x j = meval x (nth j (monos po nx) M1).
Proof.
  intros Hj. unfold fvec. rewrite regr_monos. rewrite (nth_indep _ 0 (meval x M1)) by (rewrite map_length, monos_length; exact Hj). apply map_nth.
Qed.
Lemma mono_dec (a b : mono) : {a = b} + {a <> b}.
Proof. decide equality; apply Nat.eq_dec. Defined.
Fixpoint pos (a : mono) (l : list mono) : nat := match l with [] => 0%nat | b :: r => if mono_dec a b then 0%nat else S (pos a r) end.
Lemma pos_lt a l : In a l -> (pos a l < length l)%nat.
Proof. induction l as [|b r IH]; intros H; [destruct H|]. cbn. destruct (mono_dec a b); [lia|]. destruct H as [->|H]; [contradiction|]. specialize (IH H). lia. Qed.
Lemma pos_nth a l : In a l -> nth (pos a l) l M1 = a.
Proof. induction l as [|b r IH]; intros H; [destruct H|]. cbn. destruct (mono_dec a b); [symmetry; assumption|]. destruct H as [->|H]; [contradiction|]. exact (IH H). Qed.
Section Swap.
Variables (nx : nat) (f : nat -> nat).
Hypothesis RO : reorder nx f.
Definition mperm (po : poly) (j : nat) : nat := pos (act f (nth j (monos po nx) M1)) (monos po nx).
Lemma act_in po m : In m (monos po nx) -> In (act f m) (monos po nx).
Proof.
  rewrite !monos_in. destruct m as [|i|i j]; cbn.
  - exact (fun x => x).
  - intros [H Hi]. split; [exact H|]. apply RO. exact Hi.
  - intros [H Hi]. pose proof (proj1 RO i ltac:(lia)). pose proof (proj1 RO j ltac:(lia)). destruct (Nat.leb_spec (f i) (f j)); cbn; (split; [exact H|lia]).
Qed.
Lemma act_inj po m m' : In m (monos po nx) -> In m' (monos po nx) -> act f m = act f m' -> m = m'.
Proof.
  rewrite !monos_in. destruct RO as [_ J]. destruct m as [|i|i j]; destruct m' as [|i'|i' j']; cbn; intros H H' E; try reflexivity; try discriminate;
    try (match type of E with context [Nat.leb ?a ?b] => destruct (Nat.leb a b) end; discriminate E).
  - injection E as E. rewrite (J i i'); [reflexivity|apply H|apply H'|exact E].
  - destruct H as [_ H], H' as [_ H']. destruct (Nat.leb_spec (f i) (f j)); destruct (Nat.leb_spec (f i') (f j')); injection E as E1 E2; apply J in E1; try lia; apply J in E2; try lia; f_equal; lia.
Qed.
Lemma mperm_reorder po : reorder (n_regr po nx) (mperm po).
Proof.
  assert (I : forall j, (j < n_regr po nx)%nat -> In (act f (nth j (monos po nx) M1)) (monos po nx)) by (intros j Hj; apply act_in; apply nth_In; rewrite monos_length; exact Hj).
  split.
  - intros j Hj. unfold mperm. rewrite <- monos_length. apply pos_lt. apply I. exact Hj.
  - intros i j Hi Hj E. unfold mperm in E. assert (E' : act f (nth i (monos po nx) M1) = act f (nth j (monos po nx) M1)) by (rewrite <- (pos_nth _ _ (I i Hi)), E; apply pos_nth; apply I; exact Hj).
    apply (act_inj po) in E'; [|apply nth_In; rewrite monos_length; assumption|apply nth_In; rewrite monos_length; assumption].
    apply (proj1 (NoDup_nth (monos po nx) M1) (monos_nodup po nx)); [rewrite monos_length; exact Hi|rewrite monos_length; exact Hj|exact E'].
Qed.
Lemma fvec_swap po x j : (j < n_regr po nx)%nat -> fvec po nx (swap_in f x) j = fvec po nx x (mperm po j).
Proof.
  intros Hj. rewrite fvec_mono by exact Hj. rewrite fvec_mono by (apply mperm_reorder; exact Hj). rewrite act_eval. unfold mperm. rewrite pos_nth; [reflexivity|]. apply act_in. apply nth_In. rewrite monos_length. exact Hj.
Qed.
(** ** correlations *)
Lemma rprod_perm (h : nat -> R) l l' : Permutation l l' -> fold_right Rmult 1 (map h l) = fold_right Rmult 1 (map h l').
Proof. intros P. induction P; cbn; [reflexivity|rewrite IHP; reflexivity|ring|rewrite IHP1; exact IHP2]. Qed.
Lemma rprod_list n (h : nat -> R) : rprod n h = fold_right Rmult 1 (map h (seq 0 n)).
Proof.
  assert (A : forall l a, fold_right Rmult a l = fold_right Rmult 1 l * a) by (induction l as [|b l IH]; intros a; cbn; [ring|rewrite IH; ring]).
  induction n as [|n IH]; [reflexivity|]. rewrite seq_S, map_app, fold_right_app. cbn. rewrite A, IH. ring.
Qed.
Lemma rprod_reorder (h : nat -> R) : rprod nx (fun j => h (f j)) = rprod nx h.
Proof. rewrite !rprod_list. rewrite <- (map_map f h). apply rprod_perm. apply Permutation_sym. apply reorder_perm. exact RO. Qed.
Lemma kd_swap s D : kd (swap_k f s) nx (swap_in f D) = kd s nx D.
Proof.
  destruct s as [c th|c nc co th]; cbn [swap_k kd].
  - assert (E : comp_dist c (swap_in f D) = swap_in f (comp_dist c D)) by (apply functional_extensionality; intros j; unfold comp_dist, swap_in; destruct c; reflexivity). rewrite E. generalize (comp_dist c D). intros d.
    assert (S1 : rsum nx (fun j => swap_in f th j * swap_in f d j) = rsum nx (fun j => th j * d j)) by apply (rsum_reorder nx f (fun j => th j * d j) RO).
    destruct c; cbn [kernel]; unfold k_exp, k_m52, k_m32, k_act; cbv zeta.
    + rewrite S1. reflexivity.
    + rewrite S1. reflexivity.
    + reflexivity.
    + rewrite S1. f_equal. apply (rprod_reorder (fun j => 1 + sqrt 5 * (th j * d j) + 5 / 3 * (th j * d j) ^ 2)).
    + rewrite S1. f_equal. apply (rprod_reorder (fun j => 1 + sqrt 3 * (th j * d j))).
  - assert (E : comp_dist_pls c nx (fun j => co (f j)) (swap_in f D) = comp_dist_pls c nx co D).
    { apply functional_extensionality. intros l. unfold comp_dist_pls, swap_in. destruct c; try apply (rsum_reorder nx f (fun j => Rabs (D j) * Rabs (co j l)) RO). apply (rsum_reorder nx f (fun j => D j ^ 2 * co j l ^ 2) RO). }
    rewrite E. reflexivity.
Qed.
Lemma kf_swap s u v : kf (swap_k f s) nx (swap_in f u) (swap_in f v) = kf s nx u v.
Proof. exact (kd_swap s (fun j => u j - v j)). Qed.
Lemma eff_swap s j : eff_theta (swap_k f s) j = eff_theta s (f j).
Proof. destruct s; reflexivity. Qed.
Lemma kcorr_swap s : k_corr (swap_k f s) = k_corr s.
Proof. destruct s; reflexivity. Qed.
Lemma eqb_f i j : (i < nx)%nat -> (j < nx)%nat -> Nat.eqb (f i) (f j) = Nat.eqb i j.
Proof. intros Hi Hj. destruct (Nat.eqb_spec i j) as [-> |N]; [apply Nat.eqb_refl|]. apply Nat.eqb_neq. intros E. apply N. apply RO; assumption. Qed.
Lemma kd_dx_swap s D kx : (kx < nx)%nat -> kd_dx (swap_k f s) nx (swap_in f D) kx = kd_dx s nx D (f kx).
Proof.
  intros Hk. pose proof (proj1 RO kx Hk) as Hf. destruct s as [c th|c nc co th].
  - cbn [kd_dx swap_k]. pose proof (kd_swap (KStd c th) D) as E. cbn [swap_k] in E. rewrite E. destruct c; cbn [kernel_dx]; try reflexivity.
    + assert (A : rsum nx (fun j => Rabs (swap_in f D j) * swap_in f th j) = rsum nx (fun j => Rabs (D j) * th j)) by apply (rsum_reorder nx f (fun j => Rabs (D j) * th j) RO). rewrite A.
      rewrite <- (rprod_reorder (fun l => if Nat.eqb l (f kx) then 1 else 1 + sqrt 5 * Rabs (D l) * th l + 5 / 3 * D l ^ 2 * th l ^ 2)).
      rewrite (rprod_ext nx (fun l => if Nat.eqb l kx then 1 else _) (fun j => if Nat.eqb (f j) (f kx) then 1 else 1 + sqrt 5 * Rabs (D (f j)) * th (f j) + 5 / 3 * D (f j) ^ 2 * th (f j) ^ 2)); [reflexivity|].
      intros j Hj. rewrite (eqb_f j kx Hj Hk). reflexivity.
    + assert (A : rsum nx (fun j => Rabs (swap_in f D j) * swap_in f th j) = rsum nx (fun j => Rabs (D j) * th j)) by apply (rsum_reorder nx f (fun j => Rabs (D j) * th j) RO). rewrite A.
      rewrite <- (rprod_reorder (fun l => if Nat.eqb l (f kx) then 1 else 1 + sqrt 3 * Rabs (D l) * th l)).
      rewrite (rprod_ext nx (fun l => if Nat.eqb l kx then 1 else _) (fun j => if Nat.eqb (f j) (f kx) then 1 else 1 + sqrt 3 * Rabs (D (f j)) * th (f j))); [reflexivity|].
      intros j Hj. rewrite (eqb_f j kx Hj Hk). reflexivity.
  - cbn [kd_dx swap_k]. pose proof (kd_swap (KPls c nc co th) D) as E. cbn [swap_k] in E. rewrite E. reflexivity.
Qed.
End Swap.
