(** C113: statements about trained models and about the EGO loop. *)
From Coq Require Import Reals QArith Qreals Arith Bool List Lia Lra FunctionalExtensionality Permutation Classical_Prop.
From Verif Require Import RSum Mat Kernels_M Krg_M Krg_S Krg_P Krg_P2 Krg_P3 Krg_P8 EgoEI_M EgoEI_S EgoEI_P Gauss_P EgoKrg_M EgoKrg_P Ego_M Ego_P.
Import ListNotations.
Open Scope list_scope.
Open Scope R_scope.

Lemma variance_congr m x x' : (forall k, (k < m_nx m)%nat -> x k = x' k) -> predict_variance m x = predict_variance m x'.
Proof.
  intros E. assert (Er : rvec m x = rvec m x'). { apply functional_extensionality. intros i. apply kd_ext. intros j Hj. unfold xn. rewrite (E j Hj). reflexivity. }
  assert (Ef : fvec (m_poly m) (m_nx m) (xn m x) = fvec (m_poly m) (m_nx m) (xn m x')). { apply functional_extensionality. intros j. apply fvec_ext. intros k Hk. unfold xn. rewrite (E k Hk). reflexivity. }
  unfold predict_variance, u_rhs, rt. rewrite Er, Ef. reflexivity.
Qed.
Section T.
Variables (qr : nat -> nat -> mat -> mat * mat) (rcond : nat -> mat -> R) (condF : nat -> nat -> mat -> R).
Hypotheses (HQ : qr_contract qr) (HR : rcond_contract rcond).
Variables (nx nt : nat) (po : poly) (nugget : R) (noise : vec) (X : nat -> vec) (y : vec) (m : model).
Hypothesis (Nn : forall i, (i < nt)%nat -> 0 <= nugget + noise i).
Lemma zero_iff c theta x : krg_train qr rcond condF nx nt po (KStd c theta) nugget noise X y = Some m -> c <> ActExp -> (forall j, (j < nx)%nat -> 0 < theta j) -> (0 < nx)%nat ->
  (predict_variance m x = 0 <-> p_sigma2 (m_par m) = 0 \/ exists i, (i < nt)%nat /\ (forall k, (k < nx)%nat -> x k = X i k) /\ nugget + noise i = 0).
Proof.
  intros Hm Hc Ht Hx. pose proof (train_inv qr rcond condF nx nt po _ nugget noise X y m HQ HR Hm) as T. assert (K : k_ok (KStd c theta) nx) by (split; [exact Hc|intros j Hj; apply Rlt_le, Ht, Hj]). split.
  - intros Z. destruct (sigma2_nonneg _ _ _ _ _ _ _ _ _ T) as [S2|S2]; [right|left; symmetry; exact S2].
    destruct (Classical_Prop.classic (exists i, (i < nt)%nat /\ (forall k, (k < nx)%nat -> x k = X i k) /\ nugget + noise i = 0)) as [E|N]; [exact E|exfalso].
    assert (P : 0 < predict_variance m x); [|lra]. apply (variance_pos nx nt po c theta nugget noise X y m T Hc Ht Nn Hx x); [|exact S2].
    intros i Hi Gi E. apply N. exists i. split; [exact Hi|]. split; [|exact Gi]. intros k Hk. specialize (E k Hk). unfold xq, Xnorm in E. set (sc := scale1 nt _) in *. set (mu := mean nt _) in *. assert (sc <> 0) by apply scale1_nz.
    apply (Rmult_eq_compat_r sc) in E. unfold Rdiv in E. rewrite !Rmult_assoc, Rinv_l, !Rmult_1_r in E by assumption. lra.
  - intros [S2|(i & Hi & E & G)].
    + rewrite (variance_eq nx nt po _ nugget noise X y m T K Nn), S2. ring.
    + rewrite (variance_congr m x (X i)). 2:{ intros k Hk. apply E. rewrite (t_m _ _ _ _ _ _ _ _ _ T) in Hk. exact Hk. }
      exact (t_variance_train qr rcond condF HQ HR nx nt po _ nugget noise X y m Hm K Nn i Hi G).
Qed.
Lemma at_data_bound s i : po = PConstant -> krg_train qr rcond condF nx nt po s nugget noise X y = Some m -> k_ok s nx -> (i < nt)%nat ->
  0 <= predict_variance m (X i) <= p_sigma2 (m_par m) * (nugget + noise i).
Proof.
  intros Ep Hm K Hi. split; [apply variance_nonneg|]. pose proof (train_inv qr rcond condF nx nt po _ nugget noise X y m HQ HR Hm) as T.
  destruct (t_blup_all qr rcond condF HQ HR nx nt po s nugget noise X y m Hm) as [w B]. specialize (B (X i)).
  rewrite (t_variance_constant qr rcond condF HQ HR nx nt po s nugget noise X y m Hm K Nn (X i) (w (X i)) Ep B).
  apply Rmult_le_compat_l; [exact (sigma2_nonneg _ _ _ _ _ _ _ _ _ T)|]. destruct B as [U B]. unfold q_mse.
  set (e := fun a => if Nat.eqb a i then 1 else 0). eapply Rle_trans; [apply (B e)|].
  - intros j Hj. unfold e, d_trend, q_trend. rewrite (rsum_ext nt _ (fun a => if Nat.eqb a i then fvec po nx (q_std nt X (X a)) j else 0)) by (intros a _; destruct (Nat.eqb a i); ring). apply (rsum_single nt (fun a => fvec po nx (q_std nt X (X a)) j) i Hi).
  - right. unfold mse, dot, e. rewrite (rsum_ext nt _ (fun a => if Nat.eqb a i then mv nt (d_corr nx nt s nugget noise X) (fun a => if Nat.eqb a i then 1 else 0) a else 0)) by (intros a _; destruct (Nat.eqb a i); ring). rewrite rsum_single by exact Hi.
    rewrite (rsum_ext nt (fun a => (if Nat.eqb a i then 1 else 0) * q_corr nx nt s X (X i) a) (fun a => if Nat.eqb a i then q_corr nx nt s X (X i) a else 0)) by (intros a _; destruct (Nat.eqb a i); ring). rewrite rsum_single by exact Hi.
    unfold mv. rewrite (rsum_ext nt _ (fun a => if Nat.eqb a i then d_corr nx nt s nugget noise X i a else 0)) by (intros a _; destruct (Nat.eqb a i); ring). rewrite rsum_single by exact Hi.
    unfold d_corr, q_corr. rewrite Nat.eqb_refl, kf_diag. ring.
Qed.
End T.
(** virtual outputs *)
Lemma np_min_le y0 ys : (np_min y0 ys <= y0) /\ (forall v, In v ys -> np_min y0 ys <= v) /\ (In (np_min y0 ys) (y0 :: ys)).
Proof.
  unfold np_min. revert y0. induction ys as [|v ys IH]; intros y0; cbn [fold_left].
  - split; [lra|]. split; [contradiction|]. left. reflexivity.
  - destruct (IH (Rmin y0 v)) as (A & B & C). pose proof (Rmin_l y0 v). pose proof (Rmin_r y0 v). split; [lra|]. split.
    + intros w [<-|W]; [lra|]. apply B. exact W.
    + destruct C as [C|C]; [|right; right; exact C]. rewrite <- C. unfold Rmin. destruct (Rle_dec y0 v); [left; reflexivity|right; left; reflexivity].
Qed.
Lemma np_min_app y0 ys v : np_min y0 (ys ++ [v]) = Rmin (np_min y0 ys) v.
Proof. unfold np_min. rewrite fold_left_app. reflexivity. Qed.
Lemma virtual_order z pred var y0 ys : 0 <= var -> virtual_point KBLB z pred var y0 ys <= virtual_point KB z pred var y0 ys <= virtual_point KBUB z pred var y0 ys.
Proof. intros H. cbn [virtual_point]. pose proof (sqrt_pos var). lra. Qed.
(** the EGO loop *)
Section E.
Context {Pt : Type}.
Variables (f : Pt -> Q) (fold : option (Pt -> Pt)) (n_max : nat).
Variable runs : nat -> nat -> list Pt -> list Q -> nat -> list (option (Pt * Q)).
Variable virtual : nat -> nat -> Pt -> list Pt -> list Q -> Q.
Open Scope nat_scope.
Lemma enrich_nodup : (forall k p xs ys x, find_best_point n_max (runs k p xs ys) = Some x -> length ys = length xs -> ~ In x xs) ->
  forall m k p xs ys xs' ys', NoDup xs -> length ys = length xs -> enrich n_max runs virtual k p m xs ys = (xs', ys') -> NoDup xs' /\ length ys' = length xs' /\ length xs <= length xs'.
Proof.
  intros H. induction m as [|m IH]; intros k p xs ys xs' ys' N L E; cbn [enrich] in E.
  - injection E as <- <-. auto.
  - destruct (find_best_point n_max (runs k p xs ys)) as [x|] eqn:F; [|injection E as <- <-; auto].
    specialize (H k p xs ys x F L). assert (A1 : NoDup (xs ++ [x])); [|assert (A2 : length (ys ++ [virtual k p x xs ys]) = length (xs ++ [x])); [|destruct (IH k (p + 1) (xs ++ [x]) (ys ++ [virtual k p x xs ys]) xs' ys' A1 A2 E) as (A & B & C)]].
    + assert (P : NoDup (x :: xs)) by (constructor; assumption). eapply Permutation_NoDup; [|exact P]. apply Permutation_cons_append.
    + rewrite !app_length, L. reflexivity.
    + split; [exact A|]. split; [exact B|]. rewrite app_length in C. lia.
Qed.
Lemma set_tail_length {A} n (l v : list A) : n = 0 \/ length v <= n -> (length v <= length l) -> (n <> 0 -> length v = Nat.min n (length l)) -> (n = 0 -> length v = length l) -> length (set_tail n l v) = length l.
Proof.
  intros _ Hv Hn H0. unfold set_tail. destruct (Nat.eqb_spec n 0) as [->|N]; [apply H0; reflexivity|]. rewrite app_length, firstn_length, (Hn N). lia.
Qed.
Lemma tail_length {A} n (l : list A) : length (tail n l) = if Nat.eqb n 0 then length l else Nat.min n (length l).
Proof. unfold tail. destruct (Nat.eqb_spec n 0); [reflexivity|]. rewrite skipn_length. lia. Qed.
Lemma iterate_nodup np : (forall k p xs ys x, find_best_point n_max (runs k p xs ys) = Some x -> length ys = length xs -> ~ In x xs) ->
  forall n k xs ys xs' ys' cs, NoDup xs -> length ys = length xs -> iterate f fold n_max runs virtual np k n xs ys = (xs', ys', cs) -> NoDup xs'.
Proof.
  intros H. induction n as [|n IH]; intros k xs ys xs' ys' cs N L E; cbn [iterate] in E.
  - injection E as <- <- <-. exact N.
  - destruct (enrich n_max runs virtual k 0 np xs ys) as [xs1 ys1] eqn:F. destruct (enrich_nodup H np k 0 xs ys xs1 ys1 N L F) as (A & B & _).
    destruct (iterate f fold n_max runs virtual np (k + 1) n xs1 _) as [[xf yf] calls] eqn:G. injection E as <- <- <-. eapply IH; [exact A| |exact G].
    rewrite set_tail_length; [exact B| | | |]; rewrite ?map_length, tail_length, <- ?B.
    + destruct (Nat.eqb_spec np 0); [left; assumption|right; lia].
    + destruct (Nat.eqb_spec np 0); lia.
    + intros Z. destruct (Nat.eqb_spec np 0); [contradiction|reflexivity].
    + intros ->. reflexivity.
Qed.
Lemma enrich_grow : forall m k p xs ys xs' ys', enrich n_max runs virtual k p m xs ys = (xs', ys') -> length xs <= length xs'.
Proof.
  induction m as [|m IH]; intros k p xs ys xs' ys' E; cbn [enrich] in E; [injection E as <- <-; lia|].
  destruct (find_best_point n_max (runs k p xs ys)) as [x|]; [|injection E as <- <-; lia]. apply IH in E. rewrite app_length in E. lia.
Qed.
Lemma iterate_calls np : 0 < np -> forall n k xs ys xs' ys' cs, np <= length xs -> iterate f fold n_max runs virtual np k n xs ys = (xs', ys', cs) -> length cs = n * np.
Proof.
  intros P. induction n as [|n IH]; intros k xs ys xs' ys' cs L E; cbn [iterate] in E.
  - injection E as <- <- <-. reflexivity.
  - destruct (enrich n_max runs virtual k 0 np xs ys) as [xs1 ys1] eqn:F. apply enrich_grow in F.
    destruct (iterate f fold n_max runs virtual np (k + 1) n xs1 _) as [[xf yf] calls] eqn:G. injection E as <- <- <-. rewrite app_length, map_length, tail_length.
    destruct (Nat.eqb_spec np 0); [lia|]. assert (L1 : np <= length xs1) by lia. rewrite (IH _ _ _ _ _ _ L1 G). cbn [Nat.mul]. lia.
Qed.
Lemma budget np n_iter xdoe ydoe r : 0 < np <= length xdoe -> optimize f fold n_max runs virtual n_iter np xdoe ydoe = Some r ->
  length (calls r) = match ydoe with None => length xdoe | Some _ => 0 end + n_iter * np.
Proof.
  intros [P L] E. unfold optimize in E. destruct (match ydoe with Some ys => (ys, []) | None => (map f xdoe, xdoe) end) as [ys0 c0] eqn:Y.
  destruct (iterate f fold n_max runs virtual np 0 n_iter xdoe ys0) as [[xs ys] cs] eqn:G. destruct (argmin ys); [|discriminate]. destruct (nth_error xs n); [|discriminate]. destruct (nth_error ys n); [|discriminate].
  injection E as <-. cbn [calls]. rewrite app_length, (iterate_calls np P _ _ _ _ _ _ _ L G). f_equal. destruct ydoe; injection Y as <- <-; reflexivity.
Qed.
Lemma all_fail np n_iter xdoe ydoe r : 0 < np <= length xdoe -> (forall k p xs ys, find_best_point n_max (runs k p xs ys) = None) -> optimize f fold n_max runs virtual n_iter np xdoe ydoe = Some r ->
  x_data r = xdoe /\ calls r = match ydoe with None => xdoe | Some _ => [] end ++ concat (repeat (map (to_fun fold) (tail np xdoe)) n_iter).
Proof.
  intros [P L] H E. unfold optimize in E. destruct (match ydoe with Some ys => (ys, []) | None => (map f xdoe, xdoe) end) as [ys0 c0] eqn:Y.
  assert (I : forall n k ys, exists ys', iterate f fold n_max runs virtual np k n xdoe ys = (xdoe, ys', concat (repeat (map (to_fun fold) (tail np xdoe)) n))).
  { induction n as [|n IH]; intros k ys; cbn [iterate]; [exists ys; reflexivity|]. assert (EN : enrich n_max runs virtual k 0 np xdoe ys = (xdoe, ys)) by (destruct np as [|np']; [lia|]; cbn [enrich]; rewrite H; reflexivity). rewrite EN.
    destruct (IH (k + 1) (set_tail np ys (map f (map (to_fun fold) (tail np xdoe))))) as [ys' ->]. exists ys'. reflexivity. }
  destruct (I n_iter 0 ys0) as [ys' G]. rewrite G in E. destruct (argmin ys') as [n|]; [|discriminate]. destruct (nth_error xdoe n); [|discriminate]. destruct (nth_error ys' n); [|discriminate].
  injection E as <-. cbn [calls x_data]. split; [reflexivity|]. f_equal. destruct ydoe; injection Y as <- <-; reflexivity.
Qed.
Lemma optimize_nodup np n_iter xdoe ydoe r : (forall k p xs ys x, find_best_point n_max (runs k p xs ys) = Some x -> length ys = length xs -> ~ In x xs) -> NoDup xdoe ->
  match ydoe with Some ys => length ys = length xdoe | None => True end -> optimize f fold n_max runs virtual n_iter np xdoe ydoe = Some r -> NoDup (x_data r).
Proof.
  intros H N Ly E. unfold optimize in E. destruct (match ydoe with Some ys => (ys, []) | None => (map f xdoe, xdoe) end) as [ys0 c0] eqn:Y.
  destruct (iterate f fold n_max runs virtual np 0 n_iter xdoe ys0) as [[xs ys] cs] eqn:G. destruct (argmin ys); [|discriminate]. destruct (nth_error xs n); [|discriminate]. destruct (nth_error ys n); [|discriminate].
  injection E as <-. cbn [x_data]. eapply iterate_nodup; [exact H|exact N| |exact G]. destruct ydoe; injection Y as <- <-; [exact Ly|apply map_length].
Qed.
End E.
(** the model of EGO's surrogate for stored points (rows) and outputs *)
Definition row_vec (x : list R) : vec := fun j => nth j x 0.
Definition data_X (xs : list (list R)) : nat -> vec := fun i => row_vec (nth i xs []).
Definition data_y (ys : list Q) : vec := fun i => Q2R (nth i ys 0%Q).
Lemma no_repeats qr rcond condF cdf nx po (s : list (list R) -> list Q -> kspec) (f : list R -> Q) n_max runs virtual n_iter np xdoe ydoe r :
  qr_contract qr -> rcond_contract rcond ->
  (forall k p xs ys x, find_best_point n_max (runs k p xs ys) = Some x -> length ys = length xs ->
    exists m f_min, krg_train qr rcond condF nx (length xs) po (s xs ys) 0 (fun _ => 0) (data_X xs) (data_y ys) = Some m /\ k_ok (s xs ys) nx /\
      0 < EI cdf f_min (predict_value m (row_vec x)) (predict_variance m (row_vec x))) ->
  NoDup xdoe -> match ydoe with Some ys => length ys = length xdoe | None => True end -> optimize f None n_max runs virtual n_iter np xdoe ydoe = Some r -> NoDup (x_data r).
Proof.
  intros HQ HR H N Ly E. apply (optimize_nodup f None n_max runs virtual np n_iter xdoe ydoe r); [|exact N|exact Ly|exact E].
  intros k p xs ys x F L I. destruct (H k p xs ys x F L) as (m & fm & Hm & K & P). destruct (In_nth xs x [] I) as (i & Hi & Ei).
  assert (Z : predict_variance m (row_vec x) = 0). { rewrite <- Ei. change (row_vec (nth i xs [])) with (data_X xs i). apply (t_variance_train qr rcond condF HQ HR nx (length xs) po (s xs ys) 0 (fun _ => 0) (data_X xs) (data_y ys) m Hm K); [intros; lra|exact Hi|lra]. }
  rewrite Z, EI_novar in P. lra.
Qed.
