From Coq Require Import Reals Arith Bool List Lia Lra FunctionalExtensionality.
From Verif Require Import RSum Mat Tri_M Tri_P Kernels_M Krg_M Krg_S Krg_P2 Krg_P4 Krg_P5 Order_P1 KrgMulti_M.
Import ListNotations.
Open Scope list_scope.
Open Scope R_scope.

Lemma sq_dot n (v : vec) : rsum n (fun i => v i ^ 2) = dot n v v. Proof. apply rsum_ext. intros. ring. Qed.
Lemma nth_ravel m row xs e j d : (e < length xs)%nat -> (j < mm_ny m)%nat -> entry m (ravel m row xs) e j = row (nth e xs d) j.
Proof.
  unfold entry, ravel. revert e. induction xs as [|x xs IH]; intros e He Hj; [cbn in He; lia|]. cbn [flat_map]. destruct e as [|e].
  - rewrite app_nth1 by (rewrite map_length, seq_length; lia). cbn [nth]. rewrite Nat.mul_0_l, Nat.add_0_l.
    rewrite (nth_indep _ 0 (row x 0%nat)) by (rewrite map_length, seq_length; exact Hj). rewrite (map_nth (row x)), seq_nth by exact Hj. reflexivity.
  - rewrite app_nth2 by (rewrite map_length, seq_length; lia). rewrite map_length, seq_length. replace (S e * mm_ny m + j - mm_ny m)%nat with (e * mm_ny m + j)%nat by lia. cbn [nth]. apply IH; [cbn in He; lia|exact Hj].
Qed.

Section One.
Variables (qr : nat -> nat -> mat -> mat * mat) (rcond : nat -> mat -> R) (condF : nat -> nat -> mat -> R).
(** the column of one output *)
Lemma column nt p ny Rm F Yn ys j : (j < ny)%nat ->
  match likelihood_multi qr rcond condF nt p ny Rm F Yn ys with
  | MFit v pr => exists w, reduced_likelihood qr rcond condF nt p (INR nt) Rm F (fun i => Yn i j) (ys j) =
      Fit w {| p_sigma2 := q_sigma2 pr j; p_beta := (fun k => q_beta pr k j); p_gamma := (fun i => q_gamma pr i j); p_C := q_C pr; p_Ft := q_Ft pr; p_G := q_G pr; p_Q := q_Q pr |}
  | MBadTheta => reduced_likelihood qr rcond condF nt p (INR nt) Rm F (fun i => Yn i j) (ys j) = BadTheta
  | MIllF => reduced_likelihood qr rcond condF nt p (INR nt) Rm F (fun i => Yn i j) (ys j) = IllF
  end.
Proof.
  intros Hj. unfold likelihood_multi, reduced_likelihood. destruct (cholesky nt Rm) as [C|]; [|reflexivity]. cbv zeta.
  destruct (qr nt p (fun i j => solve_triangular nt C (fun a => F a j) true i)) as [Q G]. destruct (Rlt_dec (rcond p G) (1 / 10 ^ 10)); [destruct (Rlt_dec (10 ^ 15) (condF nt p F)); reflexivity|].
  eexists. f_equal. f_equal. cbn [q_sigma2]. f_equal. f_equal. symmetry. apply sq_dot.
Qed.
(** sigma2 of the standardised output *)
Definition sg (nt p : nat) (C Ft Q G : mat) (y : vec) : R :=
  let Yt := solve_triangular nt C y true in let beta := solve_triangular p G (mv nt (tr Q) Yt) false in
  let rho := fun i => Yt i - mv p Ft beta i in dot nt rho rho / INR nt.
Lemma value_multi nt p ny Rm F Yn ys v pr : likelihood_multi qr rcond condF nt p ny Rm F Yn ys = MFit v pr ->
  v = - INR nt * log10 (rsum ny (fun j => sg nt p (q_C pr) (q_Ft pr) (q_Q pr) (q_G pr) (fun i => Yn i j))) - INR nt * log10 (rprod nt (fun i => Rpower (q_C pr i i) (2 / INR nt))).
Proof.
  unfold likelihood_multi. destruct (cholesky nt Rm) as [C|]; [|discriminate]. cbv zeta.
  destruct (qr nt p (fun i j => solve_triangular nt C (fun a => F a j) true i)) as [Q G]. destruct (Rlt_dec (rcond p G) (1 / 10 ^ 10)); [destruct (Rlt_dec (10 ^ 15) (condF nt p F)); discriminate|].
  intros [= <- <-]. cbn [q_C q_Ft q_Q q_G]. f_equal. f_equal. f_equal. apply rsum_ext. intros j Hj. unfold sg. cbv zeta. f_equal. apply sq_dot.
Qed.
Lemma value_one nt p Rm F y ys v pr : reduced_likelihood qr rcond condF nt p (INR nt) Rm F y ys = Fit v pr ->
  v = - INR nt * log10 (sg nt p (p_C pr) (p_Ft pr) (p_Q pr) (p_G pr) y) - INR nt * log10 (rprod nt (fun i => Rpower (p_C pr i i) (2 / INR nt))) /\
  p_sigma2 pr = sg nt p (p_C pr) (p_Ft pr) (p_Q pr) (p_G pr) y * ys ^ 2.
Proof.
  unfold reduced_likelihood. destruct (cholesky nt Rm) as [C|]; [|discriminate]. cbv zeta.
  destruct (qr nt p (fun i j => solve_triangular nt C (fun a => F a j) true i)) as [Q G]. destruct (Rlt_dec (rcond p G) (1 / 10 ^ 10)); [destruct (Rlt_dec (10 ^ 15) (condF nt p F)); discriminate|].
  intros [= <- <-]. split; reflexivity.
Qed.
(** the parameters other than those of an output do not depend on the outputs *)
Lemma multi_core nt p ny ny' Rm F Yn Yn' ys ys' :
  match likelihood_multi qr rcond condF nt p ny Rm F Yn ys, likelihood_multi qr rcond condF nt p ny' Rm F Yn' ys' with
  | MFit _ pr, MFit _ pr' => q_C pr' = q_C pr /\ q_Ft pr' = q_Ft pr /\ q_G pr' = q_G pr /\ q_Q pr' = q_Q pr
  | MBadTheta, MBadTheta => True
  | MIllF, MIllF => True
  | _, _ => False
  end.
Proof.
  unfold likelihood_multi. destruct (cholesky nt Rm) as [C|]; [|exact I]. cbv zeta.
  destruct (qr nt p (fun i j => solve_triangular nt C (fun a => F a j) true i)) as [Q G]. destruct (Rlt_dec (rcond p G) (1 / 10 ^ 10)); [destruct (Rlt_dec (10 ^ 15) (condF nt p F)); exact I|]. repeat split.
Qed.
Lemma one_core nt p ny Rm F Yn ys y s :
  match likelihood_multi qr rcond condF nt p ny Rm F Yn ys, reduced_likelihood qr rcond condF nt p (INR nt) Rm F y s with
  | MFit _ pr, Fit _ pr' => p_C pr' = q_C pr /\ p_Ft pr' = q_Ft pr /\ p_G pr' = q_G pr /\ p_Q pr' = q_Q pr
  | MBadTheta, BadTheta => True
  | MIllF, IllF => True
  | _, _ => False
  end.
Proof.
  unfold likelihood_multi, reduced_likelihood. destruct (cholesky nt Rm) as [C|]; [|exact I]. cbv zeta.
  destruct (qr nt p (fun i j => solve_triangular nt C (fun a => F a j) true i)) as [Q G]. destruct (Rlt_dec (rcond p G) (1 / 10 ^ 10)); [destruct (Rlt_dec (10 ^ 15) (condF nt p F)); exact I|]. repeat split.
Qed.

Lemma fsub_mul L b c n : forall i, fsub L (fun k => c * b k) n i = c * fsub L b n i.
Proof.
  induction n as [|n IH]; intros i; cbn [fsub]; [ring|]. cbv zeta. unfold upd. destruct (Nat.eqb i n); [|apply IH].
  rewrite (rsum_ext n (fun j => L n j * fsub L (fun k => c * b k) n j) (fun j => c * (L n j * fsub L b n j))) by (intros; rewrite IH; ring). rewrite rsum_scal_l. unfold Rdiv. ring.
Qed.
Lemma bsub_mul n U b c k : forall i, bsub n U (fun a => c * b a) k i = c * bsub n U b k i.
Proof.
  induction k as [|k IH]; intros i; cbn [bsub]; [ring|]. cbv zeta. unfold upd. destruct (Nat.eqb i (n - S k)); [|apply IH].
  rewrite (rsum_ext k (fun j => U (n - S k)%nat (S (n - S k) + j)%nat * bsub n U (fun a => c * b a) k (S (n - S k) + j)%nat) (fun j => c * (U (n - S k)%nat (S (n - S k) + j)%nat * bsub n U b k (S (n - S k) + j)%nat))) by (intros; rewrite IH; ring).
  rewrite rsum_scal_l. unfold Rdiv. ring.
Qed.
Lemma sg_ext nt p C Ft Q G y y' : (forall i, (i < nt)%nat -> y i = y' i) -> sg nt p C Ft Q G y = sg nt p C Ft Q G y'.
Proof.
  intros H. unfold sg, solve_triangular. cbv zeta. assert (E : fsub C y nt = fsub C y' nt) by (apply functional_extensionality; apply fsub_ext; [reflexivity|exact H]). rewrite E. reflexivity.
Qed.
Lemma sg_mul nt p C Ft Q G c y : sg nt p C Ft Q G (fun i => c * y i) = c ^ 2 * sg nt p C Ft Q G y.
Proof.
  unfold sg, solve_triangular. cbv zeta. rewrite (functional_extensionality _ _ (fsub_mul C y c nt)).
  replace (mv nt (tr Q) (fun i => c * fsub C y nt i)) with (fun k => c * mv nt (tr Q) (fsub C y nt) k) by (apply functional_extensionality; intros k; unfold mv; rewrite <- rsum_scal_l; apply rsum_ext; intros; ring).
  rewrite (functional_extensionality _ _ (bsub_mul p G (mv nt (tr Q) (fsub C y nt)) c p)). set (b := bsub p G (mv nt (tr Q) (fsub C y nt)) p).
  unfold dot. unfold Rdiv. rewrite <- Rmult_assoc, <- rsum_scal_l. f_equal. apply rsum_ext. intros i Hi.
  replace (mv p Ft (fun k => c * b k) i) with (c * mv p Ft b i) by (unfold mv; rewrite <- rsum_scal_l; apply rsum_ext; intros; ring). ring.
Qed.
End One.
