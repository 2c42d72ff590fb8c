(** IDW, RBF, LS and QP with the input variables in another order; the routines of Krg_Qr.v do not depend on the order of columns. *)
From Coq Require Import Reals Arith Bool List Lia Lra FunctionalExtensionality.
From Coquelicot Require Import Coquelicot.
From Verif Require Import RSum Mat Tri_P Krg_M Krg_S Krg_P2 Krg_Qr Idw_M Idw_P Rbf_M Rbf_S Rbf_P Poly_M Poly_P Poly_P2 Psd Psd2 Het_S Het_P4 Order_P1 Order_P2 Order_P6 Trend_T Inp_S Inp_P1 Inp_P2.
Import ListNotations.
Open Scope list_scope.
Open Scope R_scope.
Lemma mv_cols p g h (G : mat) (x : vec) k : reorder p g -> (forall j, (j < p)%nat -> h (g j) = j) -> mv p (fun k j => G k (g j)) x k = mv p G (fun j => x (h j)) k.
Proof.
  intros RG HG. unfold mv. rewrite <- (rsum_reorder p g (fun j => G k j * x (h j)) RG). apply rsum_ext. intros j Hj. rewrite HG by exact Hj. reflexivity.
Qed.
Lemma sq_gram p (H : mat) (x : vec) : dot p (mv p H x) (mv p H x) = rsum p (fun a => rsum p (fun c => x a * x c * rsum p (fun k => H k a * H k c))).
Proof.
  unfold dot, mv. rewrite (rsum_ext p _ (fun k => rsum p (fun a => rsum p (fun c => x a * x c * (H k a * H k c))))).
  - rewrite rsum_swap. apply rsum_ext. intros a Ha. rewrite rsum_swap. apply rsum_ext. intros c Hc. rewrite rsum_scal_l. reflexivity.
  - intros k Hk. rewrite <- rsum_scal_r. apply rsum_ext. intros a Ha. rewrite <- rsum_scal_l. apply rsum_ext. intros c Hc. ring.
Qed.
Lemma rcond01_cols : rcond_cols rcond01.
Proof.
  intros p G G' g RG U U' E. destruct (reorder_inv p g RG) as (h & RH & GH & HG).
  assert (Q : forall x, dot p (mv p G' x) (mv p G' x) = dot p (mv p G (fun j => x (h j))) (mv p G (fun j => x (h j)))).
  { intros x. rewrite sq_gram. rewrite (rsum_ext p _ (fun a => rsum p (fun c => x a * x c * rsum p (fun k => G k (g a) * G k (g c))))) by (intros a Ha; apply rsum_ext; intros c Hc; rewrite E by assumption; reflexivity).
    rewrite <- (sq_gram p (fun k j => G k (g j)) x). apply dot_ext; intros k Hk; apply (mv_cols p g h G x k RG HG). }
  assert (A : forall H, (forall i j, (i < p)%nat -> (j < i)%nat -> H i j = 0) -> (rprod p (fun i => H i i) <> 0 <-> forall x, dot p (mv p H x) (mv p H x) = 0 -> forall i, (i < p)%nat -> x i = 0)).
  { intros H UH. split.
    - intros N x Hx. apply (upper_inj p H UH (proj2 (rprod_nz p (fun i => H i i)) N)). apply dot_self_zero. exact Hx.
    - intros K. apply rprod_nz. apply (upper_diagnz p H UH). intros x Hx. apply K. apply dot_zero_r. exact Hx. }
  assert (I : rprod p (fun i => G i i) <> 0 <-> rprod p (fun i => G' i i) <> 0).
  { rewrite (A G U), (A G' U'). split; intros K x Hx i Hi.
    - rewrite Q in Hx. specialize (K _ Hx (g i) (proj1 RG i Hi)). cbn beta in K. rewrite HG in K by exact Hi. exact K.
    - specialize (K (fun j => x (g j))). rewrite Q in K. cbn beta in K. rewrite (dot_ext p _ _ (mv p G x) (mv p G x)) in K by (intros k Hk; apply mv_ext; [reflexivity|intros j Hj; rewrite GH by exact Hj; reflexivity]).
      specialize (K Hx (h i) (proj1 RH i Hi)). rewrite GH in K by exact Hi. exact K. }
  unfold rcond01. destruct (Req_EM_T (rprod p (fun i => G i i)) 0) as [Z|N]; destruct (Req_EM_T (rprod p (fun i => G' i i)) 0) as [Z'|N']; try reflexivity; exfalso.
  - apply (proj2 I N'). exact Z.
  - apply (proj1 I N). exact Z'.
Qed.
Lemma cond0_cols : cond_cols cond0.
Proof. intros n p F F' f _ _. reflexivity. Qed.
Section Sw.
Variables (nx nt : nat) (f : nat -> nat) (xt : nat -> vec) (yt : vec).
Hypothesis RO : reorder nx f.
Let xt' : nat -> vec := fun i => swap_in f (xt i).
(** ** IDW *)
Lemma r2_swap x : idw_r2 nx xt' (swap_in f x) = idw_r2 nx xt x.
Proof. apply functional_extensionality. intros it. apply (rsum_reorder nx f (fun ix => (x ix - xt it ix) ^ 2) RO). Qed.
Lemma min_swap x : idw_min nx nt xt' (swap_in f x) = idw_min nx nt xt x.
Proof. unfold idw_min. rewrite r2_swap. reflexivity. Qed.
Lemma idww_swap p x : idw_w nx p xt' (swap_in f x) = idw_w nx p xt x.
Proof. unfold idw_w. rewrite r2_swap. reflexivity. Qed.
Lemma idw_swap p x : idw_value nx nt p xt' yt (swap_in f x) = idw_value nx nt p xt yt x.
Proof. unfold idw_value, idw_jac. rewrite min_swap, idww_swap. reflexivity. Qed.
Lemma idw_dswap p x kx : idw_derivative nx nt p xt' yt kx (swap_in f x) = idw_derivative nx nt p xt yt (f kx) x.
Proof.
  assert (W : idw_dw nx p xt' (swap_in f x) kx = idw_dw nx p xt x (f kx)) by (apply functional_extensionality; intros it; unfold idw_dw; rewrite r2_swap; reflexivity).
  unfold idw_derivative, idw_djac. rewrite min_swap, idww_swap, W. reflexivity.
Qed.
(** ** RBF *)
Variables (deg : degree) (d0 : vec) (reg : R).
Let d0' : vec := swap_in f d0.
Let h (j : nat) : nat := match deg with Linear => if Nat.leb (nt + 1) j then (nt + 1 + f (j - (nt + 1)))%nat else j | _ => j end.
Lemma radial_swap x it : rbf_radial nx d0' xt' (swap_in f x) it = rbf_radial nx d0 xt x it.
Proof. unfold rbf_radial. cbv zeta. do 2 f_equal. apply (rsum_reorder nx f (fun ix => ((x ix - xt it ix) / d0 ix) ^ 2) RO). Qed.
Lemma h_lt j : (j < nt)%nat -> h j = j.
Proof. intros L. unfold h. destruct deg; try reflexivity. destruct (Nat.leb_spec (nt + 1) j); [lia|reflexivity]. Qed.
Lemma h_ge j : (nt <= j)%nat -> (nt <= h j)%nat.
Proof. intros L. unfold h. destruct deg; try exact L. destruct (Nat.leb_spec (nt + 1) j); lia. Qed.
Lemma h_dof j : (j < num_dof nx nt deg)%nat -> (h j < num_dof nx nt deg)%nat.
Proof.
  unfold num_dof, num_poly, h. destruct deg; try (intros H; exact H). intros H. destruct (Nat.leb_spec (nt + 1) j); [|exact H]. pose proof (proj1 RO (j - (nt + 1))%nat ltac:(lia)). lia.
Qed.
Lemma jac_swap x j : rbf_jac nx nt deg d0' xt' (swap_in f x) j = rbf_jac nx nt deg d0 xt x (h j).
Proof.
  unfold rbf_jac. destruct (Nat.ltb_spec j nt) as [L|L].
  - rewrite (h_lt j L). apply Nat.ltb_lt in L. rewrite L. apply radial_swap.
  - pose proof (h_ge j L) as L'. apply Nat.ltb_ge in L'. rewrite L'. unfold h. destruct deg; try reflexivity. destruct (Nat.eqb_spec j nt) as [-> |N].
    + destruct (Nat.leb_spec (nt + 1) nt); [lia|]. rewrite Nat.eqb_refl. reflexivity.
    + destruct (Nat.leb_spec (nt + 1) j); [|lia]. destruct (Nat.eqb_spec (nt + 1 + f (j - (nt + 1))) nt); [lia|]. unfold swap_in. f_equal. lia.
Qed.
Lemma djac_swap x kx j : (kx < nx)%nat -> (j < num_dof nx nt deg)%nat -> rbf_djac nx nt deg d0' xt' kx (swap_in f x) j = rbf_djac nx nt deg d0 xt (f kx) x (h j).
Proof.
  intros Hk Hd. unfold rbf_djac. destruct (Nat.ltb_spec j nt) as [L|L].
  - rewrite (h_lt j L). apply Nat.ltb_lt in L. rewrite L. cbv zeta. f_equal. pose proof (radial_swap x j) as Q. unfold rbf_radial in Q. cbv zeta in Q. rewrite Q. reflexivity.
  - pose proof (h_ge j L) as L'. apply Nat.ltb_ge in L'. rewrite L'. unfold h. unfold num_dof, num_poly in Hd. destruct deg; try reflexivity. destruct (Nat.leb_spec (nt + 1) j) as [G|G].
    + destruct (Nat.eqb_spec j (nt + 1 + kx)) as [-> |N].
      * replace (nt + 1 + kx - (nt + 1))%nat with kx by lia. rewrite Nat.eqb_refl. reflexivity.
      * destruct (Nat.eqb_spec (nt + 1 + f (j - (nt + 1))) (nt + 1 + f kx)) as [E|_]; [|reflexivity]. exfalso. apply N. assert (EE : (j - (nt + 1))%nat = kx); [|lia]. apply RO; lia.
    + destruct (Nat.eqb_spec j (nt + 1 + kx)); [lia|]. destruct (Nat.eqb_spec j (nt + 1 + f kx)); [lia|]. reflexivity.
Qed.
Lemma h_sum (w : vec) : rsum (num_dof nx nt deg) (fun j => w (h j)) = rsum (num_dof nx nt deg) w.
Proof.
  unfold num_dof. rewrite !rsum_app. f_equal.
  - apply rsum_ext. intros j Hj. rewrite h_lt by exact Hj. reflexivity.
  - unfold num_poly, h. destruct deg; try reflexivity. rewrite !rsum_S_l. f_equal.
    + destruct (Nat.leb_spec (nt + 1) (nt + 0)); [lia|reflexivity].
    + rewrite <- (rsum_reorder nx f (fun i => w (nt + S i)%nat) RO). apply rsum_ext. intros i Hi. destruct (Nat.leb_spec (nt + 1) (nt + S i)); [|lia]. f_equal. replace (nt + S i - (nt + 1))%nat with i by lia. lia.
Qed.
Lemma rbfv_swap sol x : rbf_value nx nt deg d0' xt' (fun j => sol (h j)) (swap_in f x) = rbf_value nx nt deg d0 xt sol x.
Proof.
  unfold rbf_value, dot. rewrite <- (h_sum (fun j => rbf_jac nx nt deg d0 xt x j * sol j)). apply rsum_ext. intros j Hj. rewrite jac_swap. reflexivity.
Qed.
Lemma rbfd_swap sol x kx : (kx < nx)%nat -> rbf_derivative nx nt deg d0' xt' (fun j => sol (h j)) kx (swap_in f x) = rbf_derivative nx nt deg d0 xt sol (f kx) x.
Proof.
  intros Hk. unfold rbf_derivative, dot. rewrite <- (h_sum (fun j => rbf_djac nx nt deg d0 xt (f kx) x j * sol j)). apply rsum_ext. intros j Hj. rewrite djac_swap by assumption. reflexivity.
Qed.
Lemma solves_swap sol : rbf_solves nx nt deg d0 xt reg yt sol -> rbf_solves nx nt deg d0' xt' reg yt (fun j => sol (h j)).
Proof.
  intros S i Hi. destruct (lt_dec i nt) as [L|L].
  - rewrite (mv_row nx nt deg d0' xt' reg _ i L). unfold xt' at 2. rewrite rbfv_swap. pose proof (S i Hi) as Q. rewrite (mv_row nx nt deg d0 xt reg sol i L) in Q. rewrite (h_lt i L). exact Q.
  - assert (G : (nt <= i)%nat) by lia. rewrite (mv_low nx nt deg d0' xt' reg _ i G). pose proof (S (h i) (h_dof i Hi)) as Q. rewrite (mv_low nx nt deg d0 xt reg sol (h i) (h_ge i G)) in Q.
    unfold rbf_rhs in *. pose proof (proj2 (Nat.ltb_ge i nt) G) as GB. pose proof (proj2 (Nat.ltb_ge (h i) nt) (h_ge i G)) as GB'. rewrite GB. rewrite GB' in Q. rewrite <- Q. apply rsum_ext. intros j Hj. unfold xt' at 2. rewrite jac_swap, (h_lt j Hj). reflexivity.
Qed.
Lemma rbf_swap sol sol' : (forall k, (k < nx)%nat -> d0 k <> 0) -> 0 <= reg -> (reg = 0 -> distinct nx nt xt) -> trend_full_rank nx nt deg xt ->
  rbf_solves nx nt deg d0 xt reg yt sol -> rbf_solves nx nt deg d0' xt' reg yt sol' ->
  forall x, rbf_value nx nt deg d0' xt' sol' (swap_in f x) = rbf_value nx nt deg d0 xt sol x /\
    forall kx, (kx < nx)%nat -> rbf_derivative nx nt deg d0' xt' sol' kx (swap_in f x) = rbf_derivative nx nt deg d0 xt sol (f kx) x.
Proof.
  intros Hd Hr Di Fr S S' x. destruct (reorder_inv nx f RO) as (q & RQ & FQ & QF).
  assert (U : forall i, (i < num_dof nx nt deg)%nat -> sol' i = sol (h i)).
  { apply (unique nx nt deg d0' xt' reg yt sol' (fun j => sol (h j))); [|exact Hr| | |exact S'|exact (solves_swap sol S)].
    - intros k Hk. apply Hd. apply RO. exact Hk.
    - intros Z i j Hi Hj Nij E. apply (Di Z i j Hi Hj Nij). intros k Hk. specialize (E (q k) (proj1 RQ k Hk)). unfold xt', swap_in in E. rewrite FQ in E by exact Hk. exact E.
    - intros a b. specialize (Fr a (fun k => b (q k))). destruct deg; [exact I|exact Fr|]. intros H. destruct Fr as [F1 F2].
      + intros i Hi. rewrite <- (H i Hi). f_equal. rewrite <- (rsum_reorder nx f (fun k => b (q k) * xt i k) RO). apply rsum_ext. intros k Hk. rewrite QF by exact Hk. reflexivity.
      + split; [exact F1|]. intros k Hk. specialize (F2 (f k) (proj1 RO k Hk)). cbn beta in F2. rewrite QF in F2 by exact Hk. exact F2. }
  split.
  - rewrite <- rbfv_swap. unfold rbf_value. apply dot_ext; [reflexivity|exact U].
  - intros kx Hk. rewrite <- rbfd_swap by exact Hk. unfold rbf_derivative. apply dot_ext; [reflexivity|exact U].
Qed.
End Sw.
