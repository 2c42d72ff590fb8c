(** Limits far from the data; kernels vanish there. *)
From Coq Require Import Reals Arith Bool List Lia Lra.
From Coquelicot Require Import Coquelicot.
From Verif Require Import RSum Mat Kernels_M Kernels_P Krg_M Krg_S Far_S.
Import ListNotations.
Open Scope R_scope.
Definition small (nx : nat) (f : vec -> R) : Prop := limit_far nx f (fun _ => 0).
Lemma away_mono nx D D' x : D <= D' -> away nx D' x -> away nx D x.
Proof. intros H (c & Hc & L). exists c. split; [exact Hc|lra]. Qed.
Lemma lim_ext nx f g f' g' : (forall x, f x = f' x) -> (forall x, g x = g' x) -> limit_far nx f g -> limit_far nx f' g'.
Proof. intros Ef Eg H eps He. destruct (H eps He) as [D HD]. exists D. intros x Hx. rewrite <- Ef, <- Eg. apply HD. exact Hx. Qed.
Lemma lim_small nx f g : small nx (fun x => f x - g x) -> limit_far nx f g.
Proof. intros H eps He. destruct (H eps He) as [D HD]. exists D. intros x Hx. specialize (HD x Hx). rewrite Rminus_0_r in HD. exact HD. Qed.
Lemma small_lim nx f g : limit_far nx f g -> small nx (fun x => f x - g x).
Proof. intros H eps He. destruct (H eps He) as [D HD]. exists D. intros x Hx. rewrite Rminus_0_r. apply HD. exact Hx. Qed.
Lemma small_0 nx : small nx (fun _ => 0).
Proof. intros eps He. exists 0. intros x _. rewrite Rminus_0_r, Rabs_R0. exact He. Qed.
Lemma small_ext nx f g : (forall x, f x = g x) -> small nx f -> small nx g.
Proof. intros E H. apply (lim_ext nx f (fun _ => 0)); [exact E|reflexivity|exact H]. Qed.
Lemma small_le nx f g K : (forall x, away nx K x -> Rabs (g x) <= f x) -> small nx f -> small nx g.
Proof.
  intros B H eps He. destruct (H eps He) as [D HD]. exists (Rmax D K). intros x Hx. rewrite Rminus_0_r.
  pose proof (B x (away_mono _ _ _ _ (Rmax_r D K) Hx)) as Bx. pose proof (HD x (away_mono _ _ _ _ (Rmax_l D K) Hx)) as Hf. rewrite Rminus_0_r in Hf. pose proof (Rle_abs (f x)). lra.
Qed.
Lemma small_plus nx f g : small nx f -> small nx g -> small nx (fun x => f x + g x).
Proof.
  intros Hf Hg eps He. destruct (Hf (eps / 2) ltac:(lra)) as [D1 H1]. destruct (Hg (eps / 2) ltac:(lra)) as [D2 H2]. exists (Rmax D1 D2). intros x Hx.
  specialize (H1 x (away_mono _ _ _ _ (Rmax_l D1 D2) Hx)). specialize (H2 x (away_mono _ _ _ _ (Rmax_r D1 D2) Hx)). rewrite Rminus_0_r in *. pose proof (Rabs_triang (f x) (g x)). lra.
Qed.
Lemma small_scal nx a f : small nx f -> small nx (fun x => a * f x).
Proof.
  intros H eps He. destruct (H (eps / (Rabs a + 1))) as [D HD]. { apply Rdiv_lt_0_compat; [exact He|]. pose proof (Rabs_pos a). lra. }
  exists D. intros x Hx. specialize (HD x Hx). rewrite Rminus_0_r in *. rewrite Rabs_mult. pose proof (Rabs_pos a) as Pa. pose proof (Rabs_pos (f x)) as Pf.
  assert (B : (Rabs a + 1) * Rabs (f x) < eps).
  { apply Rmult_lt_reg_r with (/ (Rabs a + 1)); [apply Rinv_0_lt_compat; lra|]. replace ((Rabs a + 1) * Rabs (f x) * / (Rabs a + 1)) with (Rabs (f x)) by (field; lra). exact HD. }
  nra.
Qed.
Lemma small_rsum nx n (f : nat -> vec -> R) : (forall i, (i < n)%nat -> small nx (f i)) -> small nx (fun x => rsum n (fun i => f i x)).
Proof. induction n as [|n IH]; intros H; cbn [rsum]; [apply small_0|]. apply small_plus; [apply IH; intros; apply H; lia|apply H; lia]. Qed.
Lemma small_dot nx n (r : vec -> vec) (g : vec) : (forall i, (i < n)%nat -> small nx (fun x => r x i)) -> small nx (fun x => dot n (r x) g).
Proof. intros H. unfold dot. apply (small_rsum nx n (fun i x => r x i * g i)). intros i Hi. apply (small_ext nx (fun x => g i * r x i)); [intros; ring|]. apply small_scal, H. exact Hi. Qed.
Lemma small_sqr nx f : small nx f -> small nx (fun x => f x ^ 2).
Proof.
  intros H eps He. destruct (H (Rmin 1 eps)) as [D HD]. { apply Rmin_pos; lra. } exists D. intros x Hx. specialize (HD x Hx). rewrite Rminus_0_r in *.
  pose proof (Rmin_l 1 eps). pose proof (Rmin_r 1 eps). rewrite <- RPow_abs. pose proof (Rabs_pos (f x)). nra.
Qed.
(** a finite family of one-coordinate bounds gives one bound *)
Lemma max_bound n (D : nat -> R) : exists M, forall c, (c < n)%nat -> D c <= M.
Proof.
  induction n as [|n [M IH]]; [exists 0; intros; lia|]. exists (Rmax M (D n)). intros c Hc. destruct (Nat.eq_dec c n) as [-> | N]; [apply Rmax_r|]. eapply Rle_trans; [apply IH; lia|apply Rmax_l].
Qed.
Lemma small_coord nx f : (forall c, (c < nx)%nat -> forall eps, 0 < eps -> exists D, forall x, D <= Rabs (x c) -> Rabs (f x) < eps) -> small nx f.
Proof.
  intros H eps He.
  assert (A : forall n, (n <= nx)%nat -> exists M, forall c, (c < n)%nat -> forall x, M <= Rabs (x c) -> Rabs (f x) < eps).
  { induction n as [|n IH]; intros Hn; [exists 0; intros; lia|]. destruct (IH ltac:(lia)) as [M HM]. destruct (H n ltac:(lia) eps He) as [D HD]. exists (Rmax M D). intros c Hc x Hx.
    destruct (Nat.eq_dec c n) as [-> | N]; [apply HD; eapply Rle_trans; [apply Rmax_r|exact Hx]|apply (HM c); [lia|]; eapply Rle_trans; [apply Rmax_l|exact Hx]]. }
  destruct (A nx (Nat.le_refl _)) as [M HM]. exists M. intros x (c & Hc & L). rewrite Rminus_0_r. exact (HM c Hc x L).
Qed.
(** ** the one-dimensional factors vanish at infinity *)
Lemma exp_cube a : 0 <= a -> a ^ 3 / 27 <= exp a.
Proof.
  intros H. replace a with (a / 3 + (a / 3 + a / 3)) at 2 by field. rewrite !exp_plus. pose proof (exp_ineq1_le (a / 3)) as E. pose proof (exp_pos (a / 3)) as P.
  assert (A : a / 3 <= exp (a / 3)) by lra. assert (B : a / 3 * (a / 3) <= exp (a / 3) * exp (a / 3)) by (apply Rmult_le_compat; lra).
  replace (a ^ 3 / 27) with (a / 3 * (a / 3 * (a / 3))) by field. apply Rmult_le_compat; try lra. nra.
Qed.
Lemma poly_exp a q : 1 <= a -> 0 <= q <= 1 + a + a ^ 2 / 3 -> q * exp (- a) <= 63 / a.
Proof.
  intros Ha Hq. pose proof (exp_cube a ltac:(lra)) as E. rewrite exp_Ropp. pose proof (exp_pos a) as P.
  apply Rmult_le_reg_r with (a * exp a); [nra|]. replace (q * / exp a * (a * exp a)) with (q * a) by (field; lra). replace (63 / a * (a * exp a)) with (63 * exp a) by (field; lra).
  assert (q <= 7 / 3 * a ^ 2) by nra. assert (q * a <= 7 / 3 * a ^ 2 * a) by (apply Rmult_le_compat_r; lra). nra.
Qed.
Lemma kap_decay c l : c <> ActExp -> 1 <= l -> kap c l <= 63 / l.
Proof.
  intros Hc H. destruct c; cbn [kap]; try congruence.
  - rewrite <- (Rmult_1_l (exp (- l))). apply poly_exp; nra.
  - rewrite <- (Rmult_1_l (exp (- l))). apply poly_exp; nra.
  - pose proof sqrt5_pos. pose proof sqrt5_sq. assert (1 <= sqrt 5) by nra. set (z := sqrt 5 * l). assert (Hz : l <= z) by (unfold z; nra).
    replace (- sqrt 5 * l) with (- z) by (unfold z; ring). replace (5 / 3 * l ^ 2) with (z ^ 2 / 3) by (unfold z; rewrite Rpow_mult_distr; replace (sqrt 5 ^ 2) with 5 by (cbn; lra); field).
    eapply Rle_trans; [apply poly_exp; nra|]. unfold Rdiv. apply Rmult_le_compat_l; [lra|]. apply Rinv_le_contravar; lra.
  - pose proof sqrt3_pos. pose proof sqrt3_sq. assert (1 <= sqrt 3) by nra. set (z := sqrt 3 * l). assert (Hz : l <= z) by (unfold z; nra).
    replace (- sqrt 3 * l) with (- z) by (unfold z; ring).
    eapply Rle_trans; [apply poly_exp; nra|]. unfold Rdiv. apply Rmult_le_compat_l; [lra|]. apply Rinv_le_contravar; lra.
Qed.
Lemma corr_decay c nx ns theta y k : c <> ActExp -> (forall j, (j < nx)%nat -> 0 <= theta j) -> (k < nx)%nat -> 0 < theta k ->
  forall eps, 0 < eps -> exists D, 1 <= D /\ forall x : vec, D <= Rabs (x k - y k) -> 0 < corr_of c nx ns theta x y < eps.
Proof.
  intros Hc T Hk Tk eps He. exists (1 + / theta k + 64 / (eps * theta k)).
  assert (P1 : 0 < / theta k) by (apply Rinv_0_lt_compat; exact Tk). assert (P2 : 0 < 64 / (eps * theta k)) by (apply Rdiv_lt_0_compat; [lra|apply Rmult_lt_0_compat; assumption]).
  split; [lra|]. intros x Hx. rewrite corr_prod by exact Hc. set (d := comp_dist c (fun j => x j - y j)).
  assert (Dn : forall j, 0 <= d j) by (intros; apply comp_dist_nonneg; exact Hc).
  assert (Dk : 1 + / theta k + 64 / (eps * theta k) <= d k).
  { eapply Rle_trans; [exact Hx|]. unfold d, comp_dist. destruct c; try congruence; try lra.
    assert (1 <= Rabs (x k - y k)) by lra. replace ((x k - y k) ^ 2) with (Rabs (x k - y k) ^ 2) by apply pow2_abs. nra. }
  set (f := fun j => kap c (theta j * d j)). assert (B : forall j, (j < nx)%nat -> 0 < f j <= 1) by (intros j Hj; apply kap_bounds, Rmult_le_pos; [apply T; exact Hj|apply Dn]).
  change (0 < rprod nx f < eps). split; [apply rprod_pos; intros; apply B; assumption|]. rewrite (rprod_split nx f k Hk).
  assert (B' : 0 < rprod nx (fun i => if Nat.eqb i k then 1 else f i) <= 1) by (apply rprod_bounds; intros i Hi; destruct (Nat.eqb i k); [lra|apply B; exact Hi]).
  assert (L : 1 + 64 / eps <= theta k * d k).
  { apply Rle_trans with (theta k * (1 + / theta k + 64 / (eps * theta k))); [|apply Rmult_le_compat_l; lra].
    replace (theta k * (1 + / theta k + 64 / (eps * theta k))) with (theta k + 1 + 64 / eps) by (field; lra). lra. }
  assert (P3 : 0 < 64 / eps) by (apply Rdiv_lt_0_compat; lra).
  assert (K : f k < eps).
  { unfold f. eapply Rle_lt_trans; [apply kap_decay; [exact Hc|lra]|]. apply Rmult_lt_reg_r with (theta k * d k); [lra|]. replace (63 / (theta k * d k) * (theta k * d k)) with 63 by (field; lra).
    apply Rlt_le_trans with (eps * (1 + 64 / eps)); [|apply Rmult_le_compat_l; lra]. replace (eps * (1 + 64 / eps)) with (eps + 64) by (field; lra). lra. }
  pose proof (B k Hk). nra.
Qed.
Lemma kf_decay s nx y k : sees_all s nx -> (k < nx)%nat ->
  forall eps, 0 < eps -> exists D, 1 <= D /\ forall x : vec, D <= Rabs (x k - y k) -> 0 < kf s nx x y < eps.
Proof.
  intros H Hk eps He. destruct s as [c theta|c ncomp co theta]; cbn [sees_all] in H.
  - destruct H as [Hc T]. exact (corr_decay c nx 0 theta y k Hc (fun j Hj => Rlt_le _ _ (T j Hj)) Hk (T k Hk) eps He).
  - destruct H as (Hc & T & W). assert (N : c <> ActExp) by (destruct Hc; congruence).
    set (th := fun j => rsum ncomp (fun l => theta l * (match c with SquarExp => co j l ^ 2 | _ => Rabs (co j l) end))).
    assert (Nn : forall j l, 0 <= (match c with SquarExp => co j l ^ 2 | _ => Rabs (co j l) end)) by (intros; destruct c; try apply Rabs_pos; apply pow2_ge_0).
    assert (T' : forall j, (j < nx)%nat -> 0 <= th j) by (intros j Hj; apply rsum_nonneg; intros l Hl; apply Rmult_le_pos; [apply T; exact Hl|apply Nn]).
    assert (Tk : 0 < th k).
    { destruct (W k Hk) as (l & Hl & Pl & Nl). apply (rsum_pos ncomp _ l); [intros i Hi; apply Rmult_le_pos; [apply T; exact Hi|apply Nn]|exact Hl|]. apply Rmult_lt_0_compat; [exact Pl|]. destruct Hc as [-> | ->]; [apply Rabs_pos_lt; exact Nl|nra]. }
    destruct (corr_decay c nx 0 th y k N T' Hk Tk eps He) as (D & D1 & HD). exists D. split; [exact D1|]. intros x Hx. specialize (HD x Hx).
    unfold kf, kd. change (kernel c ncomp 0 theta (comp_dist_pls c nx co (fun j => x j - y j)) None None) with (corr_of_pls c nx ncomp co theta x y). rewrite (pls_corr c nx ncomp co theta x y Hc). exact HD.
Qed.
