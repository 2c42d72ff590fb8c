(** C125: continuity of the RMTB predictions for spline orders of at least 2. *)
From Coq Require Import Reals Arith Bool List Lia Lra ZArith.
From Coquelicot Require Import Coquelicot.
From Verif Require Import RSum Mat Rmtb_M Rmtb_S Rmtb_P Rmtb_P2 Rmtb_P3 Rmtb_P4 Rmtb_P5 Cont_S Cont_P.
Import ListNotations.
Open Scope R_scope.

Lemma c_max n x f g : continuous_at n f x -> continuous_at n g x -> continuous_at n (fun y => Rmax (f y) (g y)) x.
Proof.
  intros F G. apply (c_ext n x (fun y => / 2 * (f y + g y + Rabs (f y - g y)))).
  - intros y. unfold Rmax. destruct (Rle_dec (f y) (g y)); [rewrite Rabs_left1 by lra|rewrite Rabs_pos_eq by lra]; field.
  - apply c_scal, c_plus; [apply c_plus; assumption|apply c_abs, c_minus; assumption].
Qed.
Lemma c_min n x f g : continuous_at n f x -> continuous_at n g x -> continuous_at n (fun y => Rmin (f y) (g y)) x.
Proof.
  intros F G. apply (c_ext n x (fun y => / 2 * (f y + g y - Rabs (f y - g y)))).
  - intros y. unfold Rmin. destruct (Rle_dec (f y) (g y)); [rewrite Rabs_left1 by lra|rewrite Rabs_pos_eq by lra]; field.
  - apply c_scal, c_minus; [apply c_plus; assumption|apply c_abs, c_minus; assumption].
Qed.
Lemma knots_step o n i : (1 <= o <= n)%nat -> uniform_knots o n (i + 1) = uniform_knots o n i + / (INR n - INR o + 1) /\ 0 < / (INR n - INR o + 1).
Proof.
  intros H. assert (P : 0 < INR n - INR o + 1) by (destruct H as (_ & H); apply le_INR in H; lra). split; [|apply Rinv_0_lt_compat; exact P].
  unfold uniform_knots. rewrite plus_IZR. field. lra.
Qed.
(** degree 1: the hat function *)
Lemma hat o n i t : (1 <= o <= n)%nat -> let kn := uniform_knots o n in
  bspline kn 1 i t = Rmax 0 (Rmin ((t - kn i) / (kn (i + 1)%Z - kn i)) ((kn (i + 2)%Z - t) / (kn (i + 2)%Z - kn (i + 1)%Z))).
Proof.
  intros H kn. destruct (knots_step o n i H) as (E1 & P). destruct (knots_step o n (i + 1) H) as (E2 & _). fold kn in E1, E2. replace (i + 1 + 1)%Z with (i + 2)%Z in E2 by lia.
  cbn [bspline]. replace (i + Z.of_nat 1 + 1)%Z with (i + 2)%Z by lia. replace (i + Z.of_nat 1)%Z with (i + 1)%Z by lia. replace (i + 1 + 1)%Z with (i + 2)%Z by lia.
  set (h := / (INR n - INR o + 1)) in *. rewrite E2, E1 in *. set (a := kn i) in *. set (c := / (a + h - a)). 
  replace (a + h - a) with h by ring. replace (a + h + h - (a + h)) with h by ring.
  assert (Ph : 0 < / h) by (apply Rinv_0_lt_compat; exact P). assert (Eh : h * / h = 1) by (field; lra).
  assert (M : forall u, 0 <= u -> 0 <= u * / h) by (intros; apply Rmult_le_pos; lra). assert (M' : forall u, u <= 0 -> u * / h <= 0) by (intros u Hu; pose proof (M (- u) ltac:(lra)); lra).
  unfold Rdiv. destruct (Rle_dec a t) as [L1|L1].
  - destruct (Rlt_dec t (a + h)) as [L2|L2].
    + destruct (Rle_dec (a + h) t) as [L3|L3]; [lra|]. rewrite Rmin_left, Rmax_right; [ring|apply M; lra|].
      assert (Q : 0 <= ((a + h + h - t) - (t - a)) * / h) by (apply M; lra). lra.
    + destruct (Rle_dec (a + h) t) as [L3|L3]; [|lra]. destruct (Rlt_dec t (a + h + h)) as [L4|L4].
      * rewrite Rmin_right, Rmax_right; [ring|apply M; lra|]. assert (Q : 0 <= ((t - a) - (a + h + h - t)) * / h) by (apply M; lra). lra.
      * rewrite Rmax_left; [ring|]. eapply Rle_trans; [apply Rmin_r|apply M'; lra].
  - destruct (Rlt_dec t (a + h)) as [L2|L2]; [|lra]. destruct (Rle_dec (a + h) t) as [L3|L3]; [lra|]. rewrite Rmax_left; [ring|]. eapply Rle_trans; [apply Rmin_l|apply M'; lra].
Qed.
Lemma spline_cont n x o m (f : vec -> R) : (1 <= o <= m)%nat -> continuous_at n f x -> forall k i, continuous_at n (fun y => bspline (uniform_knots o m) (S k) i (f y)) x.
Proof.
  intros H F. induction k as [|k IH]; intros i.
  - apply (c_ext n x (fun y => Rmax 0 (Rmin ((f y - uniform_knots o m i) / (uniform_knots o m (i + 1)%Z - uniform_knots o m i)) ((uniform_knots o m (i + 2)%Z - f y) / (uniform_knots o m (i + 2)%Z - uniform_knots o m (i + 1)%Z))))).
    + intros y. symmetry. apply hat. exact H.
    + apply c_max; [apply c_const|]. apply c_min; apply c_div, c_minus; try apply c_const; exact F.
  - cbn [bspline]. apply c_plus; apply c_mult; try apply IH; apply c_div, c_minus; try apply c_const; exact F.
Qed.
Lemma tensor_cont n x (t : vec -> vec) : forall orders ncps d c, Forall2 (fun o m => (2 <= o <= m)%nat) orders ncps -> (forall k, (d <= k < d + length orders)%nat -> continuous_at n (fun y => t y k) x) ->
  continuous_at n (fun y => tensor_spline orders ncps (t y) d c) x.
Proof.
  induction orders as [|o os IH]; intros ncps d c H T; inversion H as [|o' m os' ms Hom Hr]; subst; cbn [tensor_spline]; [apply c_const|].
  apply (c_sum n x m (fun i y => bspline (uniform_knots o m) (o - 1) (Z.of_nat i) (t y d) * tensor_spline os ms (t y) (S d) (fun k => c (i * fold_right Nat.mul 1 ms + k)%nat))). intros i Hi. apply c_mult.
  - replace (o - 1)%nat with (S (o - 2)) by lia. apply (spline_cont n x o m (fun y => t y d)); [lia|]. apply T. cbn [length]. lia.
  - apply IH; [exact Hr|]. intros k Hk. apply T. cbn [length]. lia.
Qed.
Lemma rmtb_cont orders ncps lo up coef x : Forall2 (fun o m => (2 <= o <= m)%nat) orders ncps -> continuous_at (length orders) (rmtb_value orders ncps lo up false coef) x.
Proof.
  intros H. assert (H' : Forall2 (fun o m => (1 <= o <= m)%nat) orders ncps) by (clear - H; induction H; constructor; [lia|assumption]).
  apply (c_ext _ x (fun y => tensor_spline orders ncps (fun k => to_param (lo k) (up k) (y k)) 0 (fun k => coef (Z.of_nat k)))); [intros y; symmetry; apply value_tensor; exact H'|].
  apply (tensor_cont (length orders) x (fun y k => to_param (lo k) (up k) (y k))); [exact H|]. intros k Hk. unfold to_param. apply c_min; [|apply c_const]. apply c_max; [|apply c_const]. apply c_div, c_minus; [apply c_coord; lia|apply c_const].
Qed.
(** with order 1 the predictions are piecewise constant *)
Lemma rmtb_order1_jumps : ~ continuous_at 1 (rmtb_value [1%nat] [2%nat] (fun _ => 0) (fun _ => 1) false IZR) (fun _ => 1 / 2).
Proof.
  intros C. destruct (C (1 / 2) ltac:(lra)) as (d & Hd & K). set (e := Rmin (d / 2) (1 / 4)). assert (He : 0 < e <= 1 / 4 /\ e < d) by (unfold e; split; [split; [apply Rmin_glb_lt; lra|apply Rmin_r]|pose proof (Rmin_l (d / 2) (1 / 4)); lra]).
  specialize (K (fun _ => 1 / 2 - e)). rewrite !value_tensor in K by (constructor; [lia|constructor]).
  assert (P : forall u, 1 / 4 <= u <= 1 / 2 -> to_param 0 1 u = u).
  { intros u Hu. unfold to_param. replace ((u - 0) / (1 - 0)) with u by field. assert (0 < Rmtb_M.eps < 1 / 4) by (unfold Rmtb_M.eps; lra). rewrite Rmax_left by lra. apply Rmin_left. lra. }
  assert (V : forall u, 1 / 4 <= u <= 1 / 2 -> tensor_spline [1%nat] [2%nat] (fun k => to_param 0 1 u) 0 (fun k => IZR (Z.of_nat k)) = if Rlt_dec u (1 / 2) then 0 else 1).
  { intros u Hu. rewrite P by exact Hu. cbn [tensor_spline rsum fold_right Nat.sub bspline Z.of_nat Nat.mul Nat.add Pos.of_succ_nat]. unfold uniform_knots. cbn [INR Z.add Pos.add Pos.succ].
    repeat match goal with |- context [Rle_dec ?a ?b] => destruct (Rle_dec a b) end; repeat match goal with |- context [Rlt_dec ?a ?b] => destruct (Rlt_dec a b) end; lra. }
  cbv beta in K. rewrite !V in K by lra. destruct (Rlt_dec (1 / 2 - e) (1 / 2)) as [_|N]; [|lra]. destruct (Rlt_dec (1 / 2) (1 / 2)) as [N|_]; [lra|].
  assert (Q : Rabs (0 - 1) < 1 / 2).
  { apply K. intros k _. rewrite Rabs_left by lra. lra. }
  rewrite Rabs_left in Q by lra. lra.
Qed.
