(** C125: the derivatives of RMTC are continuous too, and so are the predictions that extrapolate. *)
From Coq Require Import Reals Arith Bool List Lia Lra ZArith.
From Coquelicot Require Import Coquelicot.
From Verif Require Import RSum Mat Index_M Index_P Rmtb_M Rmtb_P2 Rmtb_P3 Rmtb_P4 Rmtc_M Rmtc_S Rmtc_P Rmtc_P2 Rmtc_P3 Rmtc_P4 Cont_S Cont_P Cont_P3 Cont_P4.
Import ListNotations.
Open Scope list_scope.
Open Scope R_scope.

(** slopes of [hat] *)
Definition dhat (dv : nat) (u : R) : R :=
  let w := Rmin 1 (Rabs u) in
  match dv with O => -3 * (u * (1 - w)) | _ => (1 - w) * (1 - 3 * w) end.
Lemma dhat_cont n x dv f : continuous_at n f x -> continuous_at n (fun y => dhat dv (f y)) x.
Proof.
  intros F. assert (W : continuous_at n (fun y => Rmin 1 (Rabs (f y))) x) by (apply c_min; [apply c_const|apply c_abs, F]).
  assert (W1 : continuous_at n (fun y => 1 - Rmin 1 (Rabs (f y))) x) by (apply c_minus; [apply c_const|exact W]).
  unfold dhat. cbv zeta. destruct dv.
  - apply c_scal, c_mult; [exact F|exact W1].
  - apply c_mult; [exact W1|]. apply c_minus; [apply c_const|]. apply c_scal, W.
Qed.
Lemma dhat_far dv u : 1 <= Rabs u -> dhat dv u = 0.
Proof. intros U. unfold dhat. rewrite Rmin_left by exact U. destruct dv; ring. Qed.
Lemma one_dim_d (num e : nat) (s : R) (G : nat -> nat -> R) : (e < num)%nat -> -1 <= s <= 1 ->
  rsum 4 (fun k => dherm k s * G (derv_map k) (e + side_map k)%nat) =
  rsum (S num) (fun v => dhat 0 (INR e + (1 + s) / 2 - INR v) * G 0%nat v + dhat 1 (INR e + (1 + s) / 2 - INR v) * G 1%nat v).
Proof.
  intros He Hs. rewrite (two_terms num e) by
    (exact He || (intros v Hv N1 N2; rewrite !dhat_far; [ring| |];
      (destruct (lt_eq_lt_dec v e) as [[L|L]|L]; [|lia|];
       [assert (INR v + 1 <= INR e) by (rewrite <- S_INR; apply le_INR; lia); rewrite Rabs_pos_eq by lra; lra
       |assert (INR e + 2 <= INR v) by (replace (INR e + 2) with (INR (S (S e))) by (rewrite !S_INR; ring); apply le_INR; lia); rewrite Rabs_left1 by lra; lra]))).
  rewrite S_INR. unfold dhat. cbv zeta. cbn [rsum dherm derv_map side_map Nat.leb Nat.even].
  replace (INR e + (1 + s) / 2 - INR e) with ((1 + s) / 2) by ring. replace (INR e + (1 + s) / 2 - (INR e + 1)) with (- ((1 - s) / 2)) by field.
  rewrite Rabs_Ropp, !Rabs_pos_eq by lra. rewrite !Rmin_right by lra.
  rewrite !Nat.add_0_r, !Nat.add_1_r. field.
Qed.

Section R.
Variables (nelems : list nat) (lo up : nat -> R) (inv : nat -> nat -> R) (dof : nat -> R).
Let nx := length nelems.
Hypothesis Hbox : forall k, (k < nx)%nat -> lo k < up k.
Hypothesis Hel : forall k, (k < nx)%nat -> (0 < nth k nelems 0)%nat.
Let e (y : nat -> R) (d : nat) : nat := Z.to_nat (fst (loc nelems lo up y d)).
Let p (y : nat -> R) (d : nat) : R := (nearest (lo d) (up d) (y d) - lo d) / (up d - lo d) * INR (nth d nelems 0%nat).
Lemma p_cont d v x : (d < nx)%nat -> continuous_at nx (fun y => p y d - INR v) x.
Proof.
  intros Hd. unfold p. apply c_minus; [|apply c_const]. apply c_mult; [|apply c_const]. apply c_div, c_minus; [|apply c_const]. unfold nearest.
  repeat first [apply c_min | apply c_max | apply c_const | apply c_coord; exact Hd].
Qed.
(** a sum over the local degrees of freedom of the element at y, as a sum over all vertices *)
Lemma msum_vertices (H : (nat -> R) -> nat -> nat -> R) (g : nat -> nat -> R -> R) (x : nat -> R) :
  (forall d dv f, (d < nx)%nat -> continuous_at nx f x -> continuous_at nx (fun y => g d dv (f y)) x) ->
  (forall y d G, (d < nx)%nat -> rsum 4 (fun k => H y d k * G (derv_map k) (e y d + side_map k)%nat) =
     rsum (S (nth d nelems 0%nat)) (fun v => g d 0%nat (p y d - INR v) * G 0%nat v + g d 1%nat (p y d - INR v) * G 1%nat v)) ->
  forall n d D, (d + n <= nx)%nat ->
  continuous_at nx (fun y => msum (repeat 4%nat n) (fun ls => lprod d ls (H y) * D (map derv_map ls) (verts (map (e y) (seq d n)) ls))) x.
Proof.
  intros Gc Gs. induction n as [|n IH]; intros d D Hd.
  - exact (c_const nx x (1 * D [] [])).
  - set (F := fun (dv v : nat) (y : nat -> R) => msum (repeat 4%nat n) (fun ls => lprod (S d) ls (H y) * D (dv :: map derv_map ls) (v :: verts (map (e y) (seq (S d) n)) ls))).
    apply (c_ext nx x (fun y => rsum (S (nth d nelems 0%nat)) (fun v => g d 0%nat (p y d - INR v) * F 0%nat v y + g d 1%nat (p y d - INR v) * F 1%nat v y))).
    + intros y. rewrite <- (Gs y d (fun dv v => F dv v y)) by lia. cbn [repeat msum seq map]. apply rsum_ext. intros k Hk. unfold F. rewrite <- msum_scal. apply msum_ext. intros ls _.
      cbn [lprod map]. unfold verts. cbn [combine map fst snd]. ring.
    + apply (c_sum nx x (S (nth d nelems 0%nat)) (fun v y => g d 0%nat (p y d - INR v) * F 0%nat v y + g d 1%nat (p y d - INR v) * F 1%nat v y)).
      intros v Hv. apply c_plus; (apply c_mult; [apply Gc; [lia|apply p_cont; lia]|]).
      * apply (IH (S d) (fun a b => D (0%nat :: a) (v :: b))). lia.
      * apply (IH (S d) (fun a b => D (1%nat :: a) (v :: b))). lia.
Qed.
Hypothesis Hinv : forall i j, (i < nterm nelems)%nat -> (j < nterm nelems)%nat -> rsum (nterm nelems) (fun k => inv i k * coeff2nodal nelems k j) = if Nat.eqb i j then 1 else 0.
Notation U := (rawsum (nterm nelems) (rmtc_data nelems lo up) (rmtc_col nelems lo up) (fun z => dof2coeff nelems inv dof (Z.to_nat z))).
Lemma dU_cont kx x : (kx < nx)%nat -> continuous_at nx (fun y => U (S kx) 0%nat y) x.
Proof.
  intros Hk.
  apply (c_ext nx x (fun y => msum (repeat 4%nat nx) (fun ls => lprod 0 ls (hfac nelems lo up (S kx) 0 y) *
     dof (contract_index (map (fun _ => 2%nat) nelems) (map derv_map ls) * nuniq nelems + contract_index (nuniqs nelems) (verts (map (e y) (seq 0 nx)) ls))%nat))).
  { intros y. rewrite (Ueq nelems lo up inv dof) by assumption. assert (Et : nterms nelems = repeat 4%nat nx).
    { unfold Rmtc_M.nterms, nx. clear. induction nelems as [|n l IH]; cbn; [reflexivity|]. f_equal. exact IH. }
    rewrite Et. reflexivity. }
  refine (msum_vertices (fun y => hfac nelems lo up (S kx) 0 y) (fun d dv u => if Nat.eqb d kx then dhat dv u * dxb_dx nelems lo up kx else hat dv u) x _ _ nx 0%nat
    (fun a b => dof (contract_index (map (fun _ => 2%nat) nelems) a * nuniq nelems + contract_index (nuniqs nelems) b)%nat) _); [| |lia].
  - intros d dv f Hd Hf. destruct (Nat.eqb d kx); [apply c_mult; [apply dhat_cont, Hf|apply c_const]|apply hat_cont, Hf].
  - intros y d G Hd. destruct (pos_eq nelems lo up Hbox Hel y d Hd) as (A & B & C). fold (e y d) in A, C. fold (p y d) in C. rewrite <- C. destruct (Nat.eqb_spec d kx) as [->|N].
    + transitivity (dxb_dx nelems lo up kx * rsum 4 (fun k => dherm k (snd (loc nelems lo up y kx)) * G (derv_map k) (e y kx + side_map k)%nat)).
      { rewrite <- rsum_scal_l. apply rsum_ext. intros k Hk4. rewrite (hfac_1 nelems lo up dof) by (exact Hk4 || (left; split; [reflexivity|discriminate])). ring. }
      rewrite (one_dim_d (nth kx nelems 0%nat)) by assumption. rewrite <- rsum_scal_l. apply rsum_ext. intros v _. ring.
    + rewrite <- (one_dim (nth d nelems 0%nat)) by assumption. apply rsum_ext. intros k Hk4. rewrite hfac_0 by (exact Hk4 || discriminate || congruence). reflexivity.
Qed.
Lemma rmtc_deriv_cont kx x : (kx < nx)%nat -> continuous_at nx (rmtc_derivative nelems lo up false inv dof kx) x.
Proof.
  intros Hk. apply (c_ext nx x (fun y => U (S kx) 0%nat y)); [|apply dU_cont; exact Hk].
  intros y. rewrite deriv_eq by assumption. unfold gen_deriv. rewrite ?Rplus_0_r. try reflexivity. 
Qed.
Lemma rmtc_ext_cont x : continuous_at nx (rmtc_value nelems lo up true inv dof) x.
Proof.
  apply (c_ext nx x (fun y => rmtc_value nelems lo up false inv dof (fun k => nearest (lo k) (up k) (y k)) +
    rsum nx (fun k => rmtc_derivative nelems lo up false inv dof k (fun k => nearest (lo k) (up k) (y k)) * (y k - nearest (lo k) (up k) (y k))))).
  { intros y. symmetry. apply value_expansion; assumption. }
  assert (N : forall k, (k < nx)%nat -> continuous_at nx (fun y => nearest (lo k) (up k) (y k)) x).
  { intros k Hk. unfold nearest. repeat first [apply c_min | apply c_max | apply c_const | apply c_coord; exact Hk]. }
  apply c_plus.
  - apply (c_vec nx (fun y k => nearest (lo k) (up k) (y k)) (rmtc_value nelems lo up false inv dof)); [exact N|]. apply rmtc_cont; assumption.
  - apply (c_sum nx x nx (fun k y => rmtc_derivative nelems lo up false inv dof k (fun k => nearest (lo k) (up k) (y k)) * (y k - nearest (lo k) (up k) (y k)))).
    intros k Hk. apply c_mult; [|apply c_minus; [apply c_coord; exact Hk|apply N; exact Hk]].
    apply (c_vec nx (fun y k => nearest (lo k) (up k) (y k)) (rmtc_derivative nelems lo up false inv dof k)); [exact N|]. apply rmtc_deriv_cont. exact Hk.
Qed.
End R.
