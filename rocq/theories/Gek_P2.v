(** C102: training succeeds; instances of the contracts. *)
From Coq Require Import Reals Arith ZArith Bool List Lia Lra Permutation Sorted.
From Coquelicot Require Import Coquelicot.
From Verif Require Import RSum Mat Tri_M Kernels_M Kernels_P Krg_M Krg_S Krg_P Krg_P2 Krg_P8 Krg_Qr Gek_M Gek_S Gek_P.
Import ListNotations.
Open Scope list_scope.
Open Scope R_scope.

Lemma corr_pls_pd c nc co th nx nt X nugget noise : c = AbsExp \/ c = SquarExp -> (forall l, (l < nc)%nat -> 0 < th l) ->
  (forall j, (j < nx)%nat -> exists l, (l < nc)%nat /\ co j l <> 0) ->
  (forall i j, (i < nt)%nat -> (j < nt)%nat -> i <> j -> ~ (forall k, (k < nx)%nat -> X i k = X j k)) ->
  (forall i, (i < nt)%nat -> 0 <= nugget + noise i) -> mpd nt (corr_matrix (KPls c nc co th) nx nt X nugget noise).
Proof.
  intros Hc T C D H w W. set (th' := fun j => rsum nc (fun l => th l * (match c with SquarExp => co j l ^ 2 | _ => Rabs (co j l) end))).
  assert (P : forall j, (j < nx)%nat -> 0 < th' j).
  { intros j Hj. destruct (C j Hj) as (l & Hl & Nz). unfold th'. apply (rsum_pos nc _ l).
    - intros a Ha. apply Rmult_le_pos; [apply Rlt_le, T, Ha|]. destruct c; try apply Rabs_pos. apply pow2_ge_0.
    - exact Hl.
    - apply Rmult_lt_0_compat; [apply T, Hl|]. destruct Hc as [-> | ->]; [apply Rabs_pos_lt; exact Nz|apply pow2_gt_0; exact Nz]. }
  assert (N : c <> ActExp) by (destruct Hc; congruence).
  pose proof (corr_matrix_pd_distinct c th' nx nt X nugget noise N P D H w W) as Q. rewrite corr_matrix_form in Q |- *.
  match type of Q with 0 < ?a + _ => match goal with |- 0 < ?b + _ => replace b with a; [exact Q|] end end.
  apply rsum_ext. intros i Hi. apply rsum_ext. intros j Hj. f_equal. change (kf (KPls c nc co th) nx (X i) (X j)) with (corr_of_pls c nx nc co th (X i) (X j)). rewrite pls_corr by exact Hc. reflexivity.
Qed.

Section Tr.
Variables (bb : nat -> list vec) (pls : nat -> nat -> list (vec * R) -> mat) (argsort : nat -> vec -> list nat).
Variables (dim nt n_comp : nat) (delta_x : R) (lower upper : vec) (X : nat -> vec) (y : vec) (pts : deriv_data).
Hypothesis HA : argsort_contract argsort.
Notation prep := (prepare bb pls argsort dim nt n_comp delta_x lower upper X y pts).
Notation h k := (delta_x * (upper k - lower k)).
Notation coef := (coeff_at bb pls dim n_comp delta_x lower upper X y pts).
(** points further apart than the step in some input *)
Definition spread : Prop := forall i i', (i < nt)%nat -> (i' < nt)%nat -> i <> i' -> exists j, (j < dim)%nat /\ Rabs (h j) < Rabs (X i j - X i' j).
Lemma rows_distinct extra st rows Xa ya co : snd (prep extra st) = Ready rows Xa ya co -> (0 <= extra <= Z.of_nat dim)%Z -> (0 < dim)%nat ->
  (forall j, (j < dim)%nat -> h j <> 0) -> spread ->
  forall q q', (q < rows)%nat -> (q' < rows)%nat -> q <> q' -> ~ (forall k, (k < dim)%nat -> Xa q k = Xa q' k).
Proof.
  intros E B D H0 Sp. destruct (t_table bb pls argsort dim nt n_comp delta_x lower upper X y pts HA extra st rows Xa ya co E B) as (Er & _ & HX & sel & Hs). set (e := Z.to_nat extra) in *.
  (* every row is a training point with at most one coordinate moved *)
  assert (F : forall q, (q < rows)%nat -> exists i o, (i < nt)%nat /\
     match o with None => q = i /\ (forall j, Xa q j = X i j) | Some r => (r < e)%nat /\ q = (nt + i * e + r)%nat /\ (sel i r < dim)%nat /\ moved (X i) (sel i r) (h (sel i r)) (Xa q) end).
  { intros q Hq. destruct (lt_dec q nt) as [L|L].
    - exists q, None. split; [exact L|]. split; [reflexivity|]. intros j. rewrite (proj1 (HX q L)). reflexivity.
    - assert (He : (0 < e)%nat) by nia. set (q' := (q - nt)%nat). assert (Hi : (q' / e < nt)%nat) by (apply Nat.div_lt_upper_bound; lia). assert (Hr : (q' mod e < e)%nat) by (apply Nat.mod_upper_bound; lia).
      exists (q' / e)%nat, (Some (q' mod e)%nat). split; [exact Hi|]. split; [exact Hr|]. assert (Eq : (q = nt + q' / e * e + q' mod e)%nat) by (pose proof (Nat.div_mod q' e ltac:(lia)); unfold q' in *; nia). split; [exact Eq|].
      destruct (Hs _ Hi) as (H1 & _). destruct (H1 _ Hr) as (A1 & A2 & _). split; [exact A1|]. rewrite Eq. exact A2. }
  assert (G : forall i o q, match o with None => q = i /\ (forall j, Xa q j = X i j) | Some r => (r < e)%nat /\ q = (nt + i * e + r)%nat /\ (sel i r < dim)%nat /\ moved (X i) (sel i r) (h (sel i r)) (Xa q) end -> forall j, Xa q j = X i j \/ Xa q j = X i j + h j).
  { intros i [r|] q M j; [|left; apply M]. destruct M as (_ & _ & _ & M). rewrite (M j). destruct (Nat.eqb_spec j (sel i r)) as [->|]; [right; reflexivity|left; ring]. }
  intros q q' Hq Hq' N Eq. destruct (F q Hq) as (i & o & Hi & Ho). destruct (F q' Hq') as (i' & o' & Hi' & Ho'). destruct (Nat.eq_dec i i') as [<- | Ni].
  - destruct o as [r|], o' as [r'|].
    + destruct Ho as (R1 & R2 & R3 & R4), Ho' as (S1 & S2 & S3 & S4). destruct (Nat.eq_dec (sel i r) (sel i r')) as [Es|Ns].
      * apply N. rewrite R2, S2. f_equal. destruct (Hs i Hi) as (_ & H2 & _). apply H2; assumption.
      * specialize (Eq (sel i r) R3). rewrite (R4 (sel i r)), (S4 (sel i r)), Nat.eqb_refl in Eq. destruct (Nat.eqb_spec (sel i r) (sel i r')); [contradiction|]. apply (H0 _ R3). lra.
    + destruct Ho as (R1 & R2 & R3 & R4), Ho' as (S1 & S2). specialize (Eq (sel i r) R3). rewrite (R4 (sel i r)), S2, Nat.eqb_refl in Eq. apply (H0 _ R3). lra.
    + destruct Ho' as (R1 & R2 & R3 & R4), Ho as (S1 & S2). specialize (Eq (sel i r') R3). rewrite (R4 (sel i r')), S2, Nat.eqb_refl in Eq. apply (H0 _ R3). lra.
    + apply N. rewrite (proj1 Ho), (proj1 Ho'). reflexivity.
  - destruct (Sp i i' Hi Hi' Ni) as (j & Hj & A). specialize (Eq j Hj). pose proof (Rabs_pos (h j)) as P. destruct (G i o q Ho j) as [E1|E1], (G i' o' q' Ho' j) as [E2|E2]; rewrite E1, E2 in Eq.
    + replace (X i j - X i' j) with 0 in A by lra. rewrite Rabs_R0 in A. lra.
    + replace (X i j - X i' j) with (h j) in A by lra. lra.
    + replace (X i j - X i' j) with (- h j) in A by lra. rewrite Rabs_Ropp in A. lra.
    + replace (X i j - X i' j) with 0 in A by lra. rewrite Rabs_R0 in A. lra.
Qed.
Lemma t_trains c theta nugget noise extra : (2 <= dim)%nat -> (0 < nt)%nat -> (2 <= nt * (1 + Z.to_nat extra))%nat -> all_given dim pts -> (0 <= extra <= Z.of_nat dim)%Z ->
  c = AbsExp \/ c = SquarExp -> (forall l, (l < n_comp)%nat -> 0 < theta l) -> (forall a, 0 <= nugget + noise a) ->
  (forall j, (j < dim)%nat -> h j <> 0) -> spread -> (forall j, (j < dim)%nat -> exists i l, (i < nt)%nat /\ (l < n_comp)%nat /\ coef i j l <> 0) ->
  exists m, gek_train bb pls argsort dim nt n_comp delta_x lower upper X y pts gs_qr rcond01 cond0 PConstant c theta nugget noise extra = Some m.
Proof.
  intros D Hn H2 G B Hc T Nn H0 Sp Co. unfold gek_train. pose proof (t_calls bb pls argsort dim nt n_comp delta_x lower upper X y pts HA extra 1 0 Hn G D (proj1 B) ltac:(lia)) as [_ Rd]. cbn [prepares] in Rd.
  destruct (prep extra (Z.of_nat nt)) as [st' o] eqn:E. cbn [nth] in Rd. specialize (Rd ltac:(right; split; [apply B|reflexivity])). cbn [snd]. destruct o as [rows Xa ya co| | |]; try destruct Rd.
  assert (E' : snd (prep extra (Z.of_nat nt)) = Ready rows Xa ya co) by (rewrite E; reflexivity).
  destruct (t_table bb pls argsort dim nt n_comp delta_x lower upper X y pts HA extra _ rows Xa ya co E' B) as (Er & Ec & _).
  apply train_gs; [lia|cbn; lia| |apply constant_regular; lia]. apply corr_pls_pd; try assumption.
  - intros j Hj. destruct (Co j Hj) as (i & l & Hi & Hl & Nz). exists l. split; [exact Hl|]. rewrite Ec. unfold coeff_pls. apply Rgt_not_eq. apply Rdiv_lt_0_compat; [|apply lt_0_INR; exact Hn]. apply (rsum_pos nt _ i); [intros; apply Rabs_pos|exact Hi|apply Rabs_pos_lt; exact Nz].
  - apply Xnorm_distinct. apply (rows_distinct extra _ rows Xa ya co E' B); [lia|exact H0|exact Sp].
  - intros; apply Nn.
Qed.
End Tr.
(** ** instances *)
Fixpoint ins (v : vec) (i : nat) (l : list nat) : list nat := match l with [] => [i] | a :: l' => if Rle_dec (v i) (v a) then i :: a :: l' else a :: ins v i l' end.
Definition isort (n : nat) (v : vec) : list nat := fold_right (ins v) [] (seq 0 n).
Lemma ins_perm v i l : Permutation (ins v i l) (i :: l).
Proof. induction l as [|a l IH]; cbn [ins]; [reflexivity|]. destruct (Rle_dec _ _); [reflexivity|]. rewrite IH. apply perm_swap. Qed.
Lemma ins_sorted v i l : StronglySorted (fun i j => v i <= v j) l -> StronglySorted (fun i j => v i <= v j) (ins v i l).
Proof.
  induction l as [|a l IH]; intros Sl; cbn [ins]; [constructor; constructor|]. inversion Sl as [|? ? S1 S2]; subst. destruct (Rle_dec (v i) (v a)) as [L|L].
  - constructor; [exact Sl|]. constructor; [exact L|]. rewrite List.Forall_forall in S2 |- *. intros x Hx. specialize (S2 x Hx). lra.
  - constructor; [apply IH; exact S1|]. rewrite List.Forall_forall in S2 |- *. intros x Hx. apply (Permutation_in _ (ins_perm v i l)) in Hx. destruct Hx as [<- | Hx]; [lra|apply S2; exact Hx].
Qed.
Lemma isort_contract : argsort_contract isort.
Proof.
  intros n v. unfold isort. generalize (seq 0 n). intros l. induction l as [|a l [P Q]]; cbn [fold_right]; [split; constructor|]. split; [rewrite ins_perm; apply perm_skip; exact P|apply ins_sorted; exact Q].
Qed.
(** the design for three inputs (and the centre alone for more) *)
Definition bb3 (dim : nat) : list vec :=
  (if Nat.eqb dim 3 then map (fun t : R * R * R => let '(a, b, c) := t in fun j => if Nat.eqb j 0 then a else if Nat.eqb j 1 then b else if Nat.eqb j 2 then c else 0)
     [(-1,-1,0); (1,-1,0); (-1,1,0); (1,1,0); (-1,0,-1); (1,0,-1); (-1,0,1); (1,0,1); (0,-1,-1); (0,1,-1); (0,-1,1); (0,1,1)] else []) ++ [fun _ => 0].
Lemma bb3_contract : bb_contract bb3.
Proof.
  intros dim D. unfold bb3. split.
  - intros r j Hr. apply in_app_or in Hr. destruct Hr as [Hr|[<- |[]]]; [|lra]. destruct (Nat.eqb dim 3); [|destruct Hr]. apply in_map_iff in Hr. destruct Hr as ([[a b] c] & <- & Ht).
    assert (B : -1 <= a <= 1 /\ -1 <= b <= 1 /\ -1 <= c <= 1) by (cbn [In] in Ht; repeat (destruct Ht as [Ht|Ht]; [injection Ht as <- <- <-; lra|]); destruct Ht).
    destruct (Nat.eqb j 0), (Nat.eqb j 1), (Nat.eqb j 2); lra.
  - eexists. eexists. split; [reflexivity|reflexivity].
Qed.
(** ** the predictor *)
Definition eff (c : corr) (nc : nat) (co : mat) (th : vec) : vec := fun j => rsum nc (fun l => th l * (match c with SquarExp => co j l ^ 2 | _ => Rabs (co j l) end)).
Lemma pls_kf c nc co th nx : c = AbsExp \/ c = SquarExp -> kf (KPls c nc co th) nx = kf (KStd c (eff c nc co th)) nx.
Proof.
  intros Hc. apply FunctionalExtensionality.functional_extensionality. intros a. apply FunctionalExtensionality.functional_extensionality. intros b.
  change (kf (KPls c nc co th) nx a b) with (corr_of_pls c nx nc co th a b). rewrite pls_corr by exact Hc. reflexivity.
Qed.
Lemma pls_blup c nc co th nx nt po nugget noise X x w : c = AbsExp \/ c = SquarExp ->
  q_blup nx nt po (KPls c nc co th) nugget noise X x w <-> q_blup nx nt po (KStd c (eff c nc co th)) nugget noise X x w.
Proof. intros Hc. unfold q_blup, d_corr, q_corr. rewrite (pls_kf c nc co th nx Hc). reflexivity. Qed.
Lemma t_predictor bb pls argsort dim nt n_comp delta_x lower upper X y pts qr rcond condF po c theta nugget noise extra m :
  qr_contract qr -> rcond_contract rcond -> c = AbsExp \/ c = SquarExp ->
  gek_train bb pls argsort dim nt n_comp delta_x lower upper X y pts qr rcond condF po c theta nugget noise extra = Some m ->
  exists rows Xa ya co, snd (prepare bb pls argsort dim nt n_comp delta_x lower upper X y pts extra (Z.of_nat nt)) = Ready rows Xa ya co /\
  forall x, exists w, q_blup dim rows po (KStd c (eff c n_comp co theta)) nugget noise Xa x w /\ predict_value m x = dot rows w ya.
Proof.
  intros HQ HR Hc. unfold gek_train. destruct (snd (prepare bb pls argsort dim nt n_comp delta_x lower upper X y pts extra (Z.of_nat nt))) as [rows Xa ya co| | |] eqn:E; try discriminate. intros Hm.
  exists rows, Xa, ya, co. split; [reflexivity|]. intros x. destruct (t_blup qr rcond condF HQ HR dim rows po (KPls c n_comp co theta) nugget noise Xa ya m Hm x) as (w & B & V). exists w. split; [apply pls_blup; assumption|exact V].
Qed.
