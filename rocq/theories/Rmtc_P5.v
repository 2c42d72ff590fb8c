From Coq Require Import Reals ZArith Arith Bool List Lia Lra.
From Verif Require Import RSum Index_M Index_P Rmtb_M Rmtc_M Rmtc_S Rmtc_P Rmtc_P2 Rmtc_P3 Rmtc_P4.
Import ListNotations.
Open Scope list_scope.
Open Scope R_scope.
Lemma element_search : forall a b num x, a < b -> (0 < num)%nat ->
  let e := fst (find_interval a b num x) in let s := snd (find_interval a b num x) in
  (0 <= e < Z.of_nat num)%Z /\ -1 <= s <= 1 /\
  a + (b - a) * (IZR e + (1 + s) / 2) / INR num = Rmin b (Rmax a x).
Proof.
  intros a b num x H Hn e s. destruct (fi_range a b num x H Hn) as (A & B). split; [exact A|]. split; [exact B|]. apply fi_point; assumption.
Qed.
Lemma nonvac22 : find_interval 0 2 4 (3 / 4) = (1%Z, 0).
Proof.
  destruct (fi_cases 0 2 4 (3 / 4) ltac:(lra) ltac:(lia)) as (A & [C|[C|[C|(I & F & G)]]]); try lra.
  set (p := find_interval 0 2 4 (3 / 4)) in *. cbn [INR] in *.
  assert (E : fst p = 1%Z). { assert (IZR (fst p) < IZR 2 /\ IZR 0 < IZR (fst p)) as (X & Y) by lra. apply lt_IZR in X. apply lt_IZR in Y. lia. }
  rewrite E in G. destruct p as [e s]. cbn in *. f_equal; [exact E|lra].
Qed.
Lemma half_in : (fun _ : nat => 0) 0%nat < 1 / 2 < (fun _ : nat => 1) 0%nat.
Proof. cbv beta. lra. Qed.
Lemma map_nth_eq (f : nat -> nat) : forall l l' : list nat, length l = length l' ->
  (map f l = map f l' <-> forall k, (k < length l)%nat -> f (nth k l 0%nat) = f (nth k l' 0%nat)).
Proof.
  induction l as [|a l IH]; intros [|b l'] L; cbn in L; try discriminate; cbn [map].
  - split; [intros _ k Hk; cbn in Hk; lia|reflexivity].
  - specialize (IH l' ltac:(lia)). split.
    + intros E. injection E as E1 E2. intros [|k] Hk; [exact E1|]. apply IH; [exact E2|cbn in Hk; lia].
    + intros H. f_equal; [apply (H 0%nat); cbn; lia|]. apply IH. intros k Hk. apply (H (S k)). cbn. lia.
Qed.
Lemma derv_div t : (t < 4)%nat -> derv_map t = (t / 2)%nat.
Proof. intros H. four t H; reflexivity. Qed.
Lemma side_mod t : (t < 4)%nat -> side_map t = (t mod 2)%nat.
Proof. intros H. four t H; reflexivity. Qed.
Lemma verts_eq : forall el tl el' tl' : list nat, length tl = length el -> length tl' = length el' -> length el = length el' ->
  (verts el tl = verts el' tl' <-> forall k, (k < length el)%nat -> (nth k el 0 + side_map (nth k tl 0) = nth k el' 0 + side_map (nth k tl' 0))%nat).
Proof.
  induction el as [|e el IH]; intros [|t tl] [|e' el'] [|t' tl'] L1 L2 L3; cbn in L1, L2, L3; try discriminate.
  - split; [intros _ k Hk; cbn in Hk; lia|reflexivity].
  - specialize (IH tl el' tl' ltac:(lia) ltac:(lia) ltac:(lia)). unfold verts in *. cbn [combine map fst snd]. split.
    + intros E. injection E as E1 E2. intros [|k] Hk; [exact E1|]. apply IH; [exact E2|cbn in Hk; lia].
    + intros H. f_equal; [apply (H 0%nat); cbn; lia|]. apply IH. intros k Hk. apply (H (S k)). cbn. lia.
Qed.
Lemma shared_vertices : forall nelems el tl el' tl', Forall2 lt el nelems -> Forall2 lt el' nelems ->
  Forall2 (fun t _ => (t < 4)%nat) tl nelems -> Forall2 (fun t _ => (t < 4)%nat) tl' nelems ->
  (uniq_col_l nelems el tl = uniq_col_l nelems el' tl' <->
   forall ix, (ix < length nelems)%nat ->
     (nth ix tl 0 / 2 = nth ix tl' 0 / 2 /\ nth ix el 0 + nth ix tl 0 mod 2 = nth ix el' 0 + nth ix tl' 0 mod 2)%nat).
Proof.
  intros nelems el tl el' tl' H H' T T'. pose proof (F2_length _ _ _ T) as L. pose proof (F2_length _ _ _ T') as L'.
  pose proof (F2_length _ _ _ H) as K. pose proof (F2_length _ _ _ H') as K'.
  rewrite uniq_iff by assumption. rewrite map_nth_eq by lia. rewrite verts_eq by lia.
  assert (B : forall k, (k < length nelems)%nat -> (nth k tl 0 < 4)%nat /\ (nth k tl' 0 < 4)%nat).
  { intros k Hk. split; [apply (F2_nth (fun t _ => (t < 4)%nat) 0%nat 0%nat tl nelems T k Hk)|apply (F2_nth (fun t _ => (t < 4)%nat) 0%nat 0%nat tl' nelems T' k Hk)]. }
  split.
  - intros (A & C) ix Hix. destruct (B ix Hix). specialize (A ix ltac:(lia)). specialize (C ix ltac:(lia)).
    rewrite !derv_div in A by assumption. rewrite !side_mod in C by assumption. split; assumption.
  - intros A. split; intros k Hk; assert (Hk' : (k < length nelems)%nat) by lia; destruct (B k Hk'); destruct (A k Hk').
    + rewrite !derv_div by assumption. assumption.
    + rewrite !side_mod by assumption. assumption.
Qed.
Lemma every_dof : forall nelems, (forall k, (k < length nelems)%nat -> (0 < nth k nelems 0)%nat) ->
  forall c, (c < 2 ^ length nelems * fold_right Nat.mul 1 (map S nelems))%nat ->
  exists ielem iterm, (ielem < fold_right Nat.mul 1 nelems)%nat /\ (iterm < 4 ^ length nelems)%nat /\ uniq_col nelems ielem iterm = c.
Proof.
  intros nelems Hp c Hc. set (nu := fold_right Nat.mul 1%nat (map S nelems)) in *.
  assert (Nu : (0 < nu)%nat) by (destruct nu; lia).
  assert (P2 : forall l : list nat, prodl (map (fun _ => 2%nat) l) = (2 ^ length l)%nat).
  { induction l as [|n l IH]; cbn [map length]; [reflexivity|]. rewrite prodl_cons, IH. reflexivity. }
  assert (P4 : forall l : list nat, prodl (map (fun _ => 4%nat) l) = (4 ^ length l)%nat).
  { induction l as [|n l IH]; cbn [map length]; [reflexivity|]. rewrite prodl_cons, IH. reflexivity. }
  assert (D : (c / nu < prodl (ndofs_list nelems))%nat) by (unfold ndofs_list; rewrite P2; apply Nat.div_lt_upper_bound; [lia|rewrite Nat.mul_comm; exact Hc]).
  assert (V : (c mod nu < prodl (nuniqs nelems))%nat) by (change (prodl (nuniqs nelems)) with nu; apply Nat.mod_upper_bound; lia).
  set (ds := expand_index (ndofs_list nelems) (c / nu)). set (vs := expand_index (nuniqs nelems) (c mod nu)).
  destruct (uniq_onto nelems) with (ds := ds) (vs := vs) as (el & tl & A & B & C & E & F).
  - apply Forall_forall. intros n Hin. destruct (In_nth nelems n 0%nat Hin) as (k & Hk & <-). apply Hp. exact Hk.
  - apply Forall_forall. intros d Hd. destruct (In_nth ds d 0%nat Hd) as (k & Hk & <-).
    pose proof (expand_bounds _ _ D) as X. fold ds in X. pose proof (F2_length _ _ _ X) as LX.
    pose proof (F2_nth lt 0%nat 2%nat _ _ X k ltac:(lia)) as Y. unfold ndofs_list in Y.
    rewrite (map_nth (fun _ : nat => 2%nat) nelems 0%nat k) in Y. exact Y.
  - unfold ds. rewrite expand_length. unfold ndofs_list. apply map_length.
  - pose proof (expand_bounds _ _ V) as X. fold vs in X. clearbody vs. clear -X. unfold nuniqs in X. remember (map S nelems) as m eqn:Em.
    revert nelems Em. induction X as [|v n vl nl Hv X IH]; intros [|a l] Em; cbn in Em; try discriminate; constructor.
    + injection Em as E1 _. lia.
    + apply IH. injection Em as _ E2. exact E2.
  - assert (Bt : Forall2 lt tl (nterms nelems)).
    { clear - B C. unfold nterms. revert tl B C. induction nelems as [|n l IH]; intros [|t tl] B C; cbn in *; try lia; constructor.
      - inversion B; assumption.
      - apply IH; [inversion B; assumption|lia]. }
    exists (contract_index nelems el), (contract_index (nterms nelems) tl).
    split; [apply contract_lt; exact A|]. split; [rewrite <- P4; apply (contract_lt (nterms nelems)); exact Bt|].
    unfold uniq_col. rewrite !expand_contract by assumption. unfold uniq_col_l. fold (verts el tl). rewrite E, F.
    unfold ds, vs. rewrite !contract_expand by assumption. unfold nuniq, nuniqs. change (prodl (map S nelems)) with nu.
    rewrite (Nat.mul_comm (c / nu)). symmetry. apply Nat.div_mod. lia.
Qed.
