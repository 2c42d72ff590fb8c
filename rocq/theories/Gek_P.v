(** C102: proofs. *)
From Coq Require Import Reals Arith ZArith Bool List Lia Lra Permutation Sorted.
From Verif Require Import RSum Mat Tri_M Kernels_M Krg_M Krg_S Krg_P8 Gek_M Gek_S.
Import ListNotations.
Open Scope list_scope.
Open Scope nat_scope.

Lemma nth_blocks {A} (f : nat -> list A) e d nt : (forall i, i < nt -> length (f i) = e) -> forall i r, i < nt -> r < e -> nth (i * e + r) (flat_map f (seq 0 nt)) d = nth r (f i) d.
Proof.
  intros H i r Hi Hr. assert (G : forall k b i, (forall i, b <= i < b + k -> length (f i) = e) -> i < k -> nth (i * e + r) (flat_map f (seq b k)) d = nth r (f (b + i)) d).
  { induction k as [|k IH]; intros b j Hb Hj; [lia|]. cbn [seq flat_map]. destruct j as [|j].
    - rewrite app_nth1 by (rewrite Hb; lia). f_equal. f_equal. lia.
    - rewrite app_nth2 by (rewrite Hb; lia). rewrite Hb by lia. replace (S j * e + r - e) with (j * e + r) by lia. rewrite IH by (try intros; try apply Hb; lia). f_equal. f_equal. lia. }
  rewrite G; [reflexivity|intros j Hj; apply H; lia|exact Hi].
Qed.
Lemma length_blocks {A} (f : nat -> list A) e nt : (forall i, i < nt -> length (f i) = e) -> length (flat_map f (seq 0 nt)) = nt * e.
Proof.
  intros H. assert (G : forall k b, (forall i, b <= i < b + k -> length (f i) = e) -> length (flat_map f (seq b k)) = k * e).
  { induction k as [|k IH]; intros b Hb; [reflexivity|]. cbn [seq flat_map]. rewrite app_length, IH, Hb by (try intros; try apply Hb; lia). lia. }
  apply G. intros i Hi. apply H. lia.
Qed.
Lemma sorted_app {A} (P : A -> A -> Prop) l l' : StronglySorted P (l ++ l') -> forall a b, In a l -> In b l' -> P a b.
Proof.
  induction l as [|c l IH]; cbn [app]; intros S a b Ha Hb; [destruct Ha|]. inversion S as [|? ? S1 S2]; subst. destruct Ha as [<-|Ha]; [|apply IH; assumption].
  rewrite List.Forall_forall in S2. apply S2. apply in_or_app. right. exact Hb.
Qed.
Open Scope R_scope.
Section Ge.
Variables (bb : nat -> list vec) (pls : nat -> nat -> list (vec * R) -> mat) (argsort : nat -> vec -> list nat).
Variables (dim nt n_comp : nat) (delta_x : R) (lower upper : vec) (X : nat -> vec) (y : vec) (pts : deriv_data).
Notation local' := (local bb dim delta_x lower upper X y pts).
Notation g i := (fun j => grad pts j i).
Notation coef := (coeff_at bb pls dim n_comp delta_x lower upper X y pts).
Notation mx := (max_coeff bb pls argsort dim n_comp delta_x lower upper X y pts).
Notation xrows := (extra_rows bb pls argsort dim n_comp delta_x lower upper X y pts).
Notation xtab := (extra_table bb pls argsort dim nt n_comp delta_x lower upper X y pts).
Notation prep := (prepare bb pls argsort dim nt n_comp delta_x lower upper X y pts).
Notation preps := (prepares bb pls argsort dim nt n_comp delta_x lower upper X y pts).
Notation cpls := (coeff_pls bb pls dim nt n_comp delta_x lower upper X y pts).
(** ** the data of the local PLS fits *)
Lemma local_taylor i x v : In (x, v) (local' i) -> (2 <= dim)%nat -> v = taylor dim (X i) (y i) (g i) x.
Proof.
  unfold local. intros H D. destruct (Nat.leb_spec 3 dim) as [L|L].
  - unfold local3 in H. apply in_map_iff in H. destruct H as (row & E & _). injection E as <- <-. unfold taylor. f_equal. apply rsum_ext. intros j _. cbv zeta. ring.
  - assert (dim = 2%nat) as -> by lia. unfold local2 in H. cbv zeta in H. unfold taylor. cbn [rsum].
    repeat (destruct H as [H|H]; [injection H as <- <-; unfold shift2; cbn [Nat.eqb]; ring|]). destruct H.
Qed.
Lemma roll1_in {A} (l : list A) a : In a (roll1 l) -> In a l.
Proof. unfold roll1. intros H. apply in_rev. destruct (rev l) as [|b r]; [exact H|]. destruct H as [->|H]; [left; reflexivity|right; apply in_rev; exact H]. Qed.
Lemma local_box i x v j : bb_contract bb -> (2 <= dim)%nat -> (j < dim)%nat -> In (x, v) (local' i) -> Rabs (x j - X i j) <= Rabs (delta_x * (upper j - lower j)).
Proof using.
  intros HB D Hj. unfold local. intros H. destruct (Nat.leb_spec 3 dim) as [L|L].
  - unfold local3 in H. apply in_map_iff in H. destruct H as (row & E & Hr). injection E as <- _. apply roll1_in in Hr. destruct (HB dim L) as [Hl _]. specialize (Hl row j Hr). cbv zeta. unfold range.
    replace (X i j + row j * delta_x * (upper j - lower j) - X i j) with (row j * (delta_x * (upper j - lower j))) by ring. rewrite Rabs_mult. rewrite <- (Rmult_1_l (Rabs (delta_x * _))) at 2. apply Rmult_le_compat_r; [apply Rabs_pos|]. apply Rabs_le. lra.
  - assert (dim = 2%nat) by lia. unfold local2 in H. cbv zeta in H. assert (Q : forall a b : R, Rabs (X i j + a - X i j) <= Rabs b <-> Rabs a <= Rabs b) by (intros; replace (X i j + a - X i j) with a by ring; reflexivity).
    assert (Z : forall b, Rabs 0 <= Rabs b) by (intros; rewrite Rabs_R0; apply Rabs_pos).
    assert (Z1 : forall a b : R, Rabs (a - a) <= Rabs b) by (intros; rewrite Rminus_diag_eq by reflexivity; apply Z).
    assert (Q' : forall a b c : R, a = b \/ a = - b \/ a = 0 -> Rabs (c + a - c) <= Rabs b).
    { intros a b c K. replace (c + a - c) with a by ring. destruct K as [->|[->| ->]]; [apply Rle_refl|rewrite Rabs_Ropp; apply Rle_refl|apply Z]. }
    assert (C : x = X i \/ exists a b, x = shift2 (X i) a b /\ (a = delta_x * (upper 0%nat - lower 0%nat) \/ a = - (delta_x * (upper 0%nat - lower 0%nat)) \/ a = 0) /\ (b = delta_x * (upper 1%nat - lower 1%nat) \/ b = - (delta_x * (upper 1%nat - lower 1%nat)) \/ b = 0)).
    { destruct H as [H|[H|[H|[H|[H|[H|[H|[H|[H|H]]]]]]]]]; [left; injection H as <- _; reflexivity|..|destruct H]; right; injection H as <- _; eexists; eexists; (split; [reflexivity|split; first [left; reflexivity|right; left; reflexivity|right; right; reflexivity]]). }
    destruct C as [->|(a & b & -> & Ha & Hb)]; [apply Z1|]. destruct j as [|[|j]]; [| |lia]; unfold shift2; cbn [Nat.eqb]; apply Q'; assumption.
Qed.
Lemma local_centre i : bb_contract bb -> (2 <= dim)%nat -> exists x l, local' i = (x, y i) :: l /\ forall j, x j = X i j.
Proof.
  intros HB D. unfold local. destruct (Nat.leb_spec 3 dim) as [L|L].
  - destruct (HB dim L) as [_ (l & r & E & Z)]. unfold local3, roll1. rewrite E, rev_app_distr. cbn [rev app map]. cbv zeta. match goal with |- exists x l, (?a, ?b) :: ?t = _ /\ _ => exists a, t; assert (K : b = y i) end.
    + rewrite rsum_zero; [lra|]. intros j _. rewrite Z. ring.
    + split; [rewrite K; reflexivity|]. intros j. cbv beta. rewrite Z. ring.
  - eexists. eexists. split; [reflexivity|reflexivity].
Qed.
Lemma cpls_nonneg j l : 0 <= cpls j l.
Proof. unfold coeff_pls. apply Rmult_le_pos; [apply rsum_nonneg; intros; apply Rabs_pos|]. destruct nt as [|k]; [cbn; rewrite Rinv_0; lra|]. apply Rlt_le, Rinv_0_lt_compat. apply lt_0_INR. lia. Qed.
(** ** the selected coordinates *)
Hypothesis HA : argsort_contract argsort.
Lemma order_len v : length (argsort dim v) = dim.
Proof. destruct (HA dim v) as [P _]. apply Permutation_length in P. rewrite seq_length in P. exact P. Qed.
Lemma mx_len extra i : (0 < extra)%Z -> length (mx extra i) = Nat.min (Z.to_nat extra) dim.
Proof. intros H. unfold max_coeff. cbv zeta. destruct (Z.ltb_spec 0 extra); [|lia]. rewrite skipn_length, order_len. lia. Qed.
Lemma mx_len_neg extra i : (extra < 0)%Z -> length (mx extra i) = (dim - Z.to_nat (- extra))%nat.
Proof. intros H. unfold max_coeff. cbv zeta. destruct (Z.ltb_spec 0 extra); [lia|]. rewrite skipn_length, order_len. lia. Qed.
Lemma skipn_in {A} k (l : list A) a : In a (skipn k l) -> In a l. Proof. intros H. rewrite <- (firstn_skipn k l). apply in_or_app. right. exact H. Qed.
Lemma mx_in extra i k : (0 < extra)%Z -> In k (mx extra i) -> (k < dim)%nat.
Proof.
  intros H. unfold max_coeff. cbv zeta. destruct (Z.ltb_spec 0 extra); [|lia]. intros Hk. apply skipn_in in Hk. destruct (HA dim (fun j => Rabs (coef i j 0%nat))) as [P _]. apply (Permutation_in _ P) in Hk. apply in_seq in Hk. lia.
Qed.
Lemma mx_nodup extra i : (0 < extra)%Z -> NoDup (mx extra i).
Proof.
  intros H. unfold max_coeff. cbv zeta. destruct (Z.ltb_spec 0 extra); [|lia]. set (o := argsort dim _).
  assert (N : NoDup o). { destruct (HA dim (fun j => Rabs (coef i j 0%nat))) as [P _]. apply (Permutation_NoDup (Permutation_sym P)). apply seq_NoDup. }
  revert N. generalize (dim - Z.to_nat extra)%nat. intros k. generalize o. clear o. induction k as [|k IH]; intros o N; [exact N|]. destruct o as [|a o]; [constructor|]. cbn [skipn]. apply IH. inversion N; assumption.
Qed.
Lemma mx_largest extra i a k : (0 < extra)%Z -> In a (mx extra i) -> (k < dim)%nat -> ~ In k (mx extra i) -> Rabs (coef i k 0%nat) <= Rabs (coef i a 0%nat).
Proof.
  intros H. unfold max_coeff. cbv zeta. destruct (Z.ltb_spec 0 extra); [|lia]. destruct (HA dim (fun j => Rabs (coef i j 0%nat))) as [P S]. set (o := argsort dim _) in *. set (c := (dim - Z.to_nat extra)%nat).
  intros Ha Hk Nk. rewrite <- (firstn_skipn c o) in S, P. apply (sorted_app _ _ _ S k a); [|exact Ha].
  assert (I : In k (firstn c o ++ skipn c o)) by (apply (Permutation_in k (Permutation_sym P)); apply in_seq; lia). apply in_app_or in I. destruct I as [I|I]; [exact I|contradiction].
Qed.
(** ** outcomes *)
Definition given : Prop := all_given dim pts.
Lemma missing_iff : missing dim pts = false <-> given.
Proof.
  unfold missing, given, all_given. split.
  - intros H j Hj E. assert (Q : existsb (fun j => match pts j with None => true | Some _ => false end) (seq 0 dim) = true); [|congruence]. apply existsb_exists. exists j. split; [apply in_seq; lia|]. rewrite E. reflexivity.
  - intros H. apply not_true_is_false. intros Q. apply existsb_exists in Q. destruct Q as (j & Hj & E). apply in_seq in Hj. specialize (H j). destruct (pts j); [discriminate|]. apply H; [lia|reflexivity].
Qed.
Lemma xtab_len extra : (extra <> 0)%Z -> length (xtab extra) = (nt * (if Z.ltb 0 extra then Nat.min (Z.to_nat extra) dim else dim - Z.to_nat (- extra)))%nat.
Proof.
  intros N. unfold extra_table. rewrite (length_blocks _ (if Z.ltb 0 extra then Nat.min (Z.to_nat extra) dim else dim - Z.to_nat (- extra))%nat); [reflexivity|]. intros i _. unfold extra_rows. destruct (Z.eqb_spec extra 0); [contradiction|]. rewrite map_length.
  destruct (Z.ltb_spec 0 extra); [apply mx_len; assumption|apply mx_len_neg; lia].
Qed.
Definition is_ready (o : prepared) : Prop := match o with Ready _ _ _ _ => True | _ => False end.
Lemma prep_eq extra st : given -> (2 <= dim)%nat -> (0 <= extra)%Z ->
  fst (prep extra st) = (if Z.eqb extra 0 then st else st * (extra + 1))%Z /\
  (is_ready (snd (prep extra st)) <-> Z.of_nat (nt * (1 + Nat.min (Z.to_nat extra) dim)) = (st * (extra + 1))%Z).
Proof.
  intros G D E0. unfold prepare. rewrite (proj2 missing_iff G). destruct (Nat.leb_spec dim 1); [lia|]. cbv zeta. cbn [fst snd]. split; [reflexivity|].
  destruct (Z.eqb_spec extra 0) as [->|N].
  - cbn [length]. rewrite Nat.add_0_r. replace (nt * (1 + Nat.min (Z.to_nat 0) dim))%nat with nt by (cbn; lia). replace (st * (0 + 1))%Z with st by lia. destruct (Z.eqb_spec (Z.of_nat nt) st); cbn [is_ready]; tauto.
  - rewrite xtab_len by exact N. destruct (Z.ltb_spec 0 extra); [|lia]. replace (nt + nt * Nat.min (Z.to_nat extra) dim)%nat with (nt * (1 + Nat.min (Z.to_nat extra) dim))%nat by lia.
    destruct (Z.eqb_spec (Z.of_nat (nt * (1 + Nat.min (Z.to_nat extra) dim))) (st * (extra + 1))); cbn [is_ready]; tauto.
Qed.
Lemma preps_len extra st k : length (preps extra st k) = k.
Proof. revert st. induction k as [|k IH]; intros st; [reflexivity|]. cbn [prepares]. destruct (prep extra st) as [st' o]. cbn [length]. rewrite IH. reflexivity. Qed.
Lemma preps_state extra k : given -> (2 <= dim)%nat -> (0 <= extra)%Z -> forall st j, (j < k)%nat ->
  nth j (preps extra st k) KeyError = snd (prep extra (st * (extra + 1) ^ Z.of_nat j)).
Proof.
  intros G D E0. induction k as [|k IH]; intros st j Hj; [lia|]. cbn [prepares]. destruct (prep extra st) as [st' o] eqn:E. destruct j as [|j].
  - cbn [nth Z.of_nat]. rewrite Z.pow_0_r, Z.mul_1_r, E. reflexivity.
  - cbn [nth]. rewrite IH by lia. f_equal. f_equal. pose proof (prep_eq extra st G D E0) as [F _]. rewrite E in F. cbn [fst] in F. rewrite Nat2Z.inj_succ, Z.pow_succ_r by lia.
    destruct (Z.eqb_spec extra 0) as [->|N]; rewrite F; [replace (0 + 1)%Z with 1%Z by lia; rewrite Z.mul_1_l; reflexivity|ring].
Qed.
Lemma t_calls extra k j : (0 < nt)%nat -> given -> (2 <= dim)%nat -> (0 <= extra)%Z -> (j < k)%nat ->
  is_ready (nth j (preps extra (Z.of_nat nt) k) KeyError) <-> (extra = 0)%Z \/ (extra <= Z.of_nat dim)%Z /\ j = 0%nat.
Proof.
  intros Hn G D E0 Hj. rewrite (preps_state extra k G D E0 _ j Hj). rewrite (proj2 (prep_eq extra _ G D E0)).
  destruct (Z.eq_dec extra 0) as [->|N].
  - split; [tauto|]. intros _. replace (0 + 1)%Z with 1%Z by lia. rewrite Z.pow_1_l by lia. cbn [Z.to_nat Nat.min]. lia.
  - assert (P : (2 <= extra + 1)%Z) by lia. rewrite Nat2Z.inj_mul, Nat2Z.inj_add, Nat2Z.inj_min, Z2Nat.id by lia. cbn [Z.of_nat Pos.of_succ_nat].
    set (mn := Z.min extra (Z.of_nat dim)).
    assert (Q : ((Z.of_nat nt * (1 + mn) = Z.of_nat nt * (extra + 1) ^ Z.of_nat j * (extra + 1))%Z <-> (1 + mn = (extra + 1) ^ (Z.of_nat j + 1))%Z)).
    { rewrite Z.pow_add_r, Z.pow_1_r by lia. rewrite <- Z.mul_assoc. split; intros H; [apply Z.mul_reg_l in H; [exact H|lia]|rewrite H; reflexivity]. }
    rewrite Q. split.
    + intros H. right. assert (J : (j = 0)%nat).
      { destruct j as [|j]; [reflexivity|exfalso]. assert (L : ((extra + 1) ^ 2 <= (extra + 1) ^ (Z.of_nat (S j) + 1))%Z) by (apply Z.pow_le_mono_r; lia). assert (mn <= extra)%Z by (unfold mn; lia). nia. }
      split; [|exact J]. subst j. cbn [Z.of_nat] in H. rewrite Z.pow_1_r in H. unfold mn in H. lia.
    + intros [H|[H ->]]; [contradiction|]. cbn [Z.of_nat]. rewrite Z.pow_1_r. unfold mn. lia.
Qed.
Lemma t_negative extra : (0 < nt)%nat -> given -> (2 <= dim)%nat -> (extra < 0)%Z -> snd (prep extra (Z.of_nat nt)) = RowsMismatch.
Proof.
  intros Hn G D E0. unfold prepare. rewrite (proj2 missing_iff G). destruct (Nat.leb_spec dim 1); [lia|]. cbv zeta. cbn [snd]. destruct (Z.eqb_spec extra 0); [lia|]. rewrite xtab_len by assumption. destruct (Z.ltb_spec 0 extra); [lia|].
  destruct (Z.eqb_spec (Z.of_nat (nt + nt * (dim - Z.to_nat (- extra)))) (Z.of_nat nt * (extra + 1))) as [Q|]; [|reflexivity]. exfalso. nia.
Qed.
Lemma t_missing extra st : ~ given -> prep extra st = (st, KeyError).
Proof. intros H. unfold prepare. destruct (missing dim pts) eqn:E; [reflexivity|]. exfalso. apply H. apply missing_iff. exact E. Qed.
Lemma t_one_input extra st : given -> (dim <= 1)%nat -> prep extra st = (st, IndexError).
Proof. intros G D. unfold prepare. rewrite (proj2 missing_iff G). destruct (Nat.leb_spec dim 1); [reflexivity|lia]. Qed.
(** ** the training table *)
Lemma t_table extra st rows Xa ya co : snd (prep extra st) = Ready rows Xa ya co -> (0 <= extra <= Z.of_nat dim)%Z ->
  rows = (nt * (1 + Z.to_nat extra))%nat /\ co = cpls /\ (forall i, (i < nt)%nat -> Xa i = X i /\ ya i = y i) /\
  exists sel : nat -> nat -> nat, forall i, (i < nt)%nat ->
    (forall r, (r < Z.to_nat extra)%nat -> (sel i r < dim)%nat /\
       moved (X i) (sel i r) (delta_x * (upper (sel i r) - lower (sel i r))) (Xa (nt + i * Z.to_nat extra + r)%nat) /\
       ya (nt + i * Z.to_nat extra + r)%nat = taylor dim (X i) (y i) (g i) (Xa (nt + i * Z.to_nat extra + r)%nat)) /\
    (forall r r', (r < Z.to_nat extra)%nat -> (r' < Z.to_nat extra)%nat -> sel i r = sel i r' -> r = r') /\
    (forall r k, (r < Z.to_nat extra)%nat -> (k < dim)%nat -> (forall r', (r' < Z.to_nat extra)%nat -> sel i r' <> k) -> Rabs (coef i k 0%nat) <= Rabs (coef i (sel i r) 0%nat)).
Proof.
  unfold prepare. destruct (missing dim pts); [discriminate|]. destruct (Nat.leb dim 1); [discriminate|]. cbv zeta. cbn [snd]. intros E B. match type of E with (if ?b then _ else _) = _ => destruct b; [|discriminate] end. injection E as <- <- <- <-.
  destruct (Z.eqb_spec extra 0) as [->|N].
  - cbn [length Z.to_nat]. split; [lia|]. split; [reflexivity|]. split; [intros i Hi; destruct (Nat.ltb_spec i nt); [split; reflexivity|lia]|]. exists (fun _ _ => 0%nat). intros i Hi. split; [intros; lia|]. split; intros; lia.
  - assert (P : (0 < extra)%Z) by lia. set (e := Z.to_nat extra). rewrite xtab_len by exact N. destruct (Z.ltb_spec 0 extra); [|lia]. assert (M : Nat.min (Z.to_nat extra) dim = e) by (unfold e; lia). rewrite M.
    split; [lia|]. split; [reflexivity|]. split; [intros i Hi; destruct (Nat.ltb_spec i nt); [split; reflexivity|lia]|].
    exists (fun i r => nth r (mx extra i) 0%nat). intros i Hi. assert (L : length (mx extra i) = e) by (rewrite mx_len by exact P; exact M).
    assert (T : forall r, (r < e)%nat -> nth (i * e + r) (xtab extra) (X 0%nat, 0) = (let ii := nth r (mx extra i) 0%nat in ((fun j => if Nat.eqb j ii then X i j + delta_x * (upper ii - lower ii) else X i j), y i + grad pts ii i * (delta_x * (upper ii - lower ii))))).
    { intros r Hr. unfold extra_table. rewrite (nth_blocks (xrows extra) e (X 0%nat, 0) nt); [| |exact Hi|exact Hr].
      - unfold extra_rows. destruct (Z.eqb_spec extra 0); [contradiction|]. set (h := fun ii => _). rewrite (nth_indep _ _ (h 0%nat)) by (rewrite map_length, L; exact Hr). rewrite map_nth. reflexivity.
      - intros i' Hi'. unfold extra_rows. destruct (Z.eqb_spec extra 0); [contradiction|]. rewrite map_length, mx_len by exact P. exact M. }
    split; [|split].
    + intros r Hr. assert (Hs : (nth r (mx extra i) 0 < dim)%nat) by (apply (mx_in extra i _ P); apply nth_In; rewrite L; exact Hr). split; [exact Hs|].
      destruct (Nat.ltb_spec (nt + i * e + r) nt); [lia|]. replace (nt + i * e + r - nt)%nat with (i * e + r)%nat by lia. rewrite (T r Hr). cbv zeta. cbn [fst snd]. set (ii := nth r (mx extra i) 0%nat) in *. split.
      * intros j. destruct (Nat.eqb j ii); ring.
      * unfold taylor. f_equal. rewrite (rsum_ext dim _ (fun j => if Nat.eqb j ii then grad pts j i * (delta_x * (upper j - lower j)) else 0)).
        -- symmetry. apply (rsum_single dim (fun j => grad pts j i * (delta_x * (upper j - lower j))) ii Hs).
        -- intros j _. destruct (Nat.eqb_spec j ii) as [->|]; ring.
    + intros r r' Hr Hr' Es. apply (proj1 (NoDup_nth (mx extra i) 0%nat) (mx_nodup extra i P)); [rewrite L; exact Hr|rewrite L; exact Hr'|exact Es].
    + intros r k Hr Hk Nk. apply (mx_largest extra i _ _ P); [apply nth_In; rewrite L; exact Hr|exact Hk|]. intros I. apply (In_nth _ _ 0%nat) in I. destruct I as (r' & Hr' & Er). rewrite L in Hr'. apply (Nk r' Hr'). exact Er.
Qed.
Lemma t_affine_exact extra st rows Xa ya co (b : R) (a : vec) : snd (prep extra st) = Ready rows Xa ya co -> (0 <= extra <= Z.of_nat dim)%Z ->
  (forall i, (i < nt)%nat -> y i = b + rsum dim (fun j => a j * X i j)) -> (forall i j, (i < nt)%nat -> (j < dim)%nat -> grad pts j i = a j) ->
  forall q, (q < rows)%nat -> ya q = b + rsum dim (fun j => a j * Xa q j).
Proof.
  intros E B Hy Hg q Hq. destruct (t_table extra st rows Xa ya co E B) as (Er & _ & H0 & sel & Hs). set (e := Z.to_nat extra) in *. destruct (lt_dec q nt) as [L|L].
  - destruct (H0 q L) as [-> ->]. apply Hy. exact L.
  - assert (He : (0 < e)%nat) by nia. set (q' := (q - nt)%nat). assert (Hi : (q' / e < nt)%nat) by (apply Nat.div_lt_upper_bound; lia). assert (Hr : (q' mod e < e)%nat) by (apply Nat.mod_upper_bound; lia).
    destruct (Hs (q' / e)%nat Hi) as (H1 & _). destruct (H1 (q' mod e)%nat Hr) as (_ & _ & Ht). assert (Eq : (nt + q' / e * e + q' mod e = q)%nat) by (pose proof (Nat.div_mod q' e ltac:(lia)); unfold q' in *; nia). rewrite Eq in Ht. rewrite Ht.
    unfold taylor. rewrite Hy by exact Hi. rewrite Rplus_assoc. f_equal. rewrite <- rsum_plus. apply rsum_ext. intros j Hj. rewrite Hg by assumption. ring.
Qed.
(** ** the trained model *)
Variables (qr : nat -> nat -> mat -> mat * mat) (rcond : nat -> mat -> R) (condF : nat -> nat -> mat -> R).
Hypotheses (HQ : qr_contract qr) (HR : rcond_contract rcond).
Lemma t_reproduces po c theta nugget noise extra m : gek_train bb pls argsort dim nt n_comp delta_x lower upper X y pts qr rcond condF po c theta nugget noise extra = Some m ->
  (0 <= extra <= Z.of_nat dim)%Z -> (forall a, nugget + noise a = 0) -> exists sel : nat -> nat -> nat, forall i, (i < nt)%nat -> predict_value m (X i) = y i /\
    (forall r r', (r < Z.to_nat extra)%nat -> (r' < Z.to_nat extra)%nat -> sel i r = sel i r' -> r = r') /\
    (forall r, (r < Z.to_nat extra)%nat -> (sel i r < dim)%nat /\ exists x, moved (X i) (sel i r) (delta_x * (upper (sel i r) - lower (sel i r))) x /\
      predict_value m x - predict_value m (X i) = grad pts (sel i r) i * (delta_x * (upper (sel i r) - lower (sel i r)))).
Proof.
  unfold gek_train. destruct (snd (prep extra (Z.of_nat nt))) as [rows Xa ya co| | |] eqn:E; try discriminate. intros Hm B Z. destruct (t_table extra _ rows Xa ya co E B) as (Er & _ & H0 & sel & Hs). set (e := Z.to_nat extra) in *.
  assert (I : forall q, (q < rows)%nat -> predict_value m (Xa q) = ya q) by (intros q Hq; apply (t_exact qr rcond condF HQ HR dim rows po (KPls c n_comp co theta) nugget noise Xa ya m Hm q Hq (Z q))).
  exists sel. intros i Hi. destruct (Hs i Hi) as (H1 & H2 & _). destruct (H0 i Hi) as [EX Ey]. assert (V : predict_value m (X i) = y i) by (rewrite <- EX, <- Ey; apply I; nia). split; [exact V|]. split; [exact H2|].
  intros r Hr. destruct (H1 r Hr) as (A1 & A2 & A3). split; [exact A1|]. exists (Xa (nt + i * e + r)%nat). split; [exact A2|]. rewrite I by nia. rewrite A3, V. unfold taylor.
  rewrite (rsum_ext dim _ (fun j => if Nat.eqb j (sel i r) then grad pts j i * (delta_x * (upper j - lower j)) else 0)).
  - rewrite (rsum_single dim (fun j => grad pts j i * (delta_x * (upper j - lower j))) (sel i r) A1). ring.
  - intros j _. rewrite (A2 j). destruct (Nat.eqb_spec j (sel i r)) as [->|]; ring.
Qed.
End Ge.
(** the points given with the derivatives are not read *)
Definition same_values (dim nt : nat) (p q : deriv_data) : Prop := forall j, match p j, q j with Some (_, v), Some (_, w) => v = w | None, None => True | _, _ => False end.
Lemma t_positions bb pls argsort dim nt n_comp delta_x lower upper X y p q extra st : same_values dim nt p q ->
  prepare bb pls argsort dim nt n_comp delta_x lower upper X y p extra st = prepare bb pls argsort dim nt n_comp delta_x lower upper X y q extra st.
Proof.
  intros H. assert (G : grad p = grad q).
  { apply FunctionalExtensionality.functional_extensionality. intros j. apply FunctionalExtensionality.functional_extensionality. intros i. unfold grad. specialize (H j). destruct (p j) as [[? v]|], (q j) as [[? w]|]; try contradiction; [rewrite H; reflexivity|reflexivity]. }
  assert (M : missing dim p = missing dim q).
  { unfold missing. f_equal. apply FunctionalExtensionality.functional_extensionality. intros j. specialize (H j). destruct (p j) as [[? v]|], (q j) as [[? w]|]; try contradiction; reflexivity. }
  unfold prepare, extra_table, extra_rows, max_coeff, coeff_pls, coeff_at, local, local2, local3. rewrite G, M. reflexivity.
Qed.
