From Coq Require Import String ZArith QArith Qround Bool Arith List Lia Lqa.
From Verif Require Import MixInt_M MixInt_S.
Import ListNotations.
Open Scope list_scope.
Open Scope nat_scope.

Lemma Forall2_length {A B} (R : A -> B -> Prop) l1 l2 : Forall2 R l1 l2 -> length l1 = length l2.
Proof. induction 1; cbn; congruence. Qed.

(** ** limits *)
Lemma check_loop_iff : forall ts ls, length ls = length ts ->
  (check_loop ts ls = true <-> Forall2 limits_fit ts ls).
Proof.
  induction ts as [|t ts IH]; intros [|l ls] H; cbn in H; try discriminate.
  - split; [constructor|reflexivity].
  - injection H as H. specialize (IH ls H). cbn [check_loop].
    destruct t; cbn [is_tuple negb andb bad_spec tuple_arity].
    + destruct (Nat.eqb_spec (length l) 2) as [E|E]; cbn.
      * rewrite IH. split; intros F; [constructor; assumption|inversion F; assumption].
      * split; [discriminate|]. intros F; inversion F; subst; contradiction.
    + destruct (Nat.eqb_spec (length l) 2) as [E|E]; cbn.
      * rewrite IH. split; intros F; [constructor; assumption|inversion F; assumption].
      * split; [discriminate|]. intros F; inversion F; subst; contradiction.
    + destruct (Nat.eqb_spec (length l) n) as [E|E]; cbn.
      * rewrite IH. split; intros F; [constructor; assumption|inversion F; assumption].
      * split; [discriminate|]. intros F; inversion F; subst; contradiction.
    + destruct (Nat.eqb_spec (length l) 2) as [E|E]; cbn;
      (split; [discriminate|]; intros F; inversion F; subst; contradiction).
    + split; [discriminate|]. intros F; inversion F; subst; contradiction.
Qed.

Lemma check_iff : forall ts ls, check_xspec ts ls = true <-> Forall2 limits_fit ts ls.
Proof.
  intros ts ls. unfold check_xspec. destruct (Nat.eqb_spec (length ls) (length ts)) as [E|E]; cbn.
  - apply check_loop_iff; exact E.
  - split; [discriminate|]. intros F. apply Forall2_length in F. congruence.
Qed.

Lemma dim_acc : forall ts a, Forall good_type ts \/ (forall t, In t ts -> bad_spec t = false) ->
  unfolded_dim_acc ts a = Ok (a + list_sum (map width ts)).
Proof.
  induction ts as [|t ts IH]; intros a H; [cbn; f_equal; lia|].
  assert (Hb : bad_spec t = false).
  { destruct H as [H|H]; [inversion H as [|x y Hg Hr]; subst; destruct t; cbn in *; tauto|apply H; left; reflexivity]. }
  assert (Hr : Forall good_type ts \/ (forall t, In t ts -> bad_spec t = false)).
  { destruct H as [H|H]; [left; inversion H; assumption|right; intros; apply H; right; assumption]. }
  destruct t; cbn in Hb; try discriminate; cbn [unfolded_dim_acc map width list_sum fold_right];
  rewrite IH by exact Hr; f_equal; unfold list_sum; lia.
Qed.

Lemma fit_not_bad : forall ts ls, Forall2 limits_fit ts ls -> forall t, In t ts -> bad_spec t = false.
Proof.
  induction 1 as [|t l ts ls H F IH]; intros u Hu; [destruct Hu|].
  destruct Hu as [E|E]; [subst; destruct u; cbn in *; tauto|auto].
Qed.

Lemma to_floats_app : forall a b, to_floats (a ++ b) =
  match to_floats a with
  | Ok x => match to_floats b with Ok y => Ok (x ++ y) | ValueError => ValueError | IndexError => IndexError end
  | ValueError => ValueError | IndexError => IndexError end.
Proof.
  induction a as [|r a IH]; intros b; cbn.
  - destruct (to_floats b); reflexivity.
  - destruct r as [|[q|s] r]; try reflexivity.
    destruct r as [|[q2|s2] r]; try reflexivity. destruct r as [|x r]; try reflexivity.
    rewrite IH. destruct (to_floats a); try reflexivity. destruct (to_floats b); reflexivity.
Qed.

Lemma to_floats_repeat : forall n, to_floats (repeat [Num 0; Num 1] n) = Ok (repeat (0%Q, 1%Q) n).
Proof. induction n as [|n IH]; cbn; [reflexivity|]. rewrite IH. reflexivity. Qed.

Lemma unfold_limits_iff : forall ts ls lims, check_xspec ts ls = true ->
  (unfold_xlimits ts ls = Ok lims <-> exists rss, Forall3 relaxed ts ls rss /\ lims = concat rss).
Proof.
  intros ts ls lims H. apply check_iff in H. revert lims. unfold unfold_xlimits.
  induction H as [|t l ts ls Hf F IH]; intros lims.
  - cbn. split.
    + intros E; injection E as <-. exists []. split; [constructor|reflexivity].
    + intros (rss & F3 & ->). inversion F3; subst. reflexivity.
  - cbn [unfold_rows].
    assert (Hnum : forall (t : xtype), (t = FLOAT \/ t = INT) -> length l = 2 ->
      (match match unfold_rows ts ls with Ok r => Ok (l :: r) | e => e end with
       | Ok r => to_floats r | ValueError => ValueError | IndexError => IndexError end = Ok lims
       <-> exists rss, Forall3 relaxed (t :: ts) (l :: ls) rss /\ lims = concat rss)).
    { intros t' Ht Hl. destruct l as [|v1 [|v2 [|? ?]]]; try discriminate. clear Hl. split.
      - destruct (unfold_rows ts ls) as [r| |] eqn:Er; try discriminate. cbn [to_floats].
        destruct v1 as [q1|s1]; try discriminate. destruct v2 as [q2|s2]; try discriminate.
        destruct (to_floats r) as [fs| |] eqn:Ef; try discriminate. intros E; injection E as <-.
        destruct (proj1 (IH fs) eq_refl) as (rss & F3 & ->).
        exists ([(q1, q2)] :: rss). split; [|reflexivity]. constructor; [|exact F3].
        destruct Ht as [-> | ->]; cbn; exists q1, q2; split; reflexivity.
      - intros (rss & F3 & ->). inversion F3 as [|t0 l0 rows ts0 ls0 rss' Hr F3' Et El Ers]; subst.
        assert (exists a b, [v1; v2] = [Num a; Num b] /\ rows = [(a, b)]) as (a & b & E1 & ->).
        { destruct Ht as [-> | ->]; exact Hr. }
        injection E1 as -> ->.
        pose proof (proj2 (IH (concat rss')) (ex_intro _ rss' (conj F3' eq_refl))) as IH'.
        destruct (unfold_rows ts ls) as [r| |]; try discriminate. cbn [to_floats]. rewrite IH'. reflexivity. }
    destruct t as [| |n| |n]; cbn in Hf; try contradiction.
    + apply (Hnum FLOAT); [left; reflexivity|exact Hf].
    + apply (Hnum INT); [right; reflexivity|exact Hf].
    + rewrite Hf, Nat.eqb_refl. split.
      * destruct (unfold_rows ts ls) as [r| |] eqn:Er; try discriminate.
        rewrite to_floats_app, to_floats_repeat.
        destruct (to_floats r) as [fs| |] eqn:Ef; try discriminate. intros E; injection E as <-.
        destruct (proj1 (IH fs) eq_refl) as (rss & F3 & ->).
        exists (repeat (0%Q, 1%Q) n :: rss). split; [|reflexivity]. constructor; [reflexivity|exact F3].
      * intros (rss & F3 & ->). inversion F3 as [|t0 l0 rows ts0 ls0 rss' Hr F3' Et El Ers]; subst.
        cbn in Hr. subst rows.
        pose proof (proj2 (IH (concat rss')) (ex_intro _ rss' (conj F3' eq_refl))) as IH'.
        destruct (unfold_rows ts ls) as [r| |]; try discriminate.
        rewrite to_floats_app, to_floats_repeat, IH'. reflexivity.
Qed.

Lemma relaxed_length : forall ts ls rss, Forall2 limits_fit ts ls -> Forall3 relaxed ts ls rss ->
  length (concat rss) = list_sum (map width ts).
Proof.
  intros ts ls rss F F3. revert F.
  induction F3 as [|t l r ts ls rss H F3 IH]; intros F; [reflexivity|].
  inversion F as [|? ? ? ? Hf F']; subst.
  cbn [concat map list_sum fold_right]. rewrite app_length, IH by exact F'. f_equal.
  destruct t; cbn in *; try (destruct H as (a & b & _ & ->); reflexivity). subst. apply repeat_length.
Qed.

Lemma unfold_dim : forall ts ls lims, check_xspec ts ls = true -> unfold_xlimits ts ls = Ok lims ->
  compute_unfolded_dimension ts = Ok (length lims).
Proof.
  intros ts ls lims H U. apply (unfold_limits_iff _ _ _ H) in U. destruct U as (rss & F3 & ->).
  apply check_iff in H. rewrite (relaxed_length _ _ _ H F3).
  unfold compute_unfolded_dimension. rewrite dim_acc; [reflexivity|].
  right. apply (fit_not_bad _ _ H).
Qed.

(** ** rounding *)
Lemma Qlt_bool_iff a b : Qlt_bool a b = true <-> (a < b)%Q.
Proof.
  unfold Qlt_bool. rewrite negb_true_iff. split; intros H.
  - apply Qnot_le_lt. intros H'. apply Qle_bool_iff in H'. congruence.
  - destruct (Qle_bool b a) eqn:E; [|reflexivity]. apply Qle_bool_iff in E.
    exfalso. apply (Qlt_not_le _ _ H E).
Qed.
Lemma Qle_bool_false a b : Qle_bool a b = false <-> (b < a)%Q.
Proof. rewrite <- Qlt_bool_iff. unfold Qlt_bool. rewrite negb_true_iff. reflexivity. Qed.

Lemma inject_Z_1 z : (inject_Z (z + 1) == inject_Z z + 1)%Q.
Proof. rewrite inject_Z_plus. reflexivity. Qed.

Lemma floor_bounds q : (inject_Z (Qfloor q) <= q /\ q < inject_Z (Qfloor q) + 1)%Q.
Proof.
  split; [apply Qfloor_le|]. pose proof (Qlt_floor q) as H. rewrite inject_Z_1 in H. exact H.
Qed.

Lemma np_round_nearest q : nearest_even q (np_round q).
Proof.
  unfold nearest_even, np_round. pose proof (floor_bounds q) as [H1 H2].
  set (f := Qfloor q) in *.
  destruct (Qle_bool (1#2) (q - inject_Z f)) eqn:E1.
  - apply Qle_bool_iff in E1. destruct (Qle_bool (q - inject_Z f) (1#2)) eqn:E2.
    + apply Qle_bool_iff in E2. destruct (Z.even f) eqn:Ev.
      * split; [split; lra|]. intros _; exact Ev.
      * rewrite inject_Z_1. split; [split; lra|]. intros _. rewrite Z.even_add, Ev. reflexivity.
    + apply Qle_bool_false in E2. rewrite inject_Z_1. split; [split; lra|]. intros [H|H]; lra.
  - apply Qle_bool_false in E1. split; [split; lra|]. intros [H|H]; lra.
Qed.

Lemma np_round_Z z : np_round (inject_Z z) = z.
Proof.
  unfold np_round. rewrite Qfloor_Z.
  replace (Qle_bool (1 # 2) (inject_Z z - inject_Z z)) with false; [reflexivity|].
  symmetry. apply Qle_bool_false. lra.
Qed.

Lemma nearest_in_int_bounds q z a b : nearest_even q z -> (inject_Z a <= q)%Q -> (q <= inject_Z b)%Q ->
  (a <= z <= b)%Z.
Proof.
  intros [[H1 H2] _] Ha Hb. split.
  - destruct (Z_le_gt_dec a z) as [L|L]; [exact L|exfalso].
    assert (E : (inject_Z z + 1 <= inject_Z a)%Q) by (rewrite <- inject_Z_1, <- Zle_Qle; lia). lra.
  - destruct (Z_le_gt_dec z b) as [L|L]; [exact L|exfalso].
    assert (E : (inject_Z b + 1 <= inject_Z z)%Q) by (rewrite <- inject_Z_1, <- Zle_Qle; lia). lra.
Qed.

(** ** maxima *)
Lemma np_max_spec : forall l d, (d <= np_max d l)%Q /\ (forall x, In x l -> (x <= np_max d l)%Q) /\
  In (np_max d l) (d :: l).
Proof.
  induction l as [|y l IH]; intros d; cbn [np_max].
  - split; [apply Qle_refl|]. split; [intros x []|left; reflexivity].
  - destruct (IH (if Qle_bool d y then y else d)) as (A & B & C).
    assert (D : (d <= (if Qle_bool d y then y else d))%Q /\ (y <= (if Qle_bool d y then y else d))%Q).
    { destruct (Qle_bool d y) eqn:E; [apply Qle_bool_iff in E|apply Qle_bool_false in E]; split; lra. }
    destruct D as [D1 D2]. split; [eapply Qle_trans; eassumption|]. split.
    + intros x [<-|Hx]; [eapply Qle_trans; eassumption|apply B; exact Hx].
    + destruct C as [C|C]; [|right; right; exact C]. rewrite <- C.
      destruct (Qle_bool d y); [right; left; reflexivity|left; reflexivity].
Qed.

Lemma mask_maximal a b i : i < length (a :: b) ->
  (nth i (map (fun v => if Qlt_bool v (np_max a b) then 0%Q else 1%Q) (a :: b)) 0%Q =
   if Qlt_bool (nth i (a :: b) 0%Q) (np_max a b) then 0%Q else 1%Q) /\
  (maximal (a :: b) i <-> Qlt_bool (nth i (a :: b) 0%Q) (np_max a b) = false).
Proof.
  intros Hi. destruct (np_max_spec b a) as (A & B & C). split.
  - set (f := fun v => if Qlt_bool v (np_max a b) then 0%Q else 1%Q).
    rewrite nth_indep with (d' := f 0%Q) by (rewrite map_length; exact Hi).
    rewrite map_nth. reflexivity.
  - unfold Qlt_bool. rewrite negb_false_iff, Qle_bool_iff. unfold maximal. split.
    + intros H. destruct (In_nth _ _ 0%Q C) as (j & Hj & <-). apply H. exact Hj.
    + intros H j Hj. eapply Qle_trans; [|exact H].
      destruct (nth_In _ 0%Q Hj) as [E|E]; [rewrite <- E; exact A|apply B; exact E].
Qed.

Lemma max_exists a b : exists i, i < length (a :: b) /\ maximal (a :: b) i.
Proof.
  destruct (np_max_spec b a) as (A & B & C). destruct (In_nth _ _ 0%Q C) as (i & Hi & E).
  exists i. split; [exact Hi|]. apply (mask_maximal a b i Hi). rewrite E.
  unfold Qlt_bool. rewrite negb_false_iff. apply Qle_bool_iff, Qle_refl.
Qed.

(** ** projection *)
Lemma firstn_app_exact {A} (b r : list A) n : length b = n -> firstn n (b ++ r) = b.
Proof. intros <-. rewrite firstn_app, Nat.sub_diag, firstn_all, firstn_O, app_nil_r. reflexivity. Qed.
Lemma skipn_app_exact {A} (b r : list A) n : length b = n -> skipn n (b ++ r) = r.
Proof. intros <-. rewrite skipn_app, Nat.sub_diag, skipn_all. reflexivity. Qed.

Lemma project_enum a b n : length (a :: b) = n ->
  projected (ENUM n) (a :: b) (map (fun v => if Qlt_bool v (np_max a b) then 0%Q else 1%Q) (a :: b)).
Proof.
  intros H. cbn [projected]. split; [rewrite map_length; exact H|]. split.
  - intros i Hi. rewrite <- H in Hi. destruct (mask_maximal a b i Hi) as [E M]. rewrite E. split.
    + intros Hm. apply M in Hm. rewrite Hm. reflexivity.
    + intros Hm. destruct (Qlt_bool (nth i (a :: b) 0%Q) (np_max a b)) eqn:Eq; [reflexivity|].
      exfalso. apply Hm, M. reflexivity.
  - destruct (max_exists a b) as (i & Hi & Hm). exists i. split; [lia|exact Hm].
Qed.

Lemma cast_projects : forall ts bs, Forall good_type ts -> blocks ts bs ->
  exists bs', cast_row ts (concat bs) = Ok (concat bs') /\ Forall3 projected ts bs bs'.
Proof.
  intros ts bs G B. revert G. induction B as [|t b ts bs Hb B IH]; intros G.
  - exists []. split; [reflexivity|constructor].
  - inversion G as [|? ? Gt Gr]; subst. destruct (IH Gr) as (bs' & E & F).
    destruct t as [| |n| |n]; cbn in Gt; try contradiction; cbn [width] in Hb.
    + destruct b as [|q [|? ?]]; try discriminate. exists ([q] :: bs').
      split; [cbn; rewrite E; reflexivity|constructor; [reflexivity|exact F]].
    + destruct b as [|q [|? ?]]; try discriminate. exists ([inject_Z (np_round q)] :: bs').
      split; [cbn; rewrite E; reflexivity|]. constructor; [|exact F].
      exists q, (np_round q). repeat split; apply np_round_nearest.
    + cbn [cast_row concat]. rewrite (firstn_app_exact b _ n Hb), (skipn_app_exact b _ n Hb), E.
      destruct b as [|a b]; [cbn in Hb; lia|]. eexists (_ :: bs').
      split; [reflexivity|]. constructor; [|exact F]. apply project_enum; exact Hb.
Qed.

Lemma one_if v m : (if Qlt_bool v m then 0%Q else 1%Q) = 0%Q \/ (if Qlt_bool v m then 0%Q else 1%Q) = 1%Q.
Proof. destruct (Qlt_bool v m); auto. Qed.

Lemma mask_idem a b : let f := (fun v => if Qlt_bool v (np_max a b) then 0%Q else 1%Q) in
  forall a' b', a' :: b' = map f (a :: b) ->
  map (fun v => if Qlt_bool v (np_max a' b') then 0%Q else 1%Q) (a' :: b') = a' :: b'.
Proof.
  intros f a' b' E. destruct (np_max_spec b a) as (A & B & C).
  assert (H01 : forall x, In x (a' :: b') -> x = 0%Q \/ x = 1%Q).
  { intros x. rewrite E, in_map_iff. intros (y & <- & _). apply one_if. }
  assert (H1 : In 1%Q (a' :: b')).
  { rewrite E, in_map_iff. exists (np_max a b). split; [|exact C]. unfold f.
    replace (Qlt_bool (np_max a b) (np_max a b)) with false; [reflexivity|]. symmetry.
    unfold Qlt_bool. rewrite negb_false_iff. apply Qle_bool_iff, Qle_refl. }
  destruct (np_max_spec b' a') as (A' & B' & C').
  assert (M : (np_max a' b' == 1)%Q).
  { destruct (H01 _ C') as [Z|Z]; [|rewrite Z; reflexivity]. exfalso.
    assert (1 <= np_max a' b')%Q.
    { destruct H1 as [H1|H1]; [rewrite <- H1; exact A'|apply B'; exact H1]. }
    rewrite Z in H. lra. }
  transitivity (map (fun x : Q => x) (a' :: b')); [|apply map_id]. apply map_ext_in. intros x Hx.
  destruct (H01 x Hx) as [-> | ->].
  - replace (Qlt_bool 0 (np_max a' b')) with true; [reflexivity|]. symmetry. apply Qlt_bool_iff. rewrite M. reflexivity.
  - replace (Qlt_bool 1 (np_max a' b')) with false; [reflexivity|]. symmetry. unfold Qlt_bool.
    rewrite negb_false_iff. apply Qle_bool_iff. rewrite M. apply Qle_refl.
Qed.

Lemma cast_length : forall ts x y, cast_row ts x = Ok y -> length y = length x.
Proof.
  induction ts as [|t ts IH]; intros x y H; cbn [cast_row] in H; [injection H as <-; reflexivity|].
  destruct t; try discriminate.
  - destruct x as [|a r]; [apply IH in H; exact H|].
    destruct (cast_row ts r) eqn:E; try discriminate. injection H as <-. cbn. f_equal. apply (IH _ _ E).
  - destruct x as [|a r]; try discriminate.
    destruct (cast_row ts r) eqn:E; try discriminate. injection H as <-. cbn. f_equal. apply (IH _ _ E).
  - destruct (firstn n x) as [|a b] eqn:Ef; try discriminate.
    destruct (cast_row ts (skipn n x)) as [l| |] eqn:E; try discriminate. injection H as <-.
    change (length (map (fun v => if Qlt_bool v (np_max a b) then 0%Q else 1%Q) (a :: b) ++ l) = length x).
    rewrite app_length, map_length, <- Ef, (IH _ _ E), <- app_length, firstn_skipn. reflexivity.
Qed.

Lemma cast_idem : forall ts x y, cast_row ts x = Ok y -> cast_row ts y = Ok y.
Proof.
  induction ts as [|t ts IH]; intros x y H; cbn [cast_row] in H; [reflexivity|].
  destruct t; try discriminate.
  - destruct x as [|a r].
    + pose proof (cast_length _ _ _ H) as L. destruct y; [|discriminate]. cbn. apply (IH _ _ H).
    + destruct (cast_row ts r) eqn:E; try discriminate. injection H as <-. cbn. rewrite (IH _ _ E). reflexivity.
  - destruct x as [|a r]; try discriminate.
    destruct (cast_row ts r) eqn:E; try discriminate. injection H as <-. cbn.
    rewrite np_round_Z, (IH _ _ E). reflexivity.
  - destruct (firstn n x) as [|a b] eqn:Ef; try discriminate.
    destruct (cast_row ts (skipn n x)) as [l| |] eqn:E; try discriminate. injection H as <-.
    assert (Ln : n <= length x \/ skipn n x = []).
    { destruct (le_lt_dec n (length x)); [left; lia|right; apply skipn_all2; lia]. }
    pose proof (f_equal (@length Q) Ef) as L0. rewrite firstn_length in L0.
    cbn [cast_row].
    match goal with |- context [firstn n (?u :: ?v)] => set (a' := u); set (b' := v ++ []) end.
    set (M := map (fun v => if Qlt_bool v (np_max a b) then 0%Q else 1%Q) (a :: b)).
    change (match firstn n (M ++ l) with
            | [] => ValueError
            | a0 :: b0 => match cast_row ts (skipn n (M ++ l)) with
               | Ok l0 => Ok (map (fun v => if Qlt_bool v (np_max a0 b0) then 0%Q else 1%Q) (a0 :: b0) ++ l0)
               | e => e end
            end = Ok (M ++ l)).
    assert (EM : firstn n (M ++ l) = M /\ skipn n (M ++ l) = l).
    { assert (LM : length M = length (a :: b)) by (unfold M; apply map_length).
      destruct Ln as [Ln|Ln].
      - split; [apply firstn_app_exact|apply skipn_app_exact]; lia.
      - rewrite Ln in E. pose proof (cast_length _ _ _ E) as El. destruct l; [|discriminate].
        rewrite app_nil_r. assert (length x <= n) by (apply length_zero_iff_nil in Ln; rewrite skipn_length in Ln; lia).
        split; [apply firstn_all2|apply skipn_all2]; lia. }
    destruct EM as [EM1 EM2]. rewrite EM1, EM2, (IH _ _ E).
    destruct M as [|m0 m1] eqn:EMM; [discriminate|]. f_equal. f_equal.
    apply (mask_idem a b m0 m1). symmetry. exact EMM.
Qed.

(** ** fold / unfold *)
Lemma argmax_from_spec : forall l best bi i pre,
  i = length pre -> bi < i -> nth bi pre 0%Q = best ->
  (forall j, j < i -> (nth j pre 0 <= best)%Q) -> (forall j, j < bi -> (nth j pre 0 < best)%Q) ->
  let k := argmax_from best bi i l in
  k < length (pre ++ l) /\ maximal (pre ++ l) k /\ (forall j, j < k -> (nth j (pre ++ l) 0 < nth k (pre ++ l) 0)%Q).
Proof.
  induction l as [|x l IH]; intros best bi i pre Hi Hb Hn Hmax Hfirst; cbn [argmax_from].
  - rewrite app_nil_r. split; [lia|]. split.
    + intros j Hj. rewrite Hn. apply Hmax. lia.
    + intros j Hj. rewrite Hn. apply Hfirst. exact Hj.
  - assert (Happ : pre ++ x :: l = (pre ++ [x]) ++ l) by (rewrite <- app_assoc; reflexivity).
    assert (Hpre : forall j, j < i -> nth j (pre ++ [x]) 0%Q = nth j pre 0%Q) by (intros; apply app_nth1; lia).
    assert (Hx : nth i (pre ++ [x]) 0%Q = x) by (rewrite app_nth2, Hi, Nat.sub_diag by lia; reflexivity).
    rewrite Happ. destruct (Qlt_bool best x) eqn:E.
    + apply Qlt_bool_iff in E. apply IH; [rewrite app_length; cbn; lia|lia|exact Hx| |].
      * intros j Hj. destruct (Nat.eq_dec j i) as [-> | N]; [rewrite Hx; apply Qle_refl|].
        rewrite Hpre by lia. specialize (Hmax j ltac:(lia)). lra.
      * intros j Hj. rewrite Hpre by lia. specialize (Hmax j Hj). lra.
    + assert (E' : (x <= best)%Q).
      { unfold Qlt_bool in E. apply negb_false_iff, Qle_bool_iff in E. exact E. }
      apply IH; [rewrite app_length; cbn; lia|lia|rewrite Hpre by lia; exact Hn| |].
      * intros j Hj. destruct (Nat.eq_dec j i) as [-> | N]; [rewrite Hx; exact E'|].
        rewrite Hpre by lia. apply Hmax. lia.
      * intros j Hj. rewrite Hpre by lia. apply Hfirst; exact Hj.
Qed.

Lemma argmax_spec a b : let k := argmax_from a 0 1 b in
  k < length (a :: b) /\ maximal (a :: b) k /\ forall j, j < k -> (nth j (a :: b) 0 < nth k (a :: b) 0)%Q.
Proof.
  apply (argmax_from_spec b a 0 1 [a]); try reflexivity; try lia.
  intros j Hj. assert (j = 0) as -> by lia. cbn. apply Qle_refl.
Qed.

Lemma argmax_hot a b i : hot (a :: b) i -> argmax_from a 0 1 b = i.
Proof.
  intros [Hi H]. destruct (argmax_spec a b) as (K1 & K2 & K3). set (k := argmax_from a 0 1 b) in *.
  specialize (K2 i Hi). rewrite (H i Hi), Nat.eqb_refl, (H k K1) in K2.
  destruct (Nat.eqb_spec k i) as [E|E]; [exact E|]. exfalso. apply K2. reflexivity.
Qed.

Lemma hot_one_hot b i : hot b i -> b = one_hot (length b) i.
Proof.
  intros [Hi H]. apply nth_ext with (d := 0%Q) (d' := 0%Q).
  - unfold one_hot. rewrite map_length, seq_length. reflexivity.
  - intros n Hn. rewrite H by exact Hn. unfold one_hot.
    set (f := fun j => if Nat.eqb j i then 1%Q else 0%Q).
    rewrite nth_indep with (d' := f 0%nat) by (rewrite map_length, seq_length; exact Hn).
    rewrite map_nth, seq_nth by exact Hn. reflexivity.
Qed.

Lemma one_hot_hot n i : i < n -> hot (one_hot n i) i.
Proof.
  intros Hi. unfold hot. assert (L : length (one_hot n i) = n) by (unfold one_hot; rewrite map_length, seq_length; reflexivity).
  rewrite L. split; [exact Hi|]. intros j Hj. unfold one_hot.
  set (f := fun j => if Nat.eqb j i then 1%Q else 0%Q).
  rewrite nth_indep with (d' := f 0%nat) by (rewrite map_length, seq_length; exact Hj).
  rewrite map_nth, seq_nth by exact Hj. reflexivity.
Qed.

Lemma py_int_Z z : py_int (inject_Z z) = z.
Proof. unfold py_int. cbn. apply Z.quot_1_r. Qed.

Lemma py_index_nat n i : i < n -> py_index n (Z.of_nat i) = Some i.
Proof.
  intros H. unfold py_index. destruct (Z.leb_spec 0 (Z.of_nat i)); [|lia].
  destruct (Z.ltb_spec (Z.of_nat i) (Z.of_nat n)); [|lia]. cbn. rewrite Nat2Z.id. reflexivity.
Qed.

Lemma fold_unfold : forall ts v bs, Forall good_type ts -> Forall3 same_value ts v bs ->
  unfold_row ts v = Ok (concat bs) /\ fold_row ts (concat bs) = Ok v.
Proof.
  intros ts v bs G F. revert G. induction F as [|t a b ts v bs H F IH]; intros G; [split; reflexivity|].
  inversion G as [|? ? Gt Gr]; subst. destruct (IH Gr) as [IH1 IH2].
  destruct t as [| |n| |n]; cbn in Gt; try contradiction.
  - cbn in H; subst b. cbn. rewrite IH1, IH2. split; reflexivity.
  - cbn in H; subst b. cbn. rewrite IH1, IH2. split; reflexivity.
  - destruct H as (Ln & i & -> & Hh). cbn [unfold_row bad_spec concat fold_row].
    rewrite py_int_Z, py_index_nat by (destruct Hh; lia). rewrite IH1.
    rewrite (firstn_app_exact b _ n Ln), (skipn_app_exact b _ n Ln), IH2.
    split; [rewrite (hot_one_hot b i Hh), Ln; reflexivity|].
    destruct b as [|a b]; [destruct Hh; cbn in *; lia|]. rewrite (argmax_hot a b i Hh). reflexivity.
Qed.

(** every valid folded point has blocks *)
Lemma blocks_of_folded : forall ts v, Forall good_type ts ->
  Forall2 (fun t a => match t with ENUM n => exists i, i < n /\ a = inject_Z (Z.of_nat i) | _ => True end) ts v ->
  exists bs, Forall3 same_value ts v bs.
Proof.
  intros ts v G F. revert G. induction F as [|t a ts v H F IH]; intros G.
  - exists []. constructor.
  - inversion G as [|? ? Gt Gr]; subst. destruct (IH Gr) as (bs & Hbs).
    destruct t as [| |n| |n]; cbn in Gt; try contradiction.
    + exists ([a] :: bs). constructor; [reflexivity|exact Hbs].
    + exists ([a] :: bs). constructor; [reflexivity|exact Hbs].
    + destruct H as (i & Hi & ->). exists (one_hot n i :: bs). constructor; [|exact Hbs].
      split; [unfold one_hot; rewrite map_length, seq_length; reflexivity|]. exists i. split; [reflexivity|apply one_hot_hot; exact Hi].
Qed.
Lemma folded_of_blocks : forall ts bs, Forall good_type ts -> blocks ts bs ->
  Forall2 (fun t b => match t with ENUM _ => exists i, hot b i | _ => True end) ts bs ->
  exists v, Forall3 same_value ts v bs.
Proof.
  intros ts bs G B. revert G. induction B as [|t b ts bs Hb B IH]; intros G F; [exists []; constructor|].
  inversion G as [|? ? Gt Gr]; subst. inversion F as [|? ? ? ? Hf F']; subst.
  destruct (IH Gr F') as (v & Hv).
  destruct t as [| |n| |n]; cbn in Gt; try contradiction; cbn [width] in Hb.
  - destruct b as [|q [|? ?]]; try discriminate. exists (q :: v). constructor; [reflexivity|exact Hv].
  - destruct b as [|q [|? ?]]; try discriminate. exists (q :: v). constructor; [reflexivity|exact Hv].
  - destruct Hf as (i & Hi). exists (inject_Z (Z.of_nat i) :: v). constructor; [|exact Hv].
    split; [exact Hb|]. exists i. split; [reflexivity|exact Hi].
Qed.

Lemma roundtrip_folded : forall ts v, Forall good_type ts ->
  Forall2 (fun t a => match t with ENUM n => exists i, i < n /\ a = inject_Z (Z.of_nat i) | _ => True end) ts v ->
  exists x, unfold_row ts v = Ok x /\ fold_row ts x = Ok v.
Proof. intros ts v G F. destruct (blocks_of_folded ts v G F) as (bs & H). exists (concat bs). apply fold_unfold; assumption. Qed.
Lemma roundtrip_unfolded : forall ts bs, Forall good_type ts -> blocks ts bs ->
  Forall2 (fun t b => match t with ENUM _ => exists i, hot b i | _ => True end) ts bs ->
  exists v, fold_row ts (concat bs) = Ok v /\ unfold_row ts v = Ok (concat bs).
Proof. intros ts bs G B F. destruct (folded_of_blocks ts bs G B F) as (v & H). exists v. destruct (fold_unfold _ _ _ G H); split; assumption. Qed.

(** folding any row picks, for each enum, an index inside it whose coordinate is maximal *)
Lemma fold_maximal : forall ts bs, Forall good_type ts -> blocks ts bs ->
  exists v, fold_row ts (concat bs) = Ok v /\
    Forall3 (fun t b a => match t with
       | ENUM n => exists i, i < n /\ a = inject_Z (Z.of_nat i) /\ maximal b i /\
                     forall j, j < i -> (nth j b 0 < nth i b 0)%Q
       | _ => b = [a] end) ts bs v.
Proof.
  intros ts bs G B. revert G. induction B as [|t b ts bs Hb B IH]; intros G; [exists []; split; [reflexivity|constructor]|].
  inversion G as [|? ? Gt Gr]; subst. destruct (IH Gr) as (v & E & F).
  destruct t as [| |n| |n]; cbn in Gt; try contradiction; cbn [width] in Hb.
  - destruct b as [|q [|? ?]]; try discriminate. exists (q :: v). cbn. rewrite E. split; [reflexivity|]. constructor; [reflexivity|exact F].
  - destruct b as [|q [|? ?]]; try discriminate. exists (q :: v). cbn. rewrite E. split; [reflexivity|]. constructor; [reflexivity|exact F].
  - cbn [fold_row concat]. rewrite (firstn_app_exact b _ n Hb), (skipn_app_exact b _ n Hb), E.
    destruct b as [|a b]; [cbn in Hb; lia|]. destruct (argmax_spec a b) as (K1 & K2 & K3).
    eexists (_ :: v). split; [reflexivity|]. constructor; [|exact F].
    exists (argmax_from a 0 1 b). split; [lia|]. split; [reflexivity|]. split; assumption.
Qed.

(** number of selected levels *)
Lemma unique_iff b b' n : projected (ENUM n) b b' -> length b = n ->
  ((exists i, hot b' i) <-> (forall i j, i < n -> j < n -> maximal b i -> maximal b j -> i = j)).
Proof.
  intros (L & H & i0 & Hi0 & Hm0) Lb. split.
  - intros (i & Hi & Hh) j k Hj Hk Mj Mk.
    assert (forall m, m < n -> maximal b m -> m = i).
    { intros m Hm Mm. rewrite <- L in Hm. specialize (Hh m Hm). rewrite (proj1 (H m ltac:(lia)) Mm) in Hh.
      destruct (Nat.eqb_spec m i) as [E|E]; [exact E|discriminate]. }
    transitivity i; [|symmetry]; auto.
  - intros U. exists i0. split; [lia|]. intros j Hj. destruct (Nat.eqb_spec j i0) as [-> | N].
    + apply H; [lia|exact Hm0].
    + apply (H j); [lia|]. intros Mj. apply N. apply U; [lia|exact Hi0|exact Mj|exact Hm0].
Qed.

(** ** bounds *)
Definition bounded (lims : list (Q * Q)) (x : list Q) := Forall2 in_bounds lims x.

Lemma Forall2_app_inv_len {A B} (P : A -> B -> Prop) : forall l1 l2 m, Forall2 P (l1 ++ l2) m ->
  exists m1 m2, m = m1 ++ m2 /\ Forall2 P l1 m1 /\ Forall2 P l2 m2.
Proof. intros l1 l2 m H. apply Forall2_app_inv_l in H. destruct H as (m1 & m2 & H1 & H2 & ->). exists m1, m2; auto. Qed.

Lemma bounds_blocks : forall ts ls rss x, Forall3 relaxed ts ls rss -> bounded (concat rss) x ->
  exists bs, x = concat bs /\ blocks ts bs /\ Forall2 (fun r b => bounded r b) rss bs.
Proof.
  intros ts ls rss x F. revert x. induction F as [|t l r ts ls rss H F IH]; intros x B.
  - inversion B; subst. exists []. repeat split; constructor.
  - cbn [concat] in B. apply Forall2_app_inv_len in B. destruct B as (b & x' & -> & B1 & B2).
    destruct (IH x' B2) as (bs & -> & Hb & Hr). exists (b :: bs). split; [reflexivity|]. split; [|constructor; assumption].
    constructor; [|exact Hb]. apply Forall2_length in B1. rewrite <- B1.
    destruct t; cbn [relaxed width] in *; try (destruct H as (a & c & _ & ->); reflexivity). subst. apply repeat_length.
Qed.

Lemma bounded_repeat n b : (forall x, In x b -> (0 <= x <= 1)%Q) -> length b = n -> bounded (repeat (0%Q, 1%Q) n) b.
Proof.
  intros H L. subst n. induction b as [|x b IH]; [constructor|]. cbn. constructor; [apply H; left; reflexivity|].
  apply IH. intros y Hy. apply H. right; exact Hy.
Qed.

Lemma projected_01 n b b' : length b = n -> projected (ENUM n) b b' -> forall x, In x b' -> x = 0%Q \/ x = 1%Q.
Proof.
  intros Lb (L & H & _) x Hx. destruct (In_nth _ _ 0%Q Hx) as (i & Hi & <-). rewrite L in Hi.
  destruct (H i Hi) as [H1 H2].
  assert (D : maximal b i \/ ~ maximal b i).
  { destruct b as [|a b]; [subst n; cbn in Hi; lia|]. destruct (mask_maximal a b i ltac:(lia)) as [_ M].
    destruct (Qlt_bool (nth i (a :: b) 0%Q) (np_max a b)); [right; intros C; apply M in C; discriminate|left; apply M; reflexivity]. }
  destruct D; auto.
Qed.

Lemma cast_bounds : forall ts ls rss bs bs', Forall good_type ts -> Forall2 int_bounds ts ls ->
  Forall3 relaxed ts ls rss -> Forall2 (fun r b => bounded r b) rss bs -> blocks ts bs ->
  Forall3 projected ts bs bs' -> bounded (concat rss) (concat bs').
Proof.
  intros ts ls rss bs bs' G IB F. revert bs bs' G IB. induction F as [|t l r ts ls rss H F IH]; intros bs bs' G IB B Bl P.
  - inversion B; subst. inversion P; subst. constructor.
  - inversion B as [|r0 b ? bs0 Hb B0]; subst. inversion P as [|? ? b' ? ? bs0' Hp P0]; subst.
    inversion G as [|? ? Gt Gr]; subst. inversion IB as [|? ? ? ? Hib IB0]; subst. inversion Bl as [|? ? ? ? Hw Bl0]; subst.
    cbn [concat]. apply Forall2_app; [|eapply IH; eassumption].
    destruct t as [| |n| |n]; cbn in Gt; try contradiction.
    + cbn in Hp. subst b'. exact Hb.
    + destruct Hp as (q & z & -> & -> & Hn). destruct Hib as (a & c & ->). destruct H as (a1 & c1 & E1 & ->).
      injection E1 as <- <-. inversion Hb as [|? ? ? ? [Hq1 Hq2] _]; subst. cbn in Hq1, Hq2.
      destruct (nearest_in_int_bounds _ _ _ _ Hn Hq1 Hq2) as [Z1 Z2].
      constructor; [|constructor]. split; cbn; rewrite <- Zle_Qle; assumption.
    + cbn in H. subst r. cbn [width] in Hw. pose proof (projected_01 n b b' Hw Hp) as H01.
      apply bounded_repeat; [|destruct Hp as [Lp _]; exact Lp]. intros x Hx. destruct (H01 x Hx) as [-> | ->]; split; lra.
Qed.

Lemma cast_stays : forall ts ls lims x, Forall good_type ts -> check_xspec ts ls = true ->
  Forall2 int_bounds ts ls -> unfold_xlimits ts ls = Ok lims -> Forall2 in_bounds lims x ->
  exists y, cast_row ts x = Ok y /\ Forall2 in_bounds lims y.
Proof.
  intros ts ls lims x G C IB U B. apply (unfold_limits_iff _ _ _ C) in U. destruct U as (rss & F & ->).
  destruct (bounds_blocks _ _ _ _ F B) as (bs & -> & Hb & Hr).
  destruct (cast_projects ts bs G Hb) as (bs' & E & P). exists (concat bs'). split; [exact E|].
  eapply cast_bounds; eassumption.
Qed.

(** ** sampling *)
Lemma fold_legal : forall ts ls rss bs bs' , Forall good_type ts -> Forall2 int_bounds ts ls ->
  Forall3 relaxed ts ls rss -> Forall2 (fun r b => bounded r b) rss bs -> blocks ts bs ->
  Forall3 projected ts bs bs' ->
  exists v, fold_row ts (concat bs') = Ok v /\ Forall3 legal ts ls v.
Proof.
  intros ts ls rss bs bs' G IB F. revert bs bs' G IB. induction F as [|t l r ts ls rss H F IH]; intros bs bs' G IB B Bl P.
  - inversion B; subst. inversion P; subst. exists []. split; [reflexivity|constructor].
  - inversion B as [|r0 b ? bs0 Hb B0]; subst. inversion P as [|? ? b' ? ? bs0' Hp P0]; subst.
    inversion G as [|? ? Gt Gr]; subst. inversion IB as [|? ? ? ? Hib IB0]; subst. inversion Bl as [|? ? ? ? Hw Bl0]; subst.
    destruct (IH _ _ Gr IB0 B0 Bl0 P0) as (v & E & Lg).
    destruct t as [| |n| |n]; cbn in Gt; try contradiction; cbn [width] in Hw.
    + cbn in Hp. subst b'. destruct b as [|q [|? ?]]; try discriminate.
      destruct H as (a1 & c1 & -> & ->). inversion Hb as [|? ? ? ? Hq _]; subst.
      exists (q :: v). cbn. rewrite E. split; [reflexivity|]. constructor; [|exact Lg].
      exists a1, c1. split; [reflexivity|exact Hq].
    + destruct Hp as (q & z & -> & -> & Hn). destruct Hib as (a & c & ->). destruct H as (a1 & c1 & E1 & ->).
      injection E1 as <- <-. inversion Hb as [|? ? ? ? [Hq1 Hq2] _]; subst. cbn in Hq1, Hq2.
      destruct (nearest_in_int_bounds _ _ _ _ Hn Hq1 Hq2) as [Z1 Z2].
      exists (inject_Z z :: v). cbn. rewrite E. split; [reflexivity|]. constructor; [|exact Lg].
      exists (inject_Z a), (inject_Z c), z. split; [reflexivity|]. split; [reflexivity|].
      split; cbn; rewrite <- Zle_Qle; assumption.
    + cbn [fold_row concat]. destruct Hp as (Lp & _). rewrite (firstn_app_exact b' _ n Lp), (skipn_app_exact b' _ n Lp), E.
      destruct b' as [|a b']; [cbn in Lp; lia|]. destruct (argmax_spec a b') as (K1 & _).
      eexists (_ :: v). split; [reflexivity|]. constructor; [|exact Lg].
      exists (argmax_from a 0 1 b'). split; [lia|reflexivity].
Qed.

Lemma map_rows_total {A B} (f : A -> res B) (P : A -> Prop) (R : B -> Prop) rows :
  (forall x, P x -> exists y, f x = Ok y /\ R y) -> Forall P rows ->
  exists ys, map_rows f rows = Ok ys /\ length ys = length rows /\ Forall R ys.
Proof.
  intros H. induction 1 as [|x rows Hx F IH]; [exists []; repeat split; constructor|].
  destruct (H x Hx) as (y & E & Hy). destruct IH as (ys & E' & L & Fy).
  exists (y :: ys). cbn. rewrite E, E'. split; [reflexivity|]. split; [cbn; lia|constructor; assumption].
Qed.

Lemma sample_legal : forall ts ls lims inner nt, Forall good_type ts -> Forall2 int_bounds ts ls ->
  check_xspec ts ls = true -> unfold_xlimits ts ls = Ok lims ->
  length (inner lims nt) = nt -> Forall (Forall2 in_bounds lims) (inner lims nt) ->
  exists rows, sample ts ls true inner nt = Ok rows /\ length rows = nt /\ Forall (Forall3 legal ts ls) rows.
Proof.
  intros ts ls lims inner nt G IB C U L B. unfold sample. rewrite C, U. cbn [negb res_bind].
  pose proof U as U'. apply (unfold_limits_iff _ _ _ C) in U'. destruct U' as (rss & F & Elims).
  destruct (map_rows_total (cast_row ts) (Forall2 in_bounds lims)
     (fun y => exists v, fold_row ts y = Ok v /\ Forall3 legal ts ls v) (inner lims nt)) as (ys & E & Ly & Fy).
  - intros x Bx. rewrite Elims in Bx. destruct (bounds_blocks _ _ _ _ F Bx) as (bs & -> & Hb & Hr).
    destruct (cast_projects ts bs G Hb) as (bs' & Ec & P). exists (concat bs'). split; [exact Ec|].
    eapply fold_legal; eassumption.
  - exact B.
  - rewrite E. cbn [res_bind].
    destruct (map_rows_total (fold_row ts) (fun y => exists v, fold_row ts y = Ok v /\ Forall3 legal ts ls v)
      (Forall3 legal ts ls) ys) as (vs & Ev & Lv & Fv).
    + intros x Hx. exact Hx.
    + exact Fy.
    + exists vs. split; [exact Ev|]. split; [lia|exact Fv].
Qed.

Lemma decode_legal : forall ts ls v, Forall2 limits_fit ts ls -> Forall3 legal ts ls v ->
  exists m, cast_to_mixed ts ls v = Ok m /\ Forall3 legal_mixed ts ls m.
Proof.
  intros ts ls v LF F. revert LF. induction F as [|t l a ts ls v H F IH]; intros LF; [exists []; split; [reflexivity|constructor]|].
  inversion LF as [|? ? ? ? Lt LF']; subst. destruct (IH LF') as (m & E & Fm).
  destruct t as [| |n| |n]; cbn in H; try contradiction; cbn [cast_to_mixed tl]; rewrite E.
  - exists (MFloat a :: m). split; [reflexivity|]. constructor; [exact H|exact Fm].
  - destruct H as (b1 & b2 & z & -> & -> & Hb). exists (MInt z :: m). rewrite py_int_Z. split; [reflexivity|].
    constructor; [|exact Fm]. exists b1, b2. split; [reflexivity|exact Hb].
  - destruct H as (i & Hi & ->). cbn in Lt. subst n. rewrite py_int_Z, py_index_nat by exact Hi.
    destruct (nth_error l i) as [w|] eqn:En; [|apply nth_error_None in En; lia].
    exists (MLevel w :: m). split; [reflexivity|]. constructor; [|exact Fm]. cbn. eapply nth_error_In; exact En.
Qed.

(** ** surrogate wrapper *)
(** a folded row on which the wrapped model is trained and one on which it is asked coincide
    exactly when the integer coordinates are integers *)
Lemma unfold_cast_fixed : forall ts v bs, Forall good_type ts -> Forall3 same_value ts v bs ->
  (cast_row ts (concat bs) = Ok (concat bs) <->
   Forall2 (fun t a => match t with INT => a = inject_Z (np_round a) | _ => True end) ts v).
Proof.
  intros ts v bs G F. revert G. induction F as [|t a b ts v bs H F IH]; intros G; [split; [constructor|reflexivity]|].
  inversion G as [|? ? Gt Gr]; subst. specialize (IH Gr).
  assert (Fl : Forall2 (fun t b => length b = width t) ts bs).
  { clear -F. induction F as [|t a b ts v bs H F IH]; constructor; auto.
    destruct t; cbn in *; try (subst; reflexivity). destruct H as [-> _]; reflexivity. }
  destruct t as [| |n| |n]; cbn in Gt; try contradiction.
  - cbn in H; subst b. cbn [concat app cast_row]. split.
    + destruct (cast_row ts (concat bs)) eqn:E; try discriminate. intros H; injection H as ->. constructor; [exact I|]. apply IH; reflexivity.
    + intros H; inversion H; subst. rewrite (proj2 IH) by assumption. reflexivity.
  - cbn in H; subst b. cbn [concat app cast_row]. split.
    + destruct (cast_row ts (concat bs)) eqn:E; try discriminate. intros H; injection H as H1 H2. subst.
      constructor; [congruence|]. apply IH; reflexivity.
    + intros H; inversion H as [|? ? ? ? Ha Hr]; subst. rewrite (proj2 IH) by assumption. rewrite <- Ha. reflexivity.
  - destruct H as (Ln & i & -> & Hh). cbn [cast_row concat].
    rewrite (firstn_app_exact b _ n Ln), (skipn_app_exact b _ n Ln).
    destruct b as [|a b]; [destruct Hh; cbn in *; lia|].
    assert (M : map (fun v => if Qlt_bool v (np_max a b) then 0%Q else 1%Q) (a :: b) = a :: b).
    { set (f := fun v => if Qlt_bool v (np_max a b) then 0%Q else 1%Q).
      apply nth_ext with (d := f 0%Q) (d' := 0%Q); [apply map_length|].
      intros k Hk. rewrite map_length in Hk. rewrite map_nth. unfold f.
      destruct (mask_maximal a b k Hk) as [_ M]. destruct Hh as [Hi Hh].
      rewrite (Hh k Hk) in *. destruct (Nat.eqb_spec k i) as [-> | N].
      - rewrite (proj1 M); [reflexivity|]. intros j Hj. rewrite (Hh i Hi), (Hh j Hj), Nat.eqb_refl. destruct (Nat.eqb j i); discriminate.
      - destruct (Qlt_bool 0 (np_max a b)) eqn:E; [reflexivity|]. exfalso. clear E. pose proof (proj2 M eq_refl) as E.
        specialize (E i Hi). rewrite (Hh i Hi), (Hh k Hk), Nat.eqb_refl in E. destruct (Nat.eqb_spec k i); [contradiction|].
        apply E. reflexivity. }
    rewrite M. destruct (cast_row ts (concat bs)) as [l| |] eqn:E.
    + split.
      * intros H. injection H as H. apply app_inv_head in H. subst l. constructor; [exact I|]. apply IH; reflexivity.
      * intros H; inversion H as [|? ? ? ? Ha Hr]; subst. apply IH in Hr. injection Hr as ->. reflexivity.
    + split; [discriminate|]. intros H; inversion H as [|? ? ? ? Ha Hr]; subst. apply IH in Hr. discriminate.
    + split; [discriminate|]. intros H; inversion H as [|? ? ? ? Ha Hr]; subst. apply IH in Hr. discriminate.
Qed.

Lemma map_rows_ext {A B} (f g : A -> res B) rows : (forall x, In x rows -> f x = g x) -> map_rows f rows = map_rows g rows.
Proof. induction rows as [|x r IH]; intros H; [reflexivity|]. cbn. rewrite H by (left; reflexivity). rewrite IH; [reflexivity|]. intros; apply H; right; assumption. Qed.

Definition folded_ok (ts : list xtype) (v : list Q) : Prop :=
  Forall2 (fun t a => match t with ENUM n => exists i, i < n /\ a = inject_Z (Z.of_nat i) | _ => True end) ts v.

Lemma train_predict_same : forall ts xs, Forall good_type ts -> Forall (folded_ok ts) xs ->
  exists us, to_inner_train ts true xs = Ok us /\
   (to_inner_predict ts true xs = Ok us <->
    Forall (fun v => Forall2 (fun t a => match t with INT => a = inject_Z (np_round a) | _ => True end) ts v) xs).
Proof.
  intros ts xs G F. induction F as [|v xs Hv F IH].
  - exists []. split; [reflexivity|]. split; [constructor|reflexivity].
  - destruct IH as (us & E & I). destruct (blocks_of_folded ts v G Hv) as (bs & Hbs).
    destruct (fold_unfold ts v bs G Hbs) as [Eu _]. pose proof (unfold_cast_fixed ts v bs G Hbs) as Ec.
    unfold to_inner_predict, to_inner_train in *.
    exists (concat bs :: us). cbn [map_rows]. rewrite Eu, E. split; [reflexivity|].
    rewrite E in I. cbn [res_bind map_rows] in *. split.
    + destruct (cast_row ts (concat bs)) as [w| |] eqn:Ew; try discriminate.
      destruct (map_rows (cast_row ts) us) as [ws| |] eqn:Es; try discriminate.
      intros H. injection H as -> ->. constructor; [apply Ec; reflexivity|apply I; reflexivity].
    + intros H. inversion H as [|? ? Ha Hr]; subst. apply Ec in Ha. rewrite Ha. apply I in Hr. rewrite Hr. reflexivity.
Qed.

Lemma ties : exists x y, cast_row [ENUM 2] x = Ok y /\ y = [1%Q; 1%Q] /\ ~ exists i, hot y i.
Proof.
  exists [1#2; 1#2]%Q, [1; 1]%Q. split; [reflexivity|]. split; [reflexivity|]. intros (i & Hi & H).
  cbn in Hi. pose proof (H 0 ltac:(cbn; lia)) as H0. pose proof (H 1 ltac:(cbn; lia)) as H1. cbn in H0, H1.
  destruct i as [|[|i]]; cbn in *; try discriminate.
Qed.
Lemma noninteger_bounds : exists ts ls lims x y, check_xspec ts ls = true /\ unfold_xlimits ts ls = Ok lims /\
  Forall2 in_bounds lims x /\ cast_row ts x = Ok y /\ ~ Forall2 in_bounds lims y.
Proof.
  exists [INT], [[Num 0; Num (18 # 5)]], [(0, 18 # 5)]%Q, [18 # 5]%Q, [4]%Q.
  split; [reflexivity|]. split; [reflexivity|]. split; [constructor; [split; cbn; lra|constructor]|].
  split; [reflexivity|]. intros H. inversion H as [|? ? ? ? [_ H2] _]; subst. cbn in H2. lra.
Qed.
Lemma noninteger_training : exists ts xs us us', Forall good_type ts /\ to_inner_train ts true xs = Ok us /\
  to_inner_predict ts true xs = Ok us' /\ us <> us'.
Proof.
  exists [INT; ENUM 2], [[1 # 3; 1]%Q], [[1 # 3; 0; 1]%Q], [[0; 0; 1]%Q].
  split; [repeat constructor|]. split; [reflexivity|]. split; [reflexivity|discriminate].
Qed.

(** ** every folded row *)
Lemma py_int_trunc q : truncates q (py_int q).
Proof.
  unfold truncates, py_int. destruct q as [n d]. cbn [Qnum Qden]. unfold Qle, Qlt, inject_Z. cbn [Qnum Qden]. rewrite !Z.mul_1_r.
  pose proof (Z.quot_rem' n (Zpos d)) as E. destruct (Z_lt_le_dec n 0) as [N|N].
  - right. pose proof (Z.rem_bound_pos_neg n (Zpos d) ltac:(lia) ltac:(lia)) as B. nia.
  - left. pose proof (Z.rem_bound_pos n (Zpos d) ltac:(lia) ltac:(lia)) as B. nia.
Qed.
Lemma trunc_unique q k k' : truncates q k -> truncates q k' -> k = k'.
Proof.
  unfold truncates. destruct q as [n d]. unfold Qle, Qlt, inject_Z. cbn [Qnum Qden]. rewrite !Z.mul_1_r. intros [H|H] [H'|H']; nia.
Qed.
Lemma py_index_spec n k : py_index n k = (if ((- Z.of_nat n <=? k) && (k <? Z.of_nat n))%Z then Some (Z.to_nat (k mod Z.of_nat n)) else None).
Proof.
  unfold py_index. destruct (Z.leb_spec 0 k); destruct (Z.ltb_spec k (Z.of_nat n)); destruct (Z.leb_spec (- Z.of_nat n) k); destruct (Z.ltb_spec k 0); cbn [andb]; try lia; try reflexivity.
  - f_equal. rewrite Z.mod_small by lia. reflexivity.
  - f_equal. replace (k mod Z.of_nat n)%Z with (k + Z.of_nat n)%Z; [reflexivity|]. apply Z.mod_unique with (q := (-1)%Z); lia.
Qed.
Lemma names_or_not t v : good_type t -> (exists b, names_level t v b) \/ no_level t v.
Proof.
  destruct t as [| |n| |n]; cbn; intros G; try contradiction; try (left; eexists; reflexivity).
  pose proof (py_int_trunc v) as T. destruct (Z_lt_le_dec (py_int v) (- Z.of_nat n)); [right; eauto|]. destruct (Z_lt_le_dec (py_int v) (Z.of_nat n)); [|right; eauto].
  left. set (i := Z.to_nat (py_int v mod Z.of_nat n)). assert (Hi : i < n) by (unfold i; pose proof (Z.mod_pos_bound (py_int v) (Z.of_nat n) ltac:(lia)); lia).
  exists (one_hot n i). split; [unfold one_hot; rewrite map_length, seq_length; reflexivity|]. exists (py_int v). split; [exact T|]. split; [lia|]. apply one_hot_hot. exact Hi.
Qed.
Lemma unfold_names : forall ts v bs, Forall good_type ts -> Forall3 names_level ts v bs -> unfold_row ts v = Ok (concat bs).
Proof.
  intros ts v bs G F. revert G. induction F as [|t a b ts v bs H F IH]; intros G; [reflexivity|]. inversion G as [|? ? Gt Gr]; subst. specialize (IH Gr).
  destruct t as [| |n| |n]; cbn in Gt; try contradiction.
  - cbn in H; subst b. cbn. rewrite IH. reflexivity.
  - cbn in H; subst b. cbn. rewrite IH. reflexivity.
  - destruct H as (Ln & k & T & B & Hh). cbn [unfold_row bad_spec concat]. destruct n as [|n]; [cbn in B; lia|]. 
    rewrite (trunc_unique _ _ _ (py_int_trunc a) T), py_index_spec. destruct (Z.leb_spec (- Z.of_nat (S n)) k); [|lia]. destruct (Z.ltb_spec k (Z.of_nat (S n))); [|lia].
    cbn [andb]. rewrite IH. f_equal. f_equal. rewrite (hot_one_hot b _ Hh), Ln. reflexivity.
Qed.
Lemma unfold_no_level : forall ts v, Forall good_type ts -> length v = length ts -> (exists i t a, nth_error ts i = Some t /\ nth_error v i = Some a /\ no_level t a) -> unfold_row ts v = IndexError.
Proof.
  induction ts as [|t ts IH]; intros [|a v] G L (i & t0 & a0 & Et & Ea & N); try discriminate; try (destruct i; discriminate).
  inversion G as [|? ? Gt Gr]; subst. cbn in L. injection L as L. cbn [unfold_row].
  assert (Bs : bad_spec t = false) by (destruct t as [| |[|n]| |n]; cbn in *; try contradiction; try reflexivity; lia). rewrite Bs.
  destruct i as [|i].
  - cbn in Et, Ea. injection Et as ->. injection Ea as ->. destruct t0 as [| |n| |n]; cbn in N; try contradiction. destruct N as (k & T & B).
    rewrite (trunc_unique _ _ _ (py_int_trunc a0) T), py_index_spec. destruct (Z.leb_spec (- Z.of_nat n) k); destruct (Z.ltb_spec k (Z.of_nat n)); cbn [andb]; try reflexivity; lia.
  - cbn in Et, Ea. rewrite (IH v Gr L) by (exists i, t0, a0; auto). destruct t as [| |n| |n]; try reflexivity. destruct (py_index n (py_int a)); reflexivity.
Qed.
Lemma every_row ts v : Forall good_type ts -> length v = length ts -> (exists bs, Forall3 names_level ts v bs) \/ exists i t a, nth_error ts i = Some t /\ nth_error v i = Some a /\ no_level t a.
Proof.
  revert v. induction ts as [|t ts IH]; intros [|a v] G L; try discriminate; [left; exists []; constructor|]. inversion G as [|? ? Gt Gr]; subst. injection L as L.
  destruct (names_or_not t a Gt) as [(b & Hb)|N]; [|right; exists 0, t, a; auto]. destruct (IH v Gr L) as [(bs & F)|(i & t0 & a0 & H)]; [left; exists (b :: bs); constructor; assumption|].
  right. exists (S i), t0, a0. exact H.
Qed.
