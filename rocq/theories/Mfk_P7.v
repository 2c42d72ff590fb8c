(** checks of training data and parameters: C51, C85 *)
From Coq Require Import Reals Arith Bool List Lia Lra.
From Verif Require Import RSum Mat Krg_M Mfk_M.
Import ListNotations.
Open Scope list_scope.
Open Scope nat_scope.
Lemma rows_iff : forall xs ys i prev, length xs = length ys -> check_rows i prev xs ys = true <->
  (forall k, k < length xs -> fst (nth k xs (0, 0)) = nth k ys 0) /\
  (forall k, k < length xs -> 2 <= i + k -> snd (nth k xs (0, 0)) = match k with O => prev | S k' => snd (nth k' xs (0, 0)) end).
Proof.
  induction xs as [|[n c] xs IH]; intros [|m ys] i prev L; try discriminate; cbn [check_rows length].
  - split; [intros _; split; intros; lia|reflexivity].
  - injection L as L. specialize (IH ys (S i) c L). destruct (Nat.ltb_spec 1 i) as [Hi|Hi]; cbn [andb].
    + destruct (Nat.eqb_spec c prev) as [-> | Nc]; cbn [negb].
      * destruct (Nat.eqb_spec n m) as [-> | Nn].
        -- rewrite IH. split.
           ++ intros [H1 H2]. split; intros [|k] Hk; cbn [nth fst snd]; try reflexivity; [apply H1; lia|]. intros H. rewrite (H2 k) by lia. destruct k; reflexivity.
           ++ intros [H1 H2]. split; intros k Hk; [apply (H1 (S k)); lia|]. intros H. pose proof (H2 (S k) ltac:(lia) ltac:(lia)) as Q; cbn [nth] in Q; rewrite Q; destruct k; reflexivity.
        -- split; [discriminate|]. intros [H1 _]. specialize (H1 0 ltac:(lia)). cbn in H1. congruence.
      * split; [discriminate|]. intros [_ H2]. specialize (H2 0 ltac:(lia) ltac:(lia)). cbn in H2. congruence.
    + destruct (Nat.eqb_spec n m) as [-> | Nn].
      * rewrite IH. split.
        -- intros [H1 H2]. split; intros [|k] Hk; cbn [nth fst snd]; try reflexivity; [apply H1; lia|lia|]. intros H. rewrite (H2 k) by lia. destruct k; reflexivity.
        -- intros [H1 H2]. split; intros k Hk; [apply (H1 (S k)); lia|]. intros H. pose proof (H2 (S k) ltac:(lia) ltac:(lia)) as Q; cbn [nth] in Q; rewrite Q; destruct k; reflexivity.
      * split; [discriminate|]. intros [H1 _]. specialize (H1 0 ltac:(lia)). cbn in H1. congruence.
Qed.
Lemma structure_iff xs ys : check_list_structure xs ys = true <-> length xs = length ys /\
  (forall k, k < length xs -> fst (nth k xs (0, 0)) = nth k ys 0) /\
  (forall k, 2 <= k < length xs -> snd (nth k xs (0, 0)) = snd (nth (k - 1) xs (0, 0))).
Proof.
  unfold check_list_structure. destruct (Nat.eqb_spec (length xs) (length ys)) as [L|L].
  - rewrite (rows_iff xs ys 0 0 L). split; intros H.
    + split; [exact L|]. split; [apply H|]. intros [|k] Hk; [lia|]. destruct H as [_ H]. rewrite (H (S k)) by lia. cbn [Nat.sub]. rewrite Nat.sub_0_r. reflexivity.
    + destruct H as (_ & H1 & H2). split; [exact H1|]. intros [|k] Hk H; [lia|]. rewrite H2 by lia. cbn [Nat.sub]. rewrite Nat.sub_0_r. reflexivity.
  - split; [discriminate|]. intros [H _]. contradiction.
Qed.
(** all levels from the second on have the same number of columns *)
Lemma structure_cols xs ys : check_list_structure xs ys = true -> forall a b, 1 <= a -> a <= b -> b < length xs -> snd (nth b xs (0, 0)) = snd (nth a xs (0, 0)).
Proof.
  intros H a b Ha Hab Hb. apply structure_iff in H. destruct H as (_ & _ & H). induction b as [|b IH]; [lia|]. destruct (Nat.eq_dec a (S b)) as [-> | N]; [reflexivity|].
  rewrite H by lia. replace (S b - 1) with b by lia. apply IH; lia.
Qed.
Lemma items_iff l : check_items l = inr tt <-> forall i, In i l -> i = Some 1.
Proof.
  induction l as [|[n|] l IH]; cbn [check_items].
  - split; [intros _ i []|reflexivity].
  - destruct (Nat.eqb_spec n 1) as [-> | N].
    + rewrite IH. split; [intros H i [<- | Hi]; [reflexivity|apply H, Hi]|intros H i Hi; apply H; right; exact Hi].
    + split; [discriminate|]. intros H. specialize (H (Some n) (or_introl eq_refl)). congruence.
  - split; [discriminate|]. intros H. specialize (H None (or_introl eq_refl)). discriminate.
Qed.
Lemma repeat_items n (l : list (option nat)) : length l = 1 -> check_items (repeat (Some (length l)) n) = inr tt.
Proof. intros ->. apply items_iff. intros i Hi. apply repeat_spec in Hi. exact Hi. Qed.
Lemma noise_iff nlvl noise0 : (exists l, check_noise nlvl noise0 = inr l) <->
  (length noise0 = nlvl /\ forall i, In i noise0 -> i = Some 1) \/ (length noise0 = 1 /\ nlvl <> 1).
Proof.
  unfold check_noise. cbv zeta. destruct (Nat.eqb_spec (length noise0) nlvl) as [L|L].
  - destruct (check_items noise0) as [e|[]] eqn:C.
    + split; [intros [l H]; discriminate|]. intros [[_ H]|H]; [|lia]. apply items_iff in H. congruence.
    + split; [intros _; left; split; [exact L|apply items_iff; exact C]|intros _; eexists; reflexivity].
  - destruct (Nat.eqb_spec (length noise0) 1) as [L1|L1].
    + rewrite repeat_items by exact L1. split; [intros _; right; lia|intros _; eexists; reflexivity].
    + split; [intros [l H]; discriminate|]. intros [[H _]|[H _]]; contradiction.
Qed.
Lemma noise_shape nlvl noise0 l : check_noise nlvl noise0 = inr l -> length l = nlvl /\ forall i, In i l -> i = Some 1.
Proof.
  unfold check_noise. cbv zeta. destruct (Nat.eqb_spec (length noise0) nlvl) as [L|L].
  - destruct (check_items noise0) as [e|[]] eqn:C; [discriminate|]. intros [= <-]. split; [exact L|apply items_iff; exact C].
  - destruct (Nat.eqb_spec (length noise0) 1) as [L1|L1]; [|discriminate]. rewrite repeat_items by exact L1. intros [= <-]. split; [apply repeat_length|]. intros i Hi. apply repeat_spec in Hi. congruence.
Qed.
(** a flat list of numbers, one per level *)
Lemma noise_flat nlvl noise0 : 0 < nlvl -> length noise0 = nlvl -> (forall i, In i noise0 -> i = None) -> check_noise nlvl noise0 = inl PTypeError.
Proof.
  intros H L F. unfold check_noise. cbv zeta. rewrite L, Nat.eqb_refl. destruct noise0 as [|i l]; [cbn in L; lia|]. rewrite (F i) by (left; reflexivity). reflexivity.
Qed.
Lemma theta_iff nlvl d t : (exists m, check_theta nlvl d t = Some m) <->
  match t with TArray r c _ => r = nlvl /\ c = d | TList l => length l = d \/ length l = 1 \/ (length l = nlvl /\ d = 1) end.
Proof.
  destruct t as [l|r c m]; cbn [check_theta].
  - destruct (Nat.eqb_spec (length l) d); cbn [negb]; [split; [intros _; left; assumption|intros _; eexists; reflexivity]|].
    destruct (Nat.eqb_spec (length l) 1); [split; [intros _; tauto|intros _; eexists; reflexivity]|].
    destruct (Nat.eqb_spec (length l) nlvl); [|split; [intros [m H]; discriminate|tauto]].
    destruct (Nat.eqb_spec d 1); [split; [intros _; tauto|intros _; eexists; reflexivity]|]. split; [intros [m H]; discriminate|tauto].
  - destruct (Nat.eqb_spec r nlvl); destruct (Nat.eqb_spec c d); cbn [andb]; (split; [try (intros [x H]; discriminate); try (intros _; split; assumption)|intros [H1 H2]; try contradiction; eexists; reflexivity]).
Qed.
Lemma theta_values nlvl d l m : check_theta nlvl d (TList l) = Some m ->
  (length l = d -> forall i j, i < nlvl -> j < d -> m i j = nth j l 0%R) /\
  (length l <> d -> length l = 1 -> forall i j, i < nlvl -> j < d -> m i j = nth 0 l 0%R) /\
  (length l <> d -> length l <> 1 -> length l = nlvl -> forall i j, i < nlvl -> j < d -> m i j = nth i l 0%R).
Proof.
  cbn [check_theta]. destruct (Nat.eqb_spec (length l) d); cbn [negb]; [intros [= <-]; repeat split; intros; try contradiction; reflexivity|].
  destruct (Nat.eqb_spec (length l) 1); [intros [= <-]; repeat split; intros; try contradiction; reflexivity|].
  destruct (Nat.eqb_spec (length l) nlvl); [|discriminate]. destruct (Nat.eqb_spec d 1); [|discriminate]. intros [= <-]; repeat split; intros; try contradiction; reflexivity.
Qed.
