(** C101: the distinct rows. *)
From Coq Require Import Reals Arith Bool List Lia Lra Sorted.
From Verif Require Import RSum Mat Tri_M Kernels_M Krg_M Krg_S Het_M Het_S.
Import ListNotations.
Open Scope list_scope.
Open Scope R_scope.

Lemma lexc_spec nx : forall a b, match lexc nx a b with Eq => same nx a b | Lt => lex_lt nx a b | Gt => lex_lt nx b a end.
Proof.
  induction nx as [|k IH]; intros a b; cbn [lexc]; [intros c Hc; lia|].
  assert (B : forall a b, a 0%nat = b 0%nat -> lex_lt k (fun c => a (S c)) (fun c => b (S c)) -> lex_lt (S k) a b).
  { intros a' b' E (j & Hj & H1 & H2). exists (S j). split; [lia|]. split; [|exact H2]. intros c Hc. destruct c as [|c]; [exact E|apply (H1 c); lia]. }
  destruct (Rlt_dec (a 0%nat) (b 0%nat)) as [L|L]; [exists 0%nat; split; [lia|]; split; [intros; lia|exact L]|].
  destruct (Rlt_dec (b 0%nat) (a 0%nat)) as [M|M]; [exists 0%nat; split; [lia|]; split; [intros; lia|exact M]|].
  assert (E : a 0%nat = b 0%nat) by lra. specialize (IH (fun c => a (S c)) (fun c => b (S c))). destruct (lexc k _ _).
  - intros [|c] Hc; [exact E|apply (IH c); lia].
  - apply B; assumption.
  - apply B; [symmetry; exact E|exact IH].
Qed.
Lemma lex_irrefl nx a b : same nx a b -> ~ lex_lt nx a b.
Proof. intros H (k & Hk & _ & L). specialize (H k Hk). lra. Qed.
Lemma lex_trans nx a b c : lex_lt nx a b -> lex_lt nx b c -> lex_lt nx a c.
Proof.
  intros (k & Hk & A & L) (j & Hj & B & M). destruct (lt_eq_lt_dec k j) as [[H| <-]|H].
  - exists k. split; [exact Hk|]. split; [intros d Hd; rewrite A, B by lia; reflexivity|]. rewrite <- (B k H). exact L.
  - exists k. split; [exact Hk|]. split; [intros d Hd; rewrite A, B by lia; reflexivity|]. lra.
  - exists j. split; [exact Hj|]. split; [intros d Hd; rewrite A, B by lia; reflexivity|]. rewrite (A j H). exact M.
Qed.
Lemma same_sym nx a b : same nx a b -> same nx b a. Proof. intros H c Hc. symmetry. apply H. exact Hc. Qed.
Lemma same_trans nx a b c : same nx a b -> same nx b c -> same nx a c. Proof. intros H K d Hd. rewrite H, K by exact Hd. reflexivity. Qed.
Lemma lex_same_l nx a a' b : same nx a a' -> lex_lt nx a b -> lex_lt nx a' b.
Proof. intros H (k & Hk & A & L). exists k. split; [exact Hk|]. split; [intros c Hc; rewrite <- H by lia; apply A; exact Hc|]. rewrite <- H by exact Hk. exact L. Qed.
Lemma lexc_eq nx a b : lexc nx a b = Eq <-> same nx a b.
Proof.
  pose proof (lexc_spec nx a b) as H. destruct (lexc nx a b); split; try discriminate; try auto; intros K; exfalso; [apply (lex_irrefl nx a b K H)|apply (lex_irrefl nx b a (same_sym _ _ _ K) H)].
Qed.
Section U.
Variables (nx : nat) (X : nat -> vec).
Let lt (i j : nat) := lex_lt nx (X i) (X j).
Lemma ins_in i l j : In j (ins nx X i l) -> j = i \/ In j l.
Proof.
  induction l as [|k l IH]; cbn [ins]; [intros [->|[]]; left; reflexivity|]. destruct (lexc nx (X i) (X k)); cbn [In]; intros H; [tauto|destruct H as [->|H]; tauto|].
  destruct H as [->|H]; [tauto|]. destruct (IH H); tauto.
Qed.
Lemma ins_keep i l j : In j l -> In j (ins nx X i l).
Proof.
  induction l as [|k l IH]; cbn [ins]; [intros []|]. destruct (lexc nx (X i) (X k)); cbn [In]; intros [->|H]; tauto.
Qed.
Lemma ins_has i l : exists j, In j (ins nx X i l) /\ same nx (X i) (X j).
Proof.
  induction l as [|k l IH]; cbn [ins]; [exists i; split; [left; reflexivity|intros c Hc; reflexivity]|]. pose proof (lexc_spec nx (X i) (X k)) as H. destruct (lexc nx (X i) (X k)).
  - exists k. split; [left; reflexivity|exact H].
  - exists i. split; [left; reflexivity|intros c Hc; reflexivity].
  - destruct IH as (j & Hj & E). exists j. split; [right; exact Hj|exact E].
Qed.
Lemma ins_sorted i l : StronglySorted lt l -> StronglySorted lt (ins nx X i l).
Proof.
  induction l as [|k l IH]; cbn [ins]; intros H; [constructor; [constructor|constructor]|]. pose proof (lexc_spec nx (X i) (X k)) as C. destruct (lexc nx (X i) (X k)); [exact H| |].
  - constructor; [exact H|]. inversion H as [|? ? H1 H2]; subst. constructor; [exact C|]. eapply List.Forall_impl; [|exact H2]. intros a Ha. apply (lex_trans nx _ (X k)); assumption.
  - inversion H as [|? ? H1 H2]; subst. constructor; [apply IH; exact H1|]. rewrite List.Forall_forall in *. intros j Hj. apply ins_in in Hj. destruct Hj as [->|Hj]; [exact C|apply H2; exact Hj].
Qed.
Lemma uniq_S n : uniq nx X (S n) = ins nx X n (uniq nx X n).
Proof. unfold uniq. rewrite seq_S, fold_left_app. reflexivity. Qed.
Lemma uniq_sorted n : StronglySorted lt (uniq nx X n).
Proof. induction n as [|n IH]; [constructor|]. rewrite uniq_S. apply ins_sorted. exact IH. Qed.
Lemma uniq_in n j : In j (uniq nx X n) -> (j < n)%nat.
Proof. induction n as [|n IH]; [intros []|]. rewrite uniq_S. intros H. apply ins_in in H. destruct H as [->|H]; [lia|]. specialize (IH H). lia. Qed.
Lemma uniq_has n i : (i < n)%nat -> exists j, In j (uniq nx X n) /\ same nx (X i) (X j).
Proof.
  induction n as [|n IH]; intros Hi; [lia|]. rewrite uniq_S. destruct (Nat.eq_dec i n) as [->|N]; [apply ins_has|]. destruct IH as (j & Hj & E); [lia|]. exists j. split; [apply ins_keep; exact Hj|exact E].
Qed.
Lemma pos_spec i l : (exists j, In j l /\ same nx (X i) (X j)) -> (pos nx X i l < length l)%nat /\ same nx (X i) (X (nth (pos nx X i l) l 0%nat)).
Proof.
  induction l as [|k l IH]; intros (j & Hj & E); [destruct Hj|]. cbn [pos length]. destruct (lexc nx (X i) (X k)) eqn:C.
  - split; [lia|]. cbn [nth]. apply lexc_eq. exact C.
  - destruct Hj as [->|Hj]; [apply lexc_eq in E; congruence|]. destruct IH as [A B]; [exists j; split; assumption|]. split; [lia|exact B].
  - destruct Hj as [->|Hj]; [apply lexc_eq in E; congruence|]. destruct IH as [A B]; [exists j; split; assumption|]. split; [lia|exact B].
Qed.
Lemma sorted_nth l : StronglySorted lt l -> forall u v, (u < v)%nat -> (v < length l)%nat -> lt (nth u l 0%nat) (nth v l 0%nat).
Proof.
  induction l as [|k l IH]; intros H u v Hu Hv; cbn [length] in Hv; [lia|]. inversion H as [|? ? H1 H2]; subst. destruct v as [|v]; [lia|]. destruct u as [|u].
  - cbn [nth]. rewrite List.Forall_forall in H2. apply H2. apply nth_In. lia.
  - cbn [nth]. apply IH; [exact H1|lia|lia].
Qed.
Variable n : nat.
Let l := uniq nx X n.
Definition rep (u : nat) : nat := nth u (uniq nx X n) 0%nat.
Lemma rep_lt u : (u < length l)%nat -> (rep u < n)%nat.
Proof. intros H. apply uniq_in. apply nth_In. exact H. Qed.
Lemma rep_sorted u v : (u < v)%nat -> (v < length l)%nat -> lex_lt nx (X (rep u)) (X (rep v)).
Proof. intros H Hv. apply (sorted_nth l (uniq_sorted n) u v H Hv). Qed.
Lemma rep_inj u v : (u < length l)%nat -> (v < length l)%nat -> same nx (X (rep u)) (X (rep v)) -> u = v.
Proof.
  intros Hu Hv E. destruct (lt_eq_lt_dec u v) as [[H|H]|H]; [|exact H|]; exfalso; [apply (lex_irrefl nx _ _ E); apply rep_sorted; assumption|].
  apply (lex_irrefl nx _ _ (same_sym _ _ _ E)). apply rep_sorted; assumption.
Qed.
Lemma inverse_lt i : (i < n)%nat -> (inverse nx X n i < length l)%nat.
Proof. intros Hi. apply pos_spec. apply uniq_has. exact Hi. Qed.
Lemma inverse_same i : (i < n)%nat -> same nx (X i) (X (rep (inverse nx X n i))).
Proof. intros Hi. apply pos_spec. apply uniq_has. exact Hi. Qed.
Lemma inverse_rep u : (u < length l)%nat -> inverse nx X n (rep u) = u.
Proof. intros Hu. pose proof (rep_lt u Hu) as H. apply rep_inj; [apply inverse_lt; exact H|exact Hu|]. apply same_sym. apply inverse_same. exact H. Qed.
Lemma inverse_iff i j : (i < n)%nat -> (j < n)%nat -> inverse nx X n i = inverse nx X n j <-> same nx (X i) (X j).
Proof.
  intros Hi Hj. split; intros H.
  - apply (same_trans _ _ (X (rep (inverse nx X n i)))); [apply inverse_same; exact Hi|]. rewrite H. apply same_sym, inverse_same. exact Hj.
  - apply rep_inj; [apply inverse_lt; exact Hi|apply inverse_lt; exact Hj|]. apply (same_trans _ _ (X i)); [apply same_sym, inverse_same; exact Hi|]. apply (same_trans _ _ (X j) _ H). apply inverse_same. exact Hj.
Qed.
End U.
