From Coq Require Import Arith Bool String List Lia.
From Verif Require Import Silence_M.
Import ListNotations.
Open Scope list_scope.
Open Scope nat_scope.
Lemma seqb_eq a b : seqb a b = true <-> a = b.
Proof. destruct a, b; cbn; split; try congruence; try (intros H; apply Nat.eqb_eq in H; congruence); intros [= ->]; apply Nat.eqb_refl. Qed.
Lemma closed_iff f w : is_closed f w = true <-> In f (closed w).
Proof. unfold is_closed. rewrite existsb_exists. split; [intros (x & H & Q); apply seqb_eq in Q; congruence|intros H; exists f; split; [exact H|apply seqb_eq; reflexivity]]. Qed.
(** a plain program only writes to the current stream *)
Lemma plain_exec c : plain c -> forall w, let r := exec c w in stdout (snd r) = stdout w /\ closed (snd r) = closed w /\ nulls (snd r) = nulls w /\
  exists l, written (snd r) = written w ++ map (pair (stdout w)) l.
Proof.
  assert (Z : forall w, stdout w = stdout w /\ closed w = closed w /\ nulls w = nulls w /\ exists l, written w = written w ++ map (pair (stdout w)) l) by (intros w; repeat split; exists []; rewrite app_nil_r; reflexivity).
  induction c as [s|n|b IH|b IH|a IHa b IHb| | |a IHa b IHb]; intros P w; cbn [plain exec] in *; try contradiction; try apply (Z w).
  - destruct (is_closed (stdout w) w); [apply (Z w)|]. cbn. repeat split. exists [s]. reflexivity.
  - destruct P as [Pa Pb]. destruct (IHa Pa w) as (A1 & A2 & A3 & l & A4). destruct (exec a w) as [[|] w1]; cbn [snd] in *; [|repeat split; try assumption; exists l; assumption].
    destruct (IHb Pb w1) as (B1 & B2 & B3 & l2 & B4). cbv zeta. repeat split; try congruence. exists (l ++ l2). rewrite B4, A4, A1, map_app, app_assoc. reflexivity.
  - destruct P as [Pa Pb]. destruct (IHa Pa w) as (A1 & A2 & A3 & l & A4). destruct (exec a w) as [[|] w1]; cbn [snd] in *; [repeat split; try assumption; exists l; assumption|].
    destruct (IHb Pb w1) as (B1 & B2 & B3 & l2 & B4). cbv zeta. repeat split; try congruence. exists (l ++ l2). rewrite B4, A4, A1, map_app, app_assoc. reflexivity.
Qed.
Lemma plain_prints c : plain c -> no_raise c -> forall w, ~ In (stdout w) (closed w) -> exec c w = (true, {| stdout := stdout w; closed := closed w; nulls := nulls w; written := written w ++ map (pair (stdout w)) (prints c) |}).
Proof.
  induction c as [s|n|b IH|b IH|a IHa b IHb| | |a IHa b IHb]; intros P N w O; cbn [plain no_raise exec prints map] in *; try contradiction.
  - destruct (is_closed (stdout w) w) eqn:C; [apply closed_iff in C; contradiction|]. reflexivity.
  - destruct P as [Pa Pb], N as [Na Nb]. rewrite (IHa Pa Na w O). rewrite IHb; try assumption. cbn. rewrite map_app, app_assoc. reflexivity.
  - destruct w; cbn. rewrite app_nil_r. reflexivity.
  - destruct P as [Pa Pb], N as [Na Nb]. rewrite (IHa Pa Na w O). reflexivity.
Qed.
(** one silenced block, however it ends *)
Lemma silent_plain c w : plain c -> let r := exec (Silent c) w in stdout (snd r) = Real /\ closed (snd r) = Null (nulls w) :: closed w /\ (exists l, written (snd r) = written w ++ map (pair (Null (nulls w))) l) /\ fst r = fst (exec c (enter w)).
Proof.
  intros P. cbn [exec]. destruct (plain_exec c P (enter w)) as (A & B & C & l & D). destruct (exec c (enter w)) as [ok w1]. cbn [snd fst] in *. cbn. rewrite A, B. cbn. repeat split. exists l. exact D.
Qed.
Lemma closed_mono c : forall w f, In f (closed w) -> In f (closed (snd (exec c w))).
Proof.
  induction c as [s|n|b IH|b IH|a IHa b IHb| | |a IHa b IHb]; intros w f H; cbn [exec]; try exact H.
  - destruct (is_closed (stdout w) w); exact H.
  - specialize (IH (enter w) f H). destruct (exec b (enter w)) as [ok w1]. right. exact IH.
  - specialize (IH w f H). destruct (exec b w) as [ok w1]. exact IH.
  - specialize (IHa w f H). destruct (exec a w) as [[|] w1]; [apply IHb; exact IHa|exact IHa].
  - specialize (IHa w f H). destruct (exec a w) as [[|] w1]; [exact IHa|apply IHb; exact IHa].
Qed.
(** leaving any silenced block makes sys.stdout the original stream *)
Lemma silent_stdout c w : stdout (snd (exec (Silent c) w)) = Real.
Proof. cbn [exec]. destruct (exec c (enter w)). reflexivity. Qed.
Lemma nested c1 c2 w : plain c2 -> In Real (closed (snd (exec (Silent (Seq (Silent c1) c2)) w))) \/ fst (exec c1 (enter (enter w))) = false.
Proof.
  intros P. cbn [exec]. destruct (exec c1 (enter (enter w))) as [[|] w1] eqn:E1; [|right; reflexivity]. left.
  destruct (plain_exec c2 P (exit w1)) as (A & _). destruct (exec c2 (exit w1)) as [ok w2]. cbn [snd] in *. cbn. left. exact A.
Qed.
