From Coq Require Import ZArith QArith Bool Arith List Lia.
From Verif Require Import MixInt_M Sampling_M Sampling_S Sampling_P Weights_M.
Import ListNotations.
Open Scope list_scope.
Open Scope nat_scope.

(** what the loop does with the weights only depends on their values *)
Definition eqs (a b : list Q) : Prop := Forall2 Qeq a b.
Lemma eqs_refl a : eqs a a. Proof. induction a; constructor; [reflexivity|assumption]. Qed.
Lemma eqs_sum a b : eqs a b -> (Qsum a == Qsum b)%Q.
Proof. unfold Qsum. induction 1 as [|x y a b H _ IH]; cbn; [reflexivity|]. rewrite H, IH. reflexivity. Qed.
Lemma eqs_scores a b : eqs a b -> forall num s, eqs (scores a num s) (scores b num s).
Proof. induction 1 as [|x y a b H _ IH]; intros [|n num] s; cbn; constructor; [rewrite H; reflexivity|apply IH]. Qed.
Lemma eqs_argmax : forall a b x y i j, (x == y)%Q -> eqs a b -> argmax_from x i j a = argmax_from y i j b.
Proof.
  intros a b x y i j E H. revert x y i j E. induction H as [|u v a b H _ IH]; intros x y i j E; [reflexivity|]. cbn [argmax_from].
  replace (Qlt_bool x u) with (Qlt_bool y v); [destruct (Qlt_bool y v); apply IH; assumption|].
  unfold Qlt_bool. f_equal. destruct (Qle_bool v y) eqn:F, (Qle_bool u x) eqn:G; try reflexivity.
  - apply Qle_bool_iff in F. rewrite <- E, <- H in F. apply Qle_bool_iff in F. congruence.
  - apply Qle_bool_iff in G. rewrite E, H in G. apply Qle_bool_iff in G. congruence.
Qed.
Lemma eqs_loop : forall fuel a b nt num, eqs a b -> level_loop fuel a nt num = level_loop fuel b nt num.
Proof.
  induction fuel as [|f IH]; intros a b nt num H; cbn [level_loop]; [reflexivity|]. destruct (nt <=? prod_nat num); [reflexivity|].
  pose proof (eqs_scores _ _ H num (sum_nat num)) as S. destruct S as [|x y p q E S]; [reflexivity|].
  rewrite (eqs_argmax p q x y 0 1 E S). apply IH. exact H.
Qed.
Lemma eqs_map a b c d : eqs a b -> (c == d)%Q -> eqs (map (fun v => (v / c)%Q) a) (map (fun v => (v / d)%Q) b).
Proof. intros H E. induction H as [|x y a b Hx _ IH]; cbn; constructor; [rewrite Hx, E; reflexivity|exact IH]. Qed.
Lemma eqs_length a b : eqs a b -> length a = length b.
Proof. induction 1; cbn; congruence. Qed.
Lemma eqs_repeat x y n : (x == y)%Q -> eqs (repeat x n) (repeat y n).
Proof. intros H. induction n; cbn; constructor; assumption. Qed.
Lemma eqs_ff fuel a b clip lims nt : eqs a b -> full_factorial fuel (Some a) clip lims nt = full_factorial fuel (Some b) clip lims nt.
Proof.
  intros H. unfold full_factorial, norm_weights.
  pose proof (eqs_map a b _ _ H (eqs_sum _ _ H)) as M. set (x := map _ a) in *. set (y := map _ b) in *. rewrite (eqs_length _ _ M).
  destruct (Nat.eqb (length y) (length lims)); [rewrite (eqs_loop _ _ _ _ _ M); reflexivity|].
  destruct M as [|u v p q E M]; [reflexivity|]. destruct M as [|u' v' p q E' M]; [|reflexivity].
  rewrite (eqs_loop _ _ _ _ _ (eqs_repeat u v (length lims) E)). reflexivity.
Qed.
Lemma sum_div c l : (~ c == 0 -> Qsum (map (fun v => v / c) l) == Qsum l / c)%Q.
Proof. intros H. unfold Qsum. induction l as [|a l IH]; cbn; [field; exact H|]. rewrite IH. field. exact H. Qed.
Lemma normed_sum l : (~ Qsum l == 0 -> Qsum (map (fun v => v / Qsum l) l) == 1)%Q.
Proof. intros H. rewrite sum_div by exact H. field. exact H. Qed.
Lemma normed_again l : (~ Qsum l == 0)%Q -> let n := map (fun v => (v / Qsum l)%Q) l in eqs (map (fun v => (v / Qsum n)%Q) n) n.
Proof.
  intros H n. assert (E : (Qsum n == 1)%Q) by (apply normed_sum; exact H). clearbody n. generalize (Qsum n) E. clear. intros q E.
  induction n as [|a n IH]; cbn; constructor; [rewrite E; field|exact IH].
Qed.
Lemma ff_scaled fuel l clip lims nt : (~ Qsum l == 0)%Q -> full_factorial fuel (Some (map (fun v => (v / Qsum l)%Q) l)) clip lims nt = full_factorial fuel (Some l) clip lims nt.
Proof.
  intros H. set (n := map _ l). unfold full_factorial, norm_weights. pose proof (normed_again l H) as M. cbv zeta in M. fold n in M. fold n.
  set (x := map (fun v => (v / Qsum n)%Q) n) in *. rewrite (eqs_length _ _ M).
  destruct (Nat.eqb (length n) (length lims)); [rewrite (eqs_loop _ _ _ _ _ M); reflexivity|].
  destruct M as [|u v p q E M]; [reflexivity|]. destruct M as [|u' v' p q E' M]; [|reflexivity].
  rewrite (eqs_loop _ _ _ _ _ (eqs_repeat u v (length lims) E)). reflexivity.
Qed.
(** no history of calls changes what the next one returns *)
Lemma calls_as_first fuel : forall cs a l, (~ Qsum l == 0)%Q ->
  fst (calls fuel (WFloats a l) cs) = map (fun '(clip, lims, nt) => Returns (full_factorial fuel (Some l) clip lims nt)) cs.
Proof.
  intros cs a l H. 
  assert (G : forall cs m, (m = l \/ m = map (fun v => (v / Qsum l)%Q) l \/ eqs m (map (fun v => (v / Qsum l)%Q) l)) -> fst (calls fuel (WFloats a m) cs) = map (fun '(clip, lims, nt) => Returns (full_factorial fuel (Some l) clip lims nt)) cs).
  { clear cs. induction cs as [|[[clip lims] nt] cs IH]; intros m Hm; [reflexivity|]. cbn [calls call map].
    assert (F : full_factorial fuel (Some m) clip lims nt = full_factorial fuel (Some l) clip lims nt).
    { destruct Hm as [-> |[-> |E]]; [reflexivity|apply ff_scaled; exact H|]. rewrite (eqs_ff _ _ _ _ _ _ E). apply ff_scaled. exact H. }
    rewrite F. destruct a.
    - specialize (IH (map (fun v => (v / Qsum m)%Q) m)). destruct (calls fuel (WFloats true (map (fun v => (v / Qsum m)%Q) m)) cs) as [os w2]. cbn [fst] in *. f_equal. apply IH.
      destruct Hm as [-> |Hm]; [right; left; reflexivity|right; right].
      assert (E : eqs m (map (fun v => (v / Qsum l)%Q) l)) by (destruct Hm as [-> |E]; [apply eqs_refl|exact E]).
      assert (S1 : (Qsum m == 1)%Q) by (rewrite (eqs_sum _ _ E); apply normed_sum; exact H).
      clear -E S1. generalize (Qsum m) S1. intros q Sq. clear S1. induction E as [|x y p r Hx _ IH]; cbn; constructor; [rewrite Hx, Sq; field|exact IH].
    - specialize (IH m Hm). destruct (calls fuel (WFloats false m) cs) as [os w2]. cbn [fst] in *. f_equal. exact IH. }
  apply G. left. reflexivity.
Qed.
Lemma norm_values nx w wn : norm_weights nx w = Ok wn -> forall i, i < nx ->
  match w with
  | None => (nth i wn 0 == 1 / inject_Z (Z.of_nat nx))%Q
  | Some l => (nth i wn 0 == nth (if Nat.eqb (length l) nx then i else 0) l 0 / fold_right Qplus 0 l)%Q
  end.
Proof.
  intros H i Hi. destruct w as [l|]; unfold norm_weights in H.
  - rewrite map_length in H. destruct (Nat.eqb_spec (length l) nx) as [E|E].
    + injection H as <-. rewrite (nth_indep _ 0%Q (0 / Qsum l)%Q) by (rewrite map_length; lia). rewrite (map_nth (fun v => (v / Qsum l)%Q)). reflexivity.
    + destruct l as [|a [|b l]]; try discriminate. injection H as <-. rewrite nth_repeat_lt by exact Hi. reflexivity.
  - injection H as <-. rewrite nth_repeat_lt by exact Hi. reflexivity.
Qed.
Lemma norm_accepted nx w : (exists wn, norm_weights nx w = Ok wn) <-> match w with None => True | Some l => length l = nx \/ length l = 1 end.
Proof.
  destruct w as [l|]; unfold norm_weights; [|split; [intros _; exact I|intros _; eexists; reflexivity]]. rewrite map_length. destruct (Nat.eqb_spec (length l) nx) as [E|E].
  - split; [intros _; left; exact E|intros _; eexists; reflexivity].
  - destruct l as [|a [|b l]]; (split; [intros [wn H]; try discriminate; try (right; reflexivity)|intros [H|H]; try (contradiction || discriminate)]). eexists; reflexivity.
Qed.
