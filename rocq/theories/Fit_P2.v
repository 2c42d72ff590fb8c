(** Proofs for C115: the whole reader. *)
From Coq Require Import Reals Arith Bool List String Lia Lra.
From Verif Require Import RSum Fit_M Fit_S Fit_P.
Import ListNotations.
Open Scope list_scope.
Open Scope nat_scope.
Section Load.
Variables (names : list string) (lines : list (list R)).
Hypothesis HN : 2 <= length names.
Definition partial_labels (partials : option (list (list string))) : list (list string) := match partials with None => [] | Some ps => ps end.
Lemma dims_repeat p q (z : list R) : dims p q (repeat (repeat z q) p).
Proof. split; [apply repeat_length|]. intros row H. apply repeat_spec in H. subst. apply repeat_length. Qed.
Lemma get_repeat p q (z : list R) i j : i < p -> j < q -> get (repeat (repeat z q) p) i j = Some z.
Proof.
  intros Hi Hj. unfold get. rewrite (nth_error_nth' (repeat (repeat z q) p) [] ltac:(rewrite repeat_length; exact Hi)).
  assert (E : nth i (repeat (repeat z q) p) [] = repeat z q) by (apply (repeat_spec p); apply nth_In; rewrite repeat_length; exact Hi). rewrite E.
  rewrite (nth_error_nth' (repeat z q) [] ltac:(rewrite repeat_length; exact Hj)). f_equal. apply (repeat_spec q). apply nth_In. rewrite repeat_length. exact Hj.
Qed.
Lemma load_ok inputs outputs partials X Y J : load_csv (File names lines) (Some inputs) (Some outputs) partials = Got (X, Y, J) ->
  table lines /\ inputs <> [] /\ outputs <> [] /\ List.Forall2 (is_column names lines) inputs X /\ List.Forall2 (is_column names lines) outputs Y /\
  match J with
  | None => partial_labels partials = []
  | Some T => partial_labels partials <> [] /\ length T = length outputs /\ (forall row, In row T -> length row = length inputs) /\
      (forall i j l, label_at (partial_labels partials) i j = Some l -> exists v, get T i j = Some v /\ is_column names lines l v) /\
      (forall i j, label_at (partial_labels partials) i j = None -> i < length outputs -> j < length inputs -> get T i j = Some (repeat 0%R (length lines)))
  end.
Proof.
  unfold load_csv. destruct (forallb _ lines) eqn:Er; [|discriminate]. apply rect_bool in Er. cbn [negb]. destruct inputs as [|f ins]; [discriminate|]. destruct outputs as [|g outs]; [discriminate|].
  destruct (labelled names lines f) as [c|e] eqn:Ef; [|discriminate]. cbn [bind]. destruct (columns names lines (f :: ins)) as [X1|e] eqn:EX; [|discriminate]. cbn [bind]. destruct (columns names lines (g :: outs)) as [Y1|e] eqn:EY; [|discriminate]. cbn [bind].
  pose proof (proj1 (labelled_spec names lines HN Er f c) Ef) as [T (k & _ & Lc & _)].
  assert (C : forall ls Z, columns names lines ls = Got Z -> List.Forall2 (is_column names lines) ls Z).
  { intros ls Z H. apply columns_spec in H. induction H as [|l v ls Z H _ IH]; constructor; [|exact IH]. apply (labelled_spec names lines HN Er l v). exact H. }
  intros H. assert (R0 : X1 = X /\ Y1 = Y /\ match J with None => partial_labels partials = [] | Some J => partial_labels partials <> [] /\ fill names lines (repeat (repeat (repeat 0%R (length c)) (length (f :: ins))) (length (g :: outs))) 0 (partial_labels partials) = Got J end).
  { destruct partials as [[|p ps]|]; cbn [partial_labels].
    - injection H as <- <- <-. repeat split.
    - destruct (fill names lines _ 0 (p :: ps)) as [J1|e]; [|discriminate]. cbn [bind] in H. injection H as <- <- <-. repeat split. discriminate.
    - injection H as <- <- <-. repeat split. }
  clear H. destruct R0 as (-> & -> & HJ). split; [exact T|]. split; [discriminate|]. split; [discriminate|]. split; [apply C; exact EX|]. split; [apply C; exact EY|].
  destruct J as [J|]; [|exact HJ]. destruct HJ as (Np & HJ). split; [exact Np|].
  destruct (fill_ok names lines HN (length (g :: outs)) (length (f :: ins)) _ _ 0 J (dims_repeat _ _ _) HJ) as ((D1 & D2) & A & B & _). split; [exact D1|]. split; [exact D2|]. split.
  - intros i j l Hl. destruct (A i j l Hl) as (_ & _ & v & Hv & G). exists v. split; [exact G|]. apply (labelled_spec names lines HN Er l v). exact Hv.
  - intros i j Hl Hi Hj. pose proof (B i j Hl) as G. cbn [Nat.add] in G. rewrite G. rewrite get_repeat by assumption. rewrite Lc. reflexivity.
Qed.
Lemma load_iff inputs outputs partials : (exists r, load_csv (File names lines) (Some inputs) (Some outputs) partials = Got r) <->
  table lines /\ inputs <> [] /\ outputs <> [] /\ (forall l, In l inputs \/ In l outputs -> known names lines l) /\
  forall i j l, label_at (partial_labels partials) i j = Some l -> i < length outputs /\ j < length inputs /\ known names lines l.
Proof.
  split.
  - intros (((X & Y) & J) & E). pose proof (load_ok inputs outputs partials X Y J E) as (T & NI & NO & FX & FY & HJ). split; [exact T|]. split; [exact NI|]. split; [exact NO|]. split.
    + assert (C : forall ls Z l, List.Forall2 (is_column names lines) ls Z -> In l ls -> known names lines l).
      { intros ls Z l H. induction H as [|l0 v ls Z H _ IH]; intros Hl; [destruct Hl|]. destruct Hl as [<- |Hl]; [exists v; exact H|apply IH; exact Hl]. }
      intros l [H|H]; [exact (C _ _ l FX H)|exact (C _ _ l FY H)].
    + intros i j l Hl. destruct J as [J|]; [|rewrite HJ in Hl; destruct i; discriminate]. destruct HJ as (_ & D1 & D2 & A & _). destruct (A i j l Hl) as (v & G & K). unfold get in G. destruct (nth_error J i) as [row|] eqn:Ei; [|discriminate].
      split; [rewrite <- D1; apply nth_error_Some; rewrite Ei; discriminate|]. split; [rewrite <- (D2 row (nth_error_In _ _ Ei)); apply nth_error_Some; rewrite G; discriminate|]. exists v. exact K.
  - intros (T & NI & NO & HL & HP). pose proof (proj1 (table_rect lines) T) as (Rc & _). unfold load_csv. rewrite (proj2 (rect_bool lines) Rc). cbn [negb].
    assert (L : forall l, known names lines l -> exists v, labelled names lines l = Got v) by (intros l (v & H); exists v; apply (labelled_spec names lines HN Rc l v); split; assumption).
    destruct inputs as [|f ins]; [congruence|]. destruct outputs as [|g outs]; [congruence|].
    destruct (L f (HL f (or_introl (or_introl eq_refl)))) as (c & ->). cbn [bind].
    destruct (proj2 (columns_exists names lines (f :: ins))) as (X & ->); [intros l Hl; apply L, HL; left; exact Hl|]. cbn [bind].
    destruct (proj2 (columns_exists names lines (g :: outs))) as (Y & ->); [intros l Hl; apply L, HL; right; exact Hl|]. cbn [bind].
    destruct partials as [[|p ps]|]; try (eexists; reflexivity). cbn [partial_labels] in HP.
    destruct (fill_exists names lines HN (length (g :: outs)) (length (f :: ins)) (p :: ps) (repeat (repeat (repeat 0%R (length c)) (length (f :: ins))) (length (g :: outs))) 0 (dims_repeat _ _ _)) as (J & ->); [|eexists; reflexivity].
    intros i j l Hl. destruct (HP i j l Hl) as (A & B & C). split; [exact A|]. split; [exact B|apply L; exact C].
Qed.
End Load.
