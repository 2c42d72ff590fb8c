(** Proofs for C115: the CSV reader. *)
From Coq Require Import Reals Arith Bool List String Lia Lra.
From Verif Require Import RSum Fit_M Fit_S.
Import ListNotations.
Open Scope list_scope.
Open Scope nat_scope.
Notation length := List.length.
Lemma find_name_spec label names : forall i c, find_name label names i = Some c <-> i <= c /\ first_at names label (c - i).
Proof.
  induction names as [|n names IH]; intros i c; cbn [find_name].
  - split; [discriminate|]. intros (_ & H & _). destruct (c - i); discriminate.
  - destruct (String.eqb_spec n label) as [E|E].
    + split.
      * intros [= ->]. split; [lia|]. rewrite Nat.sub_diag. split; [cbn; rewrite E; reflexivity|]. intros c' Hc. lia.
      * intros (L & H & F). destruct (Nat.eq_dec c i) as [-> | N]; [reflexivity|]. exfalso. apply (F 0); [lia|]. cbn. rewrite E. reflexivity.
    + rewrite IH. split.
      * intros (L & H & F). split; [lia|]. replace (c - i) with (S (c - S i)) by lia. split; [exact H|]. intros [|c'] Hc; cbn; [congruence|]. apply F. lia.
      * intros (L & H & F). destruct (Nat.eq_dec c i) as [-> | N]; [rewrite Nat.sub_diag in H; cbn in H; congruence|]. split; [lia|]. replace (c - i) with (S (c - S i)) in H, F by lia. split; [exact H|]. intros c' Hc. apply (F (S c')). lia.
Qed.
Lemma name_index_spec names label c : 2 <= length names -> name_index names label = Got c <-> first_at names label c.
Proof.
  intros H. unfold name_index. destruct names as [|n [|n' r]]; cbn [length] in H; try lia. destruct (find_name label (n :: n' :: r) 0) as [i|] eqn:E.
  - apply find_name_spec in E. rewrite Nat.sub_0_r in E. split; [intros [= <-]; apply E|]. intros (H1 & H2). f_equal. destruct E as (_ & E1 & E2).
    destruct (lt_eq_lt_dec i c) as [[L|L]|L]; [exfalso; apply (H2 i L); exact E1|exact L|exfalso; apply (E2 c L); exact H1].
  - split; [discriminate|]. intros F. exfalso. assert (X : find_name label (n :: n' :: r) 0 = Some c) by (apply find_name_spec; rewrite Nat.sub_0_r; split; [lia|exact F]). congruence.
Qed.
Lemma first_at_unique names label c c' : first_at names label c -> first_at names label c' -> c = c'.
Proof. intros (A & B) (A' & B'). destruct (lt_eq_lt_dec c c') as [[L|L]|L]; [exfalso; apply (B' c L A)|exact L|exfalso; apply (B c' L A')]. Qed.
Definition rect (lines : list (list R)) : Prop := forall l, In l lines -> length l = width lines.
Lemma rect_bool lines : forallb (fun l => Nat.eqb (length l) (width lines)) lines = true <-> rect lines.
Proof. rewrite forallb_forall. unfold rect. split; intros H l Hl; apply Nat.eqb_eq; [apply H; exact Hl|rewrite (H l Hl); reflexivity]. Qed.
Lemma table_rect lines : table lines <-> rect lines /\ 2 <= length lines /\ 2 <= width lines.
Proof.
  split.
  - intros (L & w & W & H). assert (E : width lines = w). { destruct lines as [|l r]; cbn [length] in L; [lia|]. cbn [width]. apply H. left. reflexivity. }
    rewrite E. split; [|split; assumption]. intros l Hl. rewrite E. apply H. exact Hl.
  - intros (Rc & L & W). split; [exact L|]. exists (width lines). split; [exact W|exact Rc].
Qed.
Lemma column_spec lines i v : rect lines -> column lines i = Got v <-> 2 <= length lines /\ 2 <= width lines /\ i < width lines /\ v = map (fun l => nth i l 0%R) lines.
Proof.
  intros Rc. unfold column. destruct (Nat.leb_spec (length lines) 1) as [A|A]; cbn [orb]; [split; [discriminate|lia]|]. destruct (Nat.leb_spec (width lines) 1) as [B|B]; [split; [discriminate|lia]|].
  destruct (Nat.ltb_spec i (width lines)) as [C|C]; [|split; [discriminate|lia]]. split; [intros [= <-]; repeat split; lia|]. intros (_ & _ & _ & ->). reflexivity.
Qed.
Lemma is_column_eq names lines label v c : rect lines -> first_at names label c -> (lines <> [] -> c < width lines) -> is_column names lines label v <-> v = map (fun l => nth c l 0%R) lines.
Proof.
  intros Rc Fc W. split.
  - intros (c' & Fc' & L & H). rewrite (first_at_unique _ _ _ _ Fc' Fc) in *.
    apply nth_ext with (d := 0%R) (d' := 0%R); [rewrite map_length; exact L|]. intros e He. rewrite L in He. destruct (nth_error lines e) as [l|] eqn:E; [|apply nth_error_None in E; lia].
    destruct (H e l E) as (x & Hx & Hv). rewrite (nth_error_nth _ _ _ Hv). rewrite (nth_indep _ 0%R (nth c [] 0%R)) by (rewrite map_length; exact He). rewrite (map_nth (fun l => nth c l 0%R)). rewrite (nth_error_nth _ _ [] E). rewrite (nth_error_nth _ _ 0%R Hx). reflexivity.
  - intros ->. exists c. split; [exact Fc|]. split; [apply map_length|]. intros e l E. assert (Hl : In l lines) by (apply (nth_error_In _ _ E)). assert (Wc : c < length l) by (rewrite (Rc l Hl); apply W; intros ->; destruct Hl).
    exists (nth c l 0%R). split; [apply nth_error_nth'; exact Wc|]. rewrite nth_error_map, E. reflexivity.
Qed.
Section Csv.
Variables (names : list string) (lines : list (list R)).
Hypotheses (HN : 2 <= length names) (Rc : rect lines).
Lemma labelled_spec label v : labelled names lines label = Got v <-> table lines /\ is_column names lines label v.
Proof.
  rewrite table_rect. unfold labelled. destruct (name_index names label) as [c|e] eqn:E; cbn [bind].
  - pose proof (proj1 (name_index_spec names label c HN) E) as Fc. rewrite (column_spec lines c v Rc). split.
    + intros (A & B & C & D). split; [repeat split; assumption|]. apply (is_column_eq names lines label v c Rc Fc (fun _ => C)). exact D.
    + intros ((_ & A & B) & K). pose proof K as (c' & Fc' & L & H). rewrite (first_at_unique _ _ _ _ Fc' Fc) in H. assert (C : c < width lines).
      { destruct lines as [|l r]; [cbn in A; lia|]. destruct (H 0 l eq_refl) as (x & Hx & _). cbn [width]. apply nth_error_Some. rewrite Hx. discriminate. }
      repeat split; try assumption. apply (is_column_eq names lines label v c Rc Fc (fun _ => C)). exact K.
  - split; [discriminate|]. intros (_ & c & Fc & _). apply (name_index_spec names label c HN) in Fc. congruence.
Qed.
Lemma columns_spec labels : forall X, columns names lines labels = Got X <-> List.Forall2 (fun l v => labelled names lines l = Got v) labels X.
Proof.
  induction labels as [|l labels IH]; intros X; cbn [columns].
  - split; [intros [= <-]; constructor|]. intros H. inversion H. reflexivity.
  - destruct (labelled names lines l) as [c|e] eqn:E; cbn [bind].
    + destruct (columns names lines labels) as [cs|e] eqn:E2; cbn [bind].
      * split; [intros [= <-]; constructor; [exact E|apply IH; reflexivity]|]. intros H. inversion H as [|? v ? Y Hv HY]; subst. apply IH in HY. congruence.
      * split; [discriminate|]. intros H. inversion H as [|? v ? Y Hv HY]; subst. apply IH in HY. discriminate.
    + split; [discriminate|]. intros H. inversion H; subst. congruence.
Qed.
Lemma columns_exists labels : (exists X, columns names lines labels = Got X) <-> forall l, In l labels -> exists v, labelled names lines l = Got v.
Proof.
  split.
  - intros (X & E) l Hl. apply columns_spec in E. induction E as [|l0 v ls vs H _ IH]; [destruct Hl|]. destruct Hl as [<- |Hl]; [exists v; exact H|apply IH; exact Hl].
  - induction labels as [|l labels IH]; intros H; [exists []; reflexivity|]. destruct (H l (or_introl eq_refl)) as (v & E). destruct IH as (X & EX); [intros k Hk; apply H; right; exact Hk|]. exists (v :: X). cbn [columns]. rewrite E. cbn [bind]. rewrite EX. reflexivity.
Qed.
(** the tensor of partial derivatives *)
Definition dims (p q : nat) (J : tensor) : Prop := length J = p /\ forall row, In row J -> length row = q.
Definition get (J : tensor) (i j : nat) : option (list R) := match nth_error J i with Some row => nth_error row j | None => None end.
Lemma set_nth_length {A} (v : A) l : forall i, length (set_nth i v l) = length l.
Proof. induction l as [|x l IH]; intros [|i]; cbn; try reflexivity. rewrite IH. reflexivity. Qed.
Lemma set_nth_error {A} (v : A) l : forall i k, i < length l -> nth_error (set_nth i v l) k = if Nat.eqb k i then Some v else nth_error l k.
Proof.
  induction l as [|x l IH]; intros [|i] k H; cbn [length] in H; try lia; cbn [set_nth]; destruct k as [|k]; cbn [nth_error Nat.eqb]; try reflexivity. apply IH. lia.
Qed.
Lemma set_nth_In {A} (v x : A) l : forall i, In x (set_nth i v l) -> x = v \/ In x l.
Proof. induction l as [|y l IH]; intros [|i] H; cbn in H; [destruct H|destruct H| |]; destruct H as [H|H]; [left; congruence|right; right; exact H|right; left; exact H|]. destruct (IH i H); [left; assumption|right; right; assumption]. Qed.
Lemma set_entry_spec p q J i j v : dims p q J -> (i < p /\ j < q -> exists J', set_entry J i j v = Got J' /\ dims p q J' /\ forall i' j', get J' i' j' = if Nat.eqb i' i && Nat.eqb j' j then Some v else get J i' j') /\ (~ (i < p /\ j < q) -> set_entry J i j v = Err EIndex).
Proof.
  intros (L & Hr). unfold set_entry. destruct (nth_error J i) as [row|] eqn:E.
  - assert (Li : i < p) by (rewrite <- L; apply nth_error_Some; rewrite E; discriminate). rewrite (Hr row (nth_error_In _ _ E)). destruct (Nat.ltb_spec j q) as [Hj|Hj]; (split; [|]).
    + intros _. eexists. split; [reflexivity|]. split.
      * split; [rewrite set_nth_length; exact L|]. intros r Hi. apply set_nth_In in Hi. destruct Hi as [-> |Hi]; [rewrite set_nth_length; apply Hr; apply (nth_error_In _ _ E)|apply Hr; exact Hi].
      * intros i' j'. unfold get. rewrite set_nth_error by lia. destruct (Nat.eqb_spec i' i) as [-> |N]; cbn [andb]; [|reflexivity]. rewrite E. rewrite set_nth_error by (rewrite (Hr row (nth_error_In _ _ E)); exact Hj). reflexivity.
    + intros H. exfalso. apply H. split; assumption.
    + intros (_ & H). lia.
    + reflexivity.
  - apply nth_error_None in E. split; [lia|reflexivity].
Qed.
Lemma fill_row_ok p q labels : forall J i j J', dims p q J -> fill_row names lines J i j labels = Got J' -> dims p q J' /\ (labels <> [] -> i < p /\ j + length labels <= q) /\
  (forall l, In l labels -> exists v, labelled names lines l = Got v) /\
  forall i' j', (i' = i /\ j <= j' < j + length labels -> exists l v, nth_error labels (j' - j) = Some l /\ labelled names lines l = Got v /\ get J' i' j' = Some v) /\ (~ (i' = i /\ j <= j' < j + length labels) -> get J' i' j' = get J i' j').
Proof.
  induction labels as [|l labels IH]; intros J i j J' D E; cbn [fill_row] in E.
  - injection E as <-. split; [exact D|]. split; [congruence|]. split; [intros l []|]. intros i' j'. cbn [length]. split; [lia|reflexivity].
  - destruct (labelled names lines l) as [v|e] eqn:El; [|discriminate]. cbn [bind] in E. destruct (set_entry_spec p q J i j v D) as [S1 S2].
    destruct (lt_dec i p) as [Hi|Hi]; [|rewrite S2 in E by tauto; discriminate]. destruct (lt_dec j q) as [Hj|Hj]; [|rewrite S2 in E by tauto; discriminate].
    destruct (S1 (conj Hi Hj)) as (J1 & EJ & D1 & G1). rewrite EJ in E. cbn [bind] in E. destruct (IH J1 i (S j) J' D1 E) as (D' & B & K & G). split; [exact D'|]. split.
    + intros _. split; [exact Hi|]. cbn [length]. destruct labels as [|l' r]; [cbn; lia|]. destruct (B ltac:(discriminate)). lia.
    + split; [intros k [<- |Hk]; [exists v; exact El|apply K; exact Hk]|]. intros i' j'. cbn [length]. destruct (G i' j') as [Ga Gb]. split.
      * intros (-> & Hj'). destruct (Nat.eq_dec j' j) as [-> |N].
        { exists l, v. rewrite Nat.sub_diag. split; [reflexivity|]. split; [exact El|]. rewrite Gb by lia. rewrite G1. rewrite !Nat.eqb_refl. reflexivity. }
        destruct (Ga ltac:(split; [reflexivity|lia])) as (l' & v' & A1 & A2 & A3). exists l', v'. replace (j' - j) with (S (j' - S j)) by lia. split; [exact A1|]. split; assumption.
      * intros N. rewrite Gb by (intros (-> & H); apply N; split; [reflexivity|lia]). rewrite G1. destruct (Nat.eqb_spec i' i) as [-> |N1]; cbn [andb]; [|reflexivity]. destruct (Nat.eqb_spec j' j) as [-> |N2]; [exfalso; apply N; split; [reflexivity|lia]|reflexivity].
Qed.
Lemma fill_row_exists p q labels : forall J i j, dims p q J -> (labels <> [] -> i < p /\ j + length labels <= q) -> (forall l, In l labels -> exists v, labelled names lines l = Got v) -> exists J', fill_row names lines J i j labels = Got J'.
Proof.
  induction labels as [|l labels IH]; intros J i j D B K; cbn [fill_row]; [exists J; reflexivity|]. destruct (K l (or_introl eq_refl)) as (v & ->). cbn [bind]. destruct (B ltac:(discriminate)) as [Hi Hj]. cbn [length] in Hj.
  destruct (proj1 (set_entry_spec p q J i j v D) ltac:(lia)) as (J1 & -> & D1 & _). cbn [bind]. apply IH; [exact D1| |intros k Hk; apply K; right; exact Hk]. intros N. split; [exact Hi|lia].
Qed.
Lemma fill_ok p q ps : forall J i0 J', dims p q J -> fill names lines J i0 ps = Got J' -> dims p q J' /\
  (forall i j l, label_at ps i j = Some l -> i0 + i < p /\ j < q /\ exists v, labelled names lines l = Got v /\ get J' (i0 + i) j = Some v) /\
  (forall i j, label_at ps i j = None -> get J' (i0 + i) j = get J (i0 + i) j) /\ forall i j, i < i0 -> get J' i j = get J i j.
Proof.
  induction ps as [|row ps IH]; intros J i0 J' D E; cbn [fill] in E.
  - injection E as <-. split; [exact D|]. split; [intros i j l H; destruct i; discriminate|]. split; reflexivity.
  - destruct (fill_row names lines J i0 0 row) as [J1|e] eqn:E1; [|discriminate]. cbn [bind] in E. destruct (fill_row_ok p q row J i0 0 J1 D E1) as (D1 & B1 & K1 & G1). destruct (IH J1 (S i0) J' D1 E) as (D' & A & N & Lo).
    split; [exact D'|]. split; [|split].
    + intros [|i] j l H; unfold label_at in H; cbn [nth_error] in H.
      * assert (Hj : j < length row) by (apply nth_error_Some; rewrite H; discriminate). destruct (B1 ltac:(intros ->; cbn in Hj; lia)) as [B2 B3]. split; [lia|]. split; [lia|].
        destruct (proj1 (G1 i0 j) ltac:(split; [reflexivity|lia])) as (l' & v & A1 & A2 & A3). rewrite Nat.sub_0_r in A1. exists v. assert (l' = l) as -> by congruence. split; [exact A2|]. rewrite Nat.add_0_r. rewrite Lo by lia. exact A3.
      * destruct (A i j l H) as (X1 & X2 & v & X3 & X4). split; [lia|]. split; [exact X2|]. exists v. split; [exact X3|]. replace (i0 + S i) with (S i0 + i) by lia. exact X4.
    + intros [|i] j H; unfold label_at in H; cbn [nth_error] in H.
      * rewrite Nat.add_0_r. rewrite Lo by lia. apply nth_error_None in H. apply (G1 i0 j). lia.
      * replace (i0 + S i) with (S i0 + i) by lia. rewrite (N i j H). apply (G1 (S i0 + i) j). lia.
    + intros i j Hi. rewrite Lo by lia. apply (G1 i j). lia.
Qed.
Lemma fill_exists p q ps : forall J i0, dims p q J -> (forall i j l, label_at ps i j = Some l -> i0 + i < p /\ j < q /\ exists v, labelled names lines l = Got v) -> exists J', fill names lines J i0 ps = Got J'.
Proof.
  induction ps as [|row ps IH]; intros J i0 D H; cbn [fill]; [exists J; reflexivity|].
  destruct (fill_row_exists p q row J i0 0 D) as (J1 & E1).
  - intros N. destruct (exists_last N) as (r & x & ->). destruct (H 0 (length r) x) as (A & B & _); [unfold label_at; cbn [nth_error]; rewrite nth_error_app2, Nat.sub_diag by lia; reflexivity|]. rewrite app_length. cbn [length]. lia.
  - intros l Hl. apply In_nth_error in Hl. destruct Hl as (j & Hj). apply (H 0 j l). exact Hj.
  - rewrite E1. cbn [bind]. apply IH; [apply (fill_row_ok p q row J i0 0 J1 D E1)|]. intros i j l Hl. destruct (H (S i) j l Hl) as (A & B & C). split; [lia|]. split; assumption.
Qed.
End Csv.
