From Coq Require Import Reals String Bool Arith List Permutation Lra Lia Psatz.
From Verif Require Import RSum Mat Moe_M Moe_S.
Import ListNotations.
Open Scope list_scope.
Open Scope nat_scope.

(** ** splitting *)
Lemma in_arange q : 1 <= q -> forall fuel i num j, num - i <= fuel -> (In j (arange fuel i num q) <-> exists k, j = i + k * q /\ j < num).
Proof.
  intros Hq. induction fuel as [|fuel IH]; intros i num j F; cbn [arange].
  - split; [intros []|]. intros (k & -> & H). nia.
  - destruct (Nat.ltb_spec i num) as [L|L].
    + cbn [In]. rewrite (IH (i + q) num j) by lia. split.
      * intros [<-|(k & -> & H)]; [exists 0; lia|exists (S k); lia].
      * intros ([|k] & -> & H); [left; lia|right; exists k; lia].
    + split; [intros []|]. intros (k & -> & H). nia.
Qed.
Lemma set_true_spec l : forall mask j, set_true mask l j = true <-> In j l \/ mask j = true.
Proof.
  unfold set_true. induction l as [|i l IH]; intros mask j; cbn [fold_left In]; [tauto|]. rewrite IH. destruct (Nat.eqb_spec j i) as [-> |Ne]; intuition congruence.
Qed.
Lemma select_ext {A} (l : list A) : forall i m m', (forall j, i <= j < i + length l -> m j = m' j) -> select i m l = select i m' l.
Proof. induction l as [|a l IH]; intros i m m' H; cbn; [reflexivity|]. cbn in H. rewrite (H i) by lia. rewrite (IH (S i) m m') by (intros; apply H; lia). reflexivity. Qed.
Lemma select_perm {A} (l : list A) : forall i m, Permutation (select i m l ++ select i (fun j => negb (m j)) l) l.
Proof.
  induction l as [|a l IH]; intros i m; cbn; [constructor|]. specialize (IH (S i) m). destruct (m i); cbn; [constructor; exact IH|].
  etransitivity; [symmetry; apply Permutation_middle|]. constructor. exact IH.
Qed.
(** positions kept by select *)
Lemma select_nth {A} (l : list A) : forall i m v, In v (select i m l) <-> exists j, nth_error l j = Some v /\ m (i + j) = true.
Proof.
  induction l as [|a l IH]; intros i m v; cbn [select]; [split; [intros []|intros ([|j] & H & _); discriminate]|].
  destruct (m i) eqn:E; cbn [In]; rewrite IH; split.
  - intros [<-|(j & H & M)]; [exists 0; rewrite Nat.add_0_r; auto|exists (S j); split; [exact H|rewrite <- M; f_equal; lia]].
  - intros ([|j] & H & M); [left; injection H; auto|right; exists j; split; [exact H|rewrite <- M; f_equal; lia]].
  - intros (j & H & M); exists (S j); split; [exact H|rewrite <- M; f_equal; lia].
  - intros ([|j] & H & M); [rewrite Nat.add_0_r in M; congruence|exists j; split; [exact H|rewrite <- M; f_equal; lia]].
Qed.
Lemma mask_spec num q j : 1 <= q -> j < num -> set_true (fun _ => false) (arange num 0 num q) j = Nat.eqb (j mod q) 0.
Proof.
  intros Hq Hj. apply Bool.eq_true_iff_eq. rewrite set_true_spec, (in_arange q Hq num 0 num j) by lia. rewrite Nat.eqb_eq. split.
  - intros [(k & -> & _)|H]; [cbn; apply Nat.mod_mul; lia|discriminate].
  - intros H. left. apply Nat.mod_divides in H; [|lia]. destruct H as [c ->]. exists c. split; [lia|exact Hj].
Qed.
Lemma extract_select {A} (values : list A) q : 1 <= q ->
  extract_part values q = (select 0 (fun i => Nat.eqb (i mod q) 0) values, select 0 (fun i => negb (Nat.eqb (i mod q) 0)) values).
Proof.
  intros Hq. unfold extract_part. f_equal; apply select_ext; intros j Hj; [|f_equal]; apply mask_spec; lia.
Qed.
Lemma extract_spec {A} (values : list A) q test rest : 1 <= q -> extract_part values q = (test, rest) ->
  Permutation (test ++ rest) values /\
  (forall v, In v test <-> exists j, nth_error values j = Some v /\ j mod q = 0) /\ (forall v, In v rest <-> exists j, nth_error values j = Some v /\ j mod q <> 0).
Proof.
  intros Hq. rewrite extract_select by exact Hq. intros [= <- <-]. split; [apply select_perm|]. split; intros v; rewrite select_nth; split; intros (j & H & M); exists j; (split; [exact H|]); cbn in *.
  - apply Nat.eqb_eq; exact M. - apply Nat.eqb_eq; exact M.
  - apply Nat.eqb_neq. destruct (j mod q =? 0); [discriminate|reflexivity].
  - apply Nat.eqb_neq in M. rewrite M. reflexivity.
Qed.
Lemma select_count {A} q : 1 <= q -> forall (l : list A) i, length (select i (fun j => Nat.eqb (j mod q) 0) l) = (i + length l + q - 1) / q - (i + q - 1) / q.
Proof.
  intros Hq. induction l as [|a l IH]; intros i; cbn [select length]; [rewrite Nat.add_0_r; lia|].
  assert (S1 : forall i, (i + 1 + q - 1) / q = (i + q - 1) / q + (if Nat.eqb (i mod q) 0 then 1 else 0)).
  { clear - Hq. intros i. pose proof (Nat.div_mod i q ltac:(lia)) as D. pose proof (Nat.mod_upper_bound i q ltac:(lia)) as U. set (d := i / q) in *. set (r := i mod q) in *.
    assert (E1 : (i + 1 + q - 1) / q = d + 1). { symmetry. apply (Nat.div_unique _ q (d + 1) r); nia. }
    rewrite E1. destruct (Nat.eqb_spec r 0) as [Z|Z].
    - assert ((i + q - 1) / q = d); [|lia]. symmetry. apply (Nat.div_unique _ q d (q - 1)); nia.
    - assert ((i + q - 1) / q = d + 1); [|lia]. symmetry. apply (Nat.div_unique _ q (d + 1) (r - 1)); nia. }
  assert (M : forall a b, a <= b -> (a + q - 1) / q <= (b + q - 1) / q) by (intros; apply Nat.div_le_mono; lia).
  specialize (IH (S i)). specialize (S1 i). replace (i + 1) with (S i) in S1 by lia. replace (i + S (length l)) with (S i + length l) by lia.
  pose proof (M (S i) (S i + length l) ltac:(lia)). destruct (Nat.eqb (i mod q) 0); cbn [length]; lia.
Qed.
Lemma extract_count {A} (values : list A) q test rest : 1 <= q -> extract_part values q = (test, rest) -> length test = (length values + q - 1) / q.
Proof. intros Hq. rewrite extract_select by exact Hq. intros [= <- _]. rewrite select_count by exact Hq. cbn. rewrite (Nat.div_small (q - 1) q) by lia. lia. Qed.

(** ** clusters *)
Lemma append_len {A} c (v : A) cl cl' : append_at c v cl = Some cl' -> length cl' = length cl.
Proof.
  unfold append_at. destruct (Nat.ltb_spec c (length cl)) as [H|]; [|discriminate]. intros E. assert (E' : cl' = firstn c cl ++ (nth c cl [] ++ [v]) :: skipn (S c) cl) by congruence. rewrite E'. rewrite app_length, firstn_length. change (length ((nth c cl [] ++ [v]) :: skipn (S c) cl)) with (S (length (skipn (S c) cl))). rewrite (skipn_length (S c) cl). lia.
Qed.
Lemma append_nth {A} c (v : A) cl cl' k : append_at c v cl = Some cl' -> c < length cl /\ nth k cl' [] = if Nat.eqb k c then nth k cl [] ++ [v] else nth k cl [].
Proof.
  unfold append_at. destruct (Nat.ltb_spec c (length cl)) as [H|]; [|discriminate]. intros E. assert (E' : cl' = firstn c cl ++ (nth c cl [] ++ [v]) :: skipn (S c) cl) by congruence. rewrite E'. clear E E'. split; [exact H|].
  assert (Lf : length (firstn c cl) = c) by (rewrite firstn_length; lia).
  destruct (Nat.eqb_spec k c) as [-> |Ne].
  - rewrite app_nth2 by lia. rewrite Lf, Nat.sub_diag. reflexivity.
  - destruct (Nat.lt_ge_cases k c) as [L|L].
    + rewrite app_nth1 by lia. rewrite <- (firstn_skipn c cl) at 2. rewrite app_nth1 by lia. reflexivity.
    + rewrite app_nth2 by lia. rewrite Lf. destruct (k - c) as [|d] eqn:E; [lia|]. cbn [nth]. rewrite <- (firstn_skipn (S c) cl) at 2. rewrite app_nth2 by (rewrite firstn_length; lia).
      rewrite firstn_length, Nat.min_l by lia. f_equal. lia.
Qed.
Fixpoint members {A} (k : nat) (cls : list nat) (values : list A) : list A :=
  match cls, values with c :: cls, v :: values => if Nat.eqb c k then v :: members k cls values else members k cls values | _, _ => [] end.
Lemma cluster_loop_spec {A} : forall cls (values : list A) cl, length values = length cls ->
  (forall cl', cluster_loop cls values cl = Some cl' -> Forall (fun c => c < length cl) cls /\ length cl' = length cl /\ forall k, nth k cl' [] = nth k cl [] ++ members k cls values) /\
  (Forall (fun c => c < length cl) cls -> cluster_loop cls values cl <> None).
Proof.
  induction cls as [|c cls IH]; intros [|v values] cl L; try discriminate; cbn [cluster_loop members].
  - split; [|discriminate]. intros cl' [= <-]. split; [constructor|]. split; [reflexivity|]. intros k. rewrite app_nil_r. reflexivity.
  - cbn in L. split.
    + intros cl'. destruct (append_at c v cl) as [cl1|] eqn:E; [|discriminate]. intros H. destruct (IH values cl1 ltac:(lia)) as [I1 _]. destruct (I1 cl' H) as (F & Lc & N).
      pose proof (append_len _ _ _ _ E) as L1. rewrite L1 in *. split; [constructor; [exact (proj1 (append_nth _ _ _ _ 0 E))|exact F]|]. split; [exact Lc|].
      intros k. rewrite N, (proj2 (append_nth _ _ _ _ k E)). rewrite (Nat.eqb_sym c k). destruct (Nat.eqb k c); [rewrite <- app_assoc; reflexivity|reflexivity].
    + intros F. inversion F as [|? ? Hc F']; subst. destruct (append_at c v cl) as [cl1|] eqn:E.
      * apply (IH values cl1 ltac:(lia)). rewrite (append_len _ _ _ _ E). exact F'.
      * unfold append_at in E. destruct (Nat.ltb_spec c (length cl)); [discriminate|lia].
Qed.
Lemma nth_repeat_nil {A} n k : nth k (repeat (@nil A) n) [] = []. Proof. revert k. induction n as [|n IH]; intros [|k]; cbn; auto. Qed.
Lemma concat_nth {A} (cl : list (list A)) : concat cl = concat (map (fun k => nth k cl []) (seq 0 (length cl))).
Proof.
  f_equal. apply (nth_ext _ _ [] []); [rewrite map_length, seq_length; reflexivity|]. intros k Hk. set (h := fun k => nth k cl []).
  rewrite (nth_indep (map h (seq 0 (length cl))) [] (h 0)) by (rewrite map_length, seq_length; exact Hk). rewrite map_nth, seq_nth by exact Hk. reflexivity.
Qed.
Lemma members_out {A} n : forall cls (values : list A) s, length values = length cls -> Forall (fun c => s <= c < s + n) cls ->
  Permutation (concat (map (fun k => members k cls values) (seq s n))) values.
Proof.
  induction cls as [|c cls IH]; intros [|v values] s L F; try discriminate.
  - assert (E : concat (map (fun k => members k [] []) (seq s n)) = @nil A) by (generalize (seq s n); induction l as [|a l I]; cbn; auto). rewrite E. constructor.
  - inversion F as [|? ? Hc F']; subst. cbn in L. specialize (IH values s ltac:(lia) F'). cbn [members].
    assert (E : Permutation (concat (map (fun k => if Nat.eqb c k then v :: members k cls values else members k cls values) (seq s n))) (v :: concat (map (fun k => members k cls values) (seq s n)))).
    { clear - Hc. revert s Hc. induction n as [|n IH]; intros s Hc; [lia|]. cbn [seq map concat]. destruct (Nat.eqb_spec c s) as [-> |Ne].
      - cbn. constructor. apply Permutation_app_head. assert (Q : map (fun k => if s =? k then v :: members k cls values else members k cls values) (seq (S s) n) = map (fun k => members k cls values) (seq (S s) n)); [|rewrite Q; reflexivity].
        apply map_ext_in. intros k Hk. apply in_seq in Hk. destruct (Nat.eqb_spec s k); [lia|reflexivity].
      - etransitivity; [apply Permutation_app_head; apply (IH (S s)); lia|]. symmetry. apply Permutation_middle. }
    etransitivity; [exact E|]. constructor. exact IH.
Qed.
Lemma clusters_spec {A} n (values : list A) cls cl : cluster_values n values cls = Some cl ->
  length values = length cls /\ length cl = n /\ Forall (fun c => c < n) cls /\ (forall k, nth k cl [] = members k cls values) /\ Permutation (concat cl) values.
Proof.
  unfold cluster_values. destruct (Nat.eqb_spec (length values) (length cls)) as [L|]; [|discriminate]. intros H.
  destruct (proj1 (cluster_loop_spec cls values (repeat [] n) L) cl H) as (F & Lc & N). rewrite repeat_length in *. split; [exact L|]. split; [exact Lc|]. split; [exact F|].
  assert (N' : forall k, nth k cl [] = members k cls values) by (intros k; rewrite N, nth_repeat_nil; reflexivity). split; [exact N'|].
  rewrite concat_nth, Lc. rewrite (map_ext _ (fun k => members k cls values)) by exact N'. apply members_out; [exact L|]. eapply Forall_impl; [|exact F]. cbn. intros; lia.
Qed.
Lemma clusters_total {A} n (values : list A) cls : length values = length cls -> Forall (fun c => c < n) cls -> exists cl, cluster_values n values cls = Some cl.
Proof.
  intros L F. unfold cluster_values. destruct (Nat.eqb_spec (length values) (length cls)); [|congruence]. pose proof (proj2 (cluster_loop_spec cls values (repeat [] n) L)) as T. rewrite repeat_length in T. specialize (T F).
  destruct (cluster_loop cls values (repeat [] n)); [eauto|congruence].
Qed.
Lemma members_spec {A} k : forall cls (values : list A) v, length values = length cls -> (In v (members k cls values) <-> exists i, nth_error cls i = Some k /\ nth_error values i = Some v).
Proof.
  induction cls as [|c cls IH]; intros [|w values] v L; try discriminate; cbn [members].
  - split; [intros []|intros ([|i] & H & _); discriminate].
  - cbn in L. specialize (IH values v ltac:(lia)). destruct (Nat.eqb_spec c k) as [-> |Ne]; cbn [In]; rewrite IH; split.
    + intros [<-|(i & A1 & B)]; [exists 0; auto|exists (S i); auto]. 
    + intros ([|i] & A1 & B); [left; injection B; auto|right; exists i; auto].
    + intros (i & A1 & B). exists (S i). auto.
    + intros ([|i] & A1 & B); [injection A1 as ->; congruence|exists i; auto].
Qed.
