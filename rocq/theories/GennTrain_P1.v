(** Proofs about the mini-batches of GENN. *)
From Coq Require Import Reals ZArith Arith Lia Lra Bool List Permutation.
From Verif Require Import RSum Genn_M GennOpt_M GennTrain_M GennTrain_S.
Import ListNotations.
Open Scope list_scope.
Open Scope nat_scope.
Lemma chunks_concat : forall (l : list nat) b q, concat (map (fun k => firstn b (skipn (k * b) l)) (seq 0 q)) = firstn (q * b) l.
Proof.
  intros l b q. induction q as [|q IH]; [reflexivity|]. rewrite seq_S, map_app, concat_app, IH. cbn [Nat.add map concat]. rewrite app_nil_r.
  replace (S q * b) with (q * b + b) by lia. rewrite <- (firstn_skipn (q * b) l) at 3. rewrite firstn_app, firstn_firstn. replace (Nat.min (q * b + b) (q * b)) with (q * b) by lia. f_equal.
  rewrite firstn_length. destruct (le_lt_dec (q * b) (length l)) as [L|L].
  - f_equal. lia.
  - rewrite (skipn_all2 l) by lia. rewrite !firstn_nil. reflexivity.
Qed.
Lemma nth_skipn_0 : forall (l : list nat) a e, nth e (skipn a l) 0 = nth (a + e) l 0.
Proof. induction l as [|x l IH]; intros [|a] e; cbn [skipn Nat.add nth]; try reflexivity; [destruct e; reflexivity|apply IH]. Qed.
Lemma columns_examples : forall perm X Y J a n l, length l = n -> (forall e, e < n -> nth e l 0 = nth (a + e) perm 0) -> examples X Y J l (columns a n (take_cols perm X) (take_cols perm Y) (option_map (take_cols3 perm) J)).
Proof.
  intros perm X Y J a n l Hl He. unfold examples, columns. cbn [b_size b_X b_Y b_J]. rewrite Hl. split; [reflexivity|]. split.
  - intros e L. split; intros i; unfold from_col, take_cols; rewrite He by exact L; reflexivity.
  - destruct J as [J|]; cbn [option_map]; [|exact I]. intros e L j k. unfold from_col3, take_cols3. rewrite He by exact L. reflexivity.
Qed.
Lemma nth_firstn_lt : forall (l : list nat) n e, e < n -> nth e (firstn n l) 0 = nth e l 0.
Proof. induction l as [|x l IH]; intros [|n] [|e] H; cbn [firstn nth]; try reflexivity; try lia. apply IH. lia. Qed.
Lemma partition : forall perm m X Y J size, length perm = m -> 1 <= m -> (1 <= size)%Z -> exists bs ls, mini_batches perm m X Y J size = Ret bs /\ Forall2 (examples X Y J) ls bs /\ concat ls = perm /\ map (@length nat) ls = sizes m (Nat.min (Z.to_nat size) m).
Proof.
  intros perm m X Y J size Hp Hm Hs. unfold mini_batches. set (b := Nat.min (Z.to_nat size) m). assert (Eb : Z.min size (Z.of_nat m) = Z.of_nat b) by lia. rewrite Eb. assert (Hb : 1 <= b) by lia.
  destruct (Z.eqb_spec (Z.of_nat b) 0) as [X0|_]; [lia|]. rewrite <- Nat2Z.inj_div, !Nat2Z.id. set (q := m / b). pose proof (Nat.div_mod m b ltac:(lia)) as DM. fold q in DM. pose proof (Nat.mod_upper_bound m b ltac:(lia)) as MB.
  assert (Hq : q * b <= m) by nia. set (c := map (fun k => firstn b (skipn (k * b) perm)) (seq 0 q)).
  assert (LC : forall k, k < q -> length (firstn b (skipn (k * b) perm)) = b). { intros k Hk. rewrite firstn_length, skipn_length. assert (k * b + b <= q * b) by nia. lia. }
  assert (FC : Forall2 (examples X Y J) c (map (fun k => columns (k * b) b (take_cols perm X) (take_cols perm Y) (option_map (take_cols3 perm) J)) (seq 0 q))).
  { unfold c. assert (G : forall s, (forall k, In k s -> k < q) -> Forall2 (examples X Y J) (map (fun k => firstn b (skipn (k * b) perm)) s) (map (fun k => columns (k * b) b (take_cols perm X) (take_cols perm Y) (option_map (take_cols3 perm) J)) s)).
    { induction s as [|k s IH]; intros H; cbn [map]; constructor; [|apply IH; intros k' H'; apply H; right; exact H']. apply columns_examples; [apply LC, H; left; reflexivity|]. intros e He. rewrite nth_firstn_lt by exact He. apply nth_skipn_0. }
    apply G. intros k Hk. apply in_seq in Hk. lia. }
  assert (MC : map (@length nat) c = repeat b q).
  { unfold c. rewrite map_map. clear -LC. assert (G : forall n s, s + n <= q -> map (fun k => length (firstn b (skipn (k * b) perm))) (seq s n) = repeat b n). { induction n as [|n IH]; intros s H; [reflexivity|]. cbn [seq map repeat]. rewrite LC by lia. f_equal. apply IH. lia. } apply G. lia. }
  rewrite <- Nat2Z.inj_mod. destruct (Z.eqb_spec (Z.of_nat (m mod b)) 0) as [R|R].
  - exists (map (fun k => columns (k * b) b (take_cols perm X) (take_cols perm Y) (option_map (take_cols3 perm) J)) (seq 0 q)), c. split; [reflexivity|]. split; [exact FC|]. split; [unfold c; rewrite chunks_concat, firstn_all2; [reflexivity|nia]|].
    unfold sizes. fold q. destruct (Nat.eqb_spec (m mod b) 0); [rewrite app_nil_r; exact MC|lia].
  - assert (Q1 : 1 <= q). { destruct (Nat.eq_dec q 0) as [Q|Q]; [|lia]. exfalso. rewrite Q in DM. lia. }
    destruct (Nat.eqb_spec q 0) as [Q|_]; [lia|]. replace (q - 1 + 1) with q by lia. eexists. exists (c ++ [skipn (q * b) perm]). split; [reflexivity|]. split; [|split].
    + apply Forall2_app; [exact FC|]. constructor; [|constructor]. apply columns_examples; [rewrite skipn_length; lia|]. intros e He. apply nth_skipn_0.
    + rewrite concat_app. cbn [concat]. rewrite app_nil_r. unfold c. rewrite chunks_concat. apply firstn_skipn.
    + rewrite map_app, MC. unfold sizes. fold q. cbn [map]. rewrite skipn_length. destruct (Nat.eqb_spec (m mod b) 0) as [Z|Z]; [lia|]. do 2 f_equal. nia.
Qed.
Lemma nonpositive : forall perm m X Y J size, 1 <= m -> (size <= 0)%Z -> mini_batches perm m X Y J size = if (size =? 0)%Z then Raise else if (Z.of_nat m mod size =? 0)%Z then Ret [] else Raise.
Proof.
  intros perm m X Y J size Hm Hs. unfold mini_batches. rewrite Z.min_l by lia. destruct (Z.eqb_spec size 0) as [E|E]; [reflexivity|]. assert (D : (Z.of_nat m / size < 0)%Z) by (pose proof (Z.div_mod (Z.of_nat m) size E); pose proof (Z.mod_neg_bound (Z.of_nat m) size ltac:(lia)); nia).
  replace (Z.to_nat (Z.of_nat m / size)) with 0 by lia. reflexivity.
Qed.
