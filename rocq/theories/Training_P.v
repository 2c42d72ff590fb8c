From Coq Require Import String ZArith Bool Arith List Lia.
From Verif Require Import Training_M Training_S.
Import ListNotations.
Open Scope list_scope.

Section Proofs.
Context {A : Type}.
Variable sup_td : bool.
Notation state := (state A).
Notation op := (op A).
Notation arr := (arr A).

Lemma label_eqb_spec a b : reflect (a = b) (label_eqb a b).
Proof.
  destruct a as [s|], b as [t|]; cbn; try (constructor; congruence).
  destruct (String.eqb_spec s t); constructor; congruence.
Qed.
Lemma key_eqb_spec a b : reflect (a = b) (key_eqb a b).
Proof.
  destruct a as [l k], b as [m j]; unfold key_eqb; cbn [fst snd].
  destruct (label_eqb_spec l m); cbn; [|constructor; congruence].
  destruct (Z.eqb_spec k j); constructor; congruence.
Qed.
Lemma find_entry_cons k e st k' :
  find_entry ((k, e) :: st) k' = if key_eqb k' k then Some e else find_entry st k'.
Proof. unfold find_entry; cbn. destruct (key_eqb k' k); reflexivity. Qed.

Lemma upd_same (h : nat -> option arr) l a : upd h l a l = Some a.
Proof. unfold upd; rewrite Nat.eqb_refl; reflexivity. Qed.
Lemma upd_other (h : nat -> option arr) l a m : m <> l -> upd h l a m = h m.
Proof. intros H; unfold upd. destruct (Nat.eqb_spec m l); [contradiction|reflexivity]. Qed.

Lemma existsb_in l (c : list nat) : existsb (Nat.eqb l) c = true <-> In l c.
Proof.
  rewrite existsb_exists. split.
  - intros (x & Hx & He). apply Nat.eqb_eq in He; subst; exact Hx.
  - intros H; exists l; split; [exact H|apply Nat.eqb_refl].
Qed.

Definition Inv (s : state) : Prop :=
  (forall l, In l (caller s) -> l < next s) /\
  (forall l, l < next s -> exists a, heap s l = Some a) /\
  (forall k lx ly, find_entry (points s) k = Some (lx, ly) ->
      lx < next s /\ ly < next s /\ ~ In lx (caller s) /\ ~ In ly (caller s)).

Definition Rel (s : state) (past : trace A) : Prop :=
  Inv s /\ (forall l, arg s l = content past l) /\
  (forall name, read s name 0 = values_of past name) /\
  (forall name k, (0 <= k)%Z -> read s name (k + 1) = derivs_of past name k).

Lemma ensure_table (past : trace A) l a x : content past l = Some a -> ensure_2d a = Some x -> table past l = Some x.
Proof.
  intros Hc He. unfold table; rewrite Hc. unfold ensure_2d in He.
  destruct a as [sh d]; cbn in *. destruct sh as [|n [|m [|? ?]]]; inversion He; subst; reflexivity.
Qed.

(** state right after copying [x] (and possibly [y]) into fresh cells *)
Lemma read_bind2 (s : state) x y k name key :
  Inv s ->
  let '(s1, lx) := alloc s x in let '(s2, ly) := alloc s1 y in
  read (bind s2 k (lx, ly)) name key = if key_eqb (name, key) k then Some (x, y) else read s name key.
Proof.
  intros [_ [_ Hst]]; cbn. unfold read; cbn [points bind].
  rewrite find_entry_cons. destruct (key_eqb (name, key) k).
  - cbn [heap bind next]. rewrite upd_other by lia. rewrite !upd_same. reflexivity.
  - destruct (find_entry (points s) (name, key)) as [[a b]|] eqn:He; [|reflexivity].
    destruct (Hst _ _ _ He) as (Ha & Hb & _). cbn [heap bind next].
    rewrite !upd_other by lia. reflexivity.
Qed.

Lemma read_bind1 (s : state) y k lx0 name key x :
  Inv s -> lx0 < next s -> heap s lx0 = Some x ->
  let '(s1, ly) := alloc s y in
  read (bind s1 k (lx0, ly)) name key = if key_eqb (name, key) k then Some (x, y) else read s name key.
Proof.
  intros [_ [_ Hst]] Hl Hx; cbn. unfold read; cbn [points bind].
  rewrite find_entry_cons. destruct (key_eqb (name, key) k).
  - cbn [heap bind next]. rewrite upd_other by lia. rewrite Hx, upd_same. reflexivity.
  - destruct (find_entry (points s) (name, key)) as [[a b]|] eqn:He; [|reflexivity].
    destruct (Hst _ _ _ He) as (Ha & Hb & _). cbn [heap bind next].
    rewrite !upd_other by lia. reflexivity.
Qed.

Lemma alloc_inv (s : state) a : Inv s -> Inv (fst (alloc s a)).
Proof.
  intros (H1 & H2 & H3). cbn. split; [|split].
  - cbn; intros l Hl; specialize (H1 l Hl); lia.
  - cbn; intros l Hl. destruct (Nat.eq_dec l (next s)) as [->|Hne].
    + exists a; apply upd_same.
    + rewrite upd_other by exact Hne. apply H2; lia.
  - cbn; intros k lx ly He. destruct (H3 _ _ _ He) as (A1 & A2 & A3 & A4). repeat split; try lia; assumption.
Qed.

Lemma alloc_arg (s : state) a l : Inv s -> arg (fst (alloc s a)) l = arg s l.
Proof.
  intros (H1 & _). unfold arg; cbn. destruct (existsb (Nat.eqb l) (caller s)) eqn:E; [|reflexivity].
  apply existsb_in in E. apply upd_other. specialize (H1 l E); lia.
Qed.

Lemma bind_inv (s : state) k lx ly : Inv s -> lx < next s -> ly < next s ->
  ~ In lx (caller s) -> ~ In ly (caller s) -> Inv (bind s k (lx, ly)).
Proof.
  intros (H1 & H2 & H3) Hx Hy Nx Ny. split; [exact H1|split; [exact H2|]].
  intros k' a b. cbn [points bind]. rewrite find_entry_cons. destruct (key_eqb k' k).
  - intros [= <- <-]; repeat split; assumption.
  - apply H3.
Qed.

Lemma dims_inv (s : state) d : Inv s -> Inv (with_dims s d).
Proof. intros H; exact H. Qed.

Lemma fresh_not_caller (s : state) : Inv s -> ~ In (next s) (caller s).
Proof. intros (H1 & _) H. specialize (H1 _ H); lia. Qed.

Lemma key0 name n : key_eqb (name, 0%Z) (n, 0%Z) = label_eqb name n.
Proof. unfold key_eqb; cbn. apply andb_true_r. Qed.
Lemma key0d name n k : (0 <= k)%Z -> key_eqb (name, 0%Z) (n, (k + 1)%Z) = false.
Proof. intros H; unfold key_eqb; cbn [fst snd]. destruct (Z.eqb_spec 0 (k + 1)); [lia|]. apply andb_false_r. Qed.
Lemma keyd0 name n k : (0 <= k)%Z -> key_eqb (name, (k + 1)%Z) (n, 0%Z) = false.
Proof. intros H; unfold key_eqb; cbn [fst snd]. destruct (Z.eqb_spec (k + 1) 0); [lia|]. apply andb_false_r. Qed.
Lemma keydd name n k j : key_eqb (name, (k + 1)%Z) (n, (j + 1)%Z) = label_eqb name n && Z.eqb k j.
Proof.
  unfold key_eqb; cbn [fst snd]. f_equal.
  destruct (Z.eqb_spec (k + 1) (j + 1)), (Z.eqb_spec k j); try reflexivity; lia.
Qed.

(** storing a fresh pair *)
Lemma store2_rel (s : state) past x y k (o : op) :
  Rel s past ->
  (forall l, content ((o, Done) :: past) l = content past l) ->
  (forall name, (if key_eqb (name, 0%Z) k then Some (x, y) else values_of past name) = values_of ((o, Done) :: past) name) ->
  (forall name j, (0 <= j)%Z -> (if key_eqb (name, (j + 1)%Z) k then Some (x, y) else derivs_of past name j) = derivs_of ((o, Done) :: past) name j) ->
  forall d, let '(s1, lx) := alloc (match d with Some e => with_dims s e | None => s end) x in let '(s2, ly) := alloc s1 y in
  Rel (bind s2 k (lx, ly)) ((o, Done) :: past).
Proof.
  intros (Hinv & Harg & Hval & Hder) Hc Hv Hd d.
  set (s0 := match d with Some e => with_dims s e | None => s end).
  assert (Hinv0 : Inv s0) by (destruct d; exact Hinv).
  assert (Hr0 : forall n k, read s0 n k = read s n k) by (destruct d; reflexivity).
  assert (Ha0 : forall l, arg s0 l = arg s l) by (destruct d; reflexivity).
  pose proof (read_bind2 s0 x y k) as Hrd.
  destruct (alloc s0 x) as [s1 lx] eqn:E1. pose proof (alloc_inv s0 x Hinv0) as I1. rewrite E1 in I1; cbn in I1.
  destruct (alloc s1 y) as [s2 ly] eqn:E2. pose proof (alloc_inv s1 y I1) as I2. rewrite E2 in I2; cbn in I2.
  pose proof (fresh_not_caller s0 Hinv0) as F0. pose proof (fresh_not_caller s1 I1) as F1.
  assert (Hlx : lx = next s0 /\ next s1 = S (next s0) /\ caller s1 = caller s0) by (inversion E1; subst; auto).
  assert (Hly : ly = next s1 /\ next s2 = S (next s1) /\ caller s2 = caller s1) by (inversion E2; subst; auto).
  destruct Hlx as (-> & Hn1 & Hc1), Hly as (-> & Hn2 & Hc2).
  assert (Hargs : forall l, arg (bind s2 k (next s0, next s1)) l = arg s l).
  { intros l. change (arg s2 l = arg s l).
    pose proof (alloc_arg s1 y l I1) as X. rewrite E2 in X; cbn in X.
    pose proof (alloc_arg s0 x l Hinv0) as Y. rewrite E1 in Y; cbn in Y. rewrite X, Y; apply Ha0. }
  split; [|split; [|split]].
  - apply bind_inv; try assumption; rewrite ?Hc2, ?Hc1; try lia; try assumption. rewrite Hc1 in F1; exact F1.
  - intros l. rewrite Hargs, Harg, Hc; reflexivity.
  - intros name. rewrite (Hrd name 0%Z Hinv0), Hr0, Hval. apply Hv.
  - intros name j Hj. rewrite (Hrd name (j + 1)%Z Hinv0), Hr0, (Hder _ _ Hj). apply Hd, Hj.
Qed.

Lemma store1_rel (s : state) past x y lx0 k (o : op) :
  Rel s past -> lx0 < next s -> ~ In lx0 (caller s) -> heap s lx0 = Some x ->
  (forall l, content ((o, Done) :: past) l = content past l) ->
  (forall name, (if key_eqb (name, 0%Z) k then Some (x, y) else values_of past name) = values_of ((o, Done) :: past) name) ->
  (forall name j, (0 <= j)%Z -> (if key_eqb (name, (j + 1)%Z) k then Some (x, y) else derivs_of past name j) = derivs_of ((o, Done) :: past) name j) ->
  let '(s1, ly) := alloc s y in Rel (bind s1 k (lx0, ly)) ((o, Done) :: past).
Proof.
  intros (Hinv & Harg & Hval & Hder) Hl Hnc Hx Hc Hv Hd.
  pose proof (fun name key => read_bind1 s y k lx0 name key x Hinv Hl Hx) as Hrd.
  pose proof (alloc_inv s y Hinv) as I1. pose proof (fresh_not_caller s Hinv) as F0.
  pose proof (fun l => alloc_arg s y l Hinv) as Ha.
  unfold alloc in *; cbn [fst] in *. split; [|split; [|split]].
  - apply bind_inv; cbn; try assumption; lia.
  - intros l. rewrite Hc, <- Harg. apply Ha.
  - intros name. rewrite Hrd, Hval. apply Hv.
  - intros name j Hj. rewrite Hrd, (Hder _ _ Hj). apply Hd, Hj.
Qed.

Lemma rel_step s past o : Rel s past -> nonneg_kx o ->
  let '(s', r) := step sup_td s o in Rel s' ((o, r) :: past).
Proof.
  intros HR Hk. pose proof HR as (Hinv & Harg & Hval & Hder).
  assert (Hskip : forall r, r <> Done -> (forall l, r <> Loc l) -> Rel s ((o, r) :: past)).
  { intros r H1 H2. split; [exact Hinv|split; [|split]].
    - intros l. rewrite Harg. cbn. destruct o, r; try reflexivity; try congruence; exfalso; eapply H2; reflexivity.
    - intros nm. rewrite Hval. cbn. destruct o, r; try reflexivity; congruence.
    - intros nm j Hj. rewrite (Hder _ _ Hj). cbn. destruct o, r; try reflexivity; congruence. }
  destruct o as [a|l i v|lx ly n|ly n|lx ly k n|ly k n]; cbn [step].
  - (* NewArr *)
    pose proof (alloc_inv s a Hinv) as I1. pose proof (fresh_not_caller s Hinv) as F0. cbn in *.
    split; [|split; [|split]].
    + destruct I1 as (A1 & A2 & A3). cbn in *. split; [|split].
      * cbn. intros l [<-|Hl]; [lia|apply A1; exact Hl].
      * exact A2.
      * intros k lx ly He. cbn in He. destruct Hinv as (_ & _ & H3). destruct (H3 _ _ _ He) as (B1 & B2 & B3 & B4).
        cbn. repeat split; try lia; intros [E|E]; try lia; tauto.
    + intros l. unfold arg; cbn. rewrite <- Harg.
      destruct (Nat.eqb_spec l (next s)) as [->|Hne]; cbn.
      * apply upd_same.
      * unfold arg. destruct (existsb (Nat.eqb l) (caller s)); [|reflexivity]. apply upd_other; exact Hne.
    + intros nm. change (values_of ((NewArr a, Loc (next s)) :: past) nm) with (values_of past nm). rewrite <- (Hval nm). unfold read; cbn. destruct (find_entry (points s) (nm, 0%Z)) as [[x y]|] eqn:He; [|reflexivity].
      destruct Hinv as (_ & _ & H3). destruct (H3 _ _ _ He) as (B1 & B2 & _). rewrite !upd_other by lia; reflexivity.
    + intros nm j Hj. cbn. rewrite <- (Hder nm j Hj). unfold read; cbn. destruct (find_entry (points s) (nm, (j + 1)%Z)) as [[x y]|] eqn:He; [|reflexivity].
      destruct Hinv as (_ & _ & H3). destruct (H3 _ _ _ He) as (B1 & B2 & _). rewrite !upd_other by lia; reflexivity.
  - (* Poke *)
    destruct (arg s l) as [a|] eqn:Ha; [|apply Hskip; congruence].
    destruct (set_flat i v (data a)) as [d|] eqn:Hs; [|apply Hskip; congruence].
    assert (Hl : In l (caller s)).
    { unfold arg in Ha. destruct (existsb (Nat.eqb l) (caller s)) eqn:E; [|discriminate]. apply existsb_in; exact E. }
    assert (Hkeep : forall nm key, read {| heap := upd (heap s) l {| shape := shape a; data := d |}; next := next s;
              caller := caller s; points := points s; dims := dims s |} nm key = read s nm key).
    { intros nm key. unfold read; cbn. destruct (find_entry (points s) (nm, key)) as [[x y]|] eqn:He; [|reflexivity].
      destruct Hinv as (_ & _ & H3). destruct (H3 _ _ _ He) as (_ & _ & B3 & B4).
      rewrite !upd_other by congruence; reflexivity. }
    split; [|split; [|split]].
    + destruct Hinv as (H1 & H2 & H3). split; [exact H1|split; [|exact H3]].
      cbn. intros m Hm. destruct (Nat.eq_dec m l) as [->|Hne]; [eexists; apply upd_same|].
      rewrite upd_other by exact Hne. apply H2, Hm.
    + intros m. unfold arg at 1; cbn. destruct (Nat.eqb_spec m l) as [->|Hne].
      * rewrite (proj2 (existsb_in l (caller s)) Hl), upd_same. rewrite <- Harg, Ha, Hs; reflexivity.
      * rewrite <- Harg. unfold arg. rewrite upd_other by exact Hne; reflexivity.
    + intros nm. rewrite Hkeep, Hval; reflexivity.
    + intros nm j Hj. rewrite Hkeep, (Hder _ _ Hj); reflexivity.
  - (* SetValues *)
    destruct (arg s lx) as [x|] eqn:Hx; [|apply Hskip; congruence].
    destruct (arg s ly) as [y|] eqn:Hy; [|apply Hskip; congruence].
    unfold set_values. destruct (ensure_2d x) as [x2|] eqn:Ex; [|apply Hskip; congruence].
    destruct (ensure_2d y) as [y2|] eqn:Ey; [|apply Hskip; congruence].
    destruct (negb (rows x2 =? rows y2)); [apply Hskip; congruence|].
    assert (Tx : table past lx = Some x2) by (eapply ensure_table; [rewrite <- Harg; exact Hx|exact Ex]).
    assert (Ty : table past ly = Some y2) by (eapply ensure_table; [rewrite <- Harg; exact Hy|exact Ey]).
    refine (store2_rel s past x2 y2 (n, 0%Z) (SetValues lx ly n) HR (fun _ => eq_refl) _ _ (Some (rows x2, cols x2, cols y2))).
    + intros nm. cbn [values_of]. rewrite key0, Tx, Ty. reflexivity.
    + intros nm j Hj. rewrite keyd0 by exact Hj. reflexivity.
  - (* UpdateValues *)
    destruct (arg s ly) as [y|] eqn:Hy; [|apply Hskip; congruence].
    unfold update_values. destruct (ensure_2d y) as [y2|] eqn:Ey; [|apply Hskip; congruence].
    destruct (find_entry (points s) (n, 0%Z)) as [[a b]|] eqn:He; [|apply Hskip; congruence].
    destruct (heap s a) as [x|] eqn:Hx; [|apply Hskip; congruence].
    destruct (negb (rows x =? rows y2)); [apply Hskip; congruence|].
    assert (Ty : table past ly = Some y2) by (eapply ensure_table; [rewrite <- Harg; exact Hy|exact Ey]).
    destruct (proj2 (proj2 Hinv) _ _ _ He) as (B1 & B2 & B3 & B4).
    assert (Hvn : option_map fst (values_of past n) = Some x).
    { rewrite <- Hval. unfold read; rewrite He, Hx. destruct (proj1 (proj2 Hinv) b B2) as [yb ->]. reflexivity. }
    refine (store1_rel s past x y2 a (n, 0%Z) (UpdateValues ly n) HR B1 B3 Hx (fun _ => eq_refl) _ _).
    + intros nm. cbn [values_of]. rewrite key0. destruct (label_eqb_spec nm n) as [->|]; [|reflexivity].
      rewrite Hvn, Ty; reflexivity.
    + intros nm j Hj. rewrite keyd0 by exact Hj. reflexivity.
  - (* SetDerivs *)
    destruct (arg s lx) as [x|] eqn:Hx; [|apply Hskip; congruence].
    destruct (arg s ly) as [y|] eqn:Hy; [|apply Hskip; congruence].
    unfold set_derivs. destruct sup_td; [|apply Hskip; congruence]. cbn [negb].
    destruct (ensure_2d x) as [x2|] eqn:Ex; [|apply Hskip; congruence].
    destruct (ensure_2d y) as [y2|] eqn:Ey; [|apply Hskip; congruence].
    destruct (negb (rows x2 =? rows y2)); [apply Hskip; congruence|].
    assert (Tx : table past lx = Some x2) by (eapply ensure_table; [rewrite <- Harg; exact Hx|exact Ex]).
    assert (Ty : table past ly = Some y2) by (eapply ensure_table; [rewrite <- Harg; exact Hy|exact Ey]).
    cbn in Hk.
    refine (store2_rel s past x2 y2 (n, (k + 1)%Z) (SetDerivs lx ly k n) HR (fun _ => eq_refl) _ _ None).
    + intros nm. rewrite key0d by exact Hk. reflexivity.
    + intros nm j Hj. cbn [derivs_of]. rewrite keydd, Tx, Ty. reflexivity.
  - (* UpdateDerivs *)
    destruct (arg s ly) as [y|] eqn:Hy; [|apply Hskip; congruence].
    unfold update_derivs. destruct sup_td; [|apply Hskip; congruence]. cbn [negb].
    destruct (ensure_2d y) as [y2|] eqn:Ey; [|apply Hskip; congruence].
    destruct (find_entry (points s) (n, k)) as [[a b]|] eqn:He; [|apply Hskip; congruence].
    destruct (heap s a) as [x|] eqn:Hx; [|apply Hskip; congruence].
    destruct (negb (rows x =? rows y2)); [apply Hskip; congruence|].
    destruct (find_entry (points s) (n, (k + 1)%Z)) as [[a1 b1]|] eqn:He1; [|apply Hskip; congruence].
    assert (Ty : table past ly = Some y2) by (eapply ensure_table; [rewrite <- Harg; exact Hy|exact Ey]).
    destruct (proj2 (proj2 Hinv) _ _ _ He1) as (B1 & B2 & B3 & B4).
    destruct (proj1 (proj2 Hinv) a1 B1) as [x1 Hx1].
    cbn in Hk.
    assert (Hvn : option_map fst (derivs_of past n k) = Some x1).
    { rewrite <- (Hder _ _ Hk). unfold read; rewrite He1, Hx1. destruct (proj1 (proj2 Hinv) b1 B2) as [yb ->]. reflexivity. }
    refine (store1_rel s past x1 y2 a1 (n, (k + 1)%Z) (UpdateDerivs ly k n) HR B1 B3 Hx1 (fun _ => eq_refl) _ _).
    + intros nm. rewrite key0d by exact Hk. reflexivity.
    + intros nm j Hj. cbn [derivs_of]. rewrite keydd. destruct (label_eqb_spec nm n) as [->|]; [|reflexivity].
      destruct (Z.eqb_spec j k) as [->|]; [|reflexivity]. cbn [andb]. rewrite Hvn, Ty; reflexivity.
Qed.

Lemma run_snoc (s : state) ops o :
  run sup_td s (ops ++ [o]) = let '(s', tr) := run sup_td s ops in let '(s'', r) := step sup_td s' o in (s'', tr ++ [(o, r)]).
Proof.
  revert s; induction ops as [|a ops IH]; intros s; cbn [run app].
  - destruct (step sup_td s o); reflexivity.
  - destruct (step sup_td s a) as [s1 r1]. rewrite IH. destruct (run sup_td s1 ops) as [s2 tr].
    destruct (step sup_td s2 o) as [s3 r3]; reflexivity.
Qed.

Lemma rel_init : Rel init [].
Proof.
  split; [|split; [|split]].
  - split; [|split]; cbn; [tauto|lia|intros; discriminate].
  - intros l; reflexivity.
  - reflexivity.
  - reflexivity.
Qed.

Lemma rel_run ops (s : state) tr : Forall nonneg_kx ops -> run sup_td init ops = (s, tr) -> Rel s (rev tr).
Proof.
  revert s tr; induction ops as [|o ops IH] using rev_ind; intros s tr Hf.
  - cbn. intros [= <- <-]. exact rel_init.
  - rewrite run_snoc. apply Forall_app in Hf as [Hf Ho]. inversion Ho as [|? ? Ho' _]; subst.
    destruct (run sup_td init ops) as [s1 tr1]. specialize (IH s1 tr1 Hf eq_refl).
    pose proof (rel_step s1 (rev tr1) o IH Ho') as H.
    destruct (step sup_td s1 o) as [s2 r2]. intros [= <- <-]. rewrite rev_unit; exact H.
Qed.

Lemma by_value ops (s : state) tr name :
  Forall nonneg_kx ops -> run sup_td init ops = (s, tr) ->
  read s name 0 = values_of (rev tr) name /\
  forall k, (0 <= k)%Z -> read s name (k + 1) = derivs_of (rev tr) name k.
Proof.
  intros Hf Hr. destruct (rel_run ops s tr Hf Hr) as (_ & _ & Hv & Hd). split; [apply Hv|]. intros k Hk; apply Hd, Hk.
Qed.

(** success conditions *)
Lemma rows_table (past : trace A) l a : content past l = Some a -> forall x, ensure_2d a = Some x -> table past l = Some x.
Proof. intros H x E. eapply ensure_table; eassumption. Qed.

Lemma ensure_some (a : arr) : rank_ok a -> exists x, ensure_2d a = Some x.
Proof.
  unfold rank_ok, ensure_2d. destruct (shape a) as [|n [|m [|? ?]]]; cbn; intros H; try (eexists; reflexivity). lia.
Qed.
Lemma ensure_rank (a : arr) x : ensure_2d a = Some x -> rank_ok a.
Proof. unfold rank_ok, ensure_2d. destruct (shape a) as [|n [|m [|? ?]]]; cbn; intros; try lia; discriminate. Qed.

Lemma update_values_iff ops (s : state) tr ly name y :
  Forall nonneg_kx ops -> run sup_td init ops = (s, tr) ->
  content (rev tr) ly = Some y -> rank_ok y ->
  (snd (step sup_td s (UpdateValues ly name)) = Done <->
   exists x0 y0 y2, values_of (rev tr) name = Some (x0, y0) /\ table (rev tr) ly = Some y2 /\ rows x0 = rows y2).
Proof.
  intros Hf Hr Hy Hrk. destruct (rel_run ops s tr Hf Hr) as (Hinv & Harg & Hv & Hd).
  cbn [step]. rewrite Harg, Hy. unfold update_values.
  destruct (ensure_some y Hrk) as [y2 Ey]. rewrite Ey.
  rewrite (ensure_table _ _ _ _ Hy Ey). rewrite <- Hv. unfold read.
  destruct (find_entry (points s) (name, 0%Z)) as [[a b]|] eqn:He.
  - destruct (proj2 (proj2 Hinv) _ _ _ He) as (B1 & B2 & B3 & B4).
    destruct (proj1 (proj2 Hinv) a B1) as [x Hx]. destruct (proj1 (proj2 Hinv) b B2) as [yb Hyb].
    rewrite Hx, Hyb. destruct (Nat.eqb_spec (rows x) (rows y2)) as [E|E]; cbn.
    + split; [|reflexivity]. intros _. exists x, yb, y2. auto.
    + split; [discriminate|]. intros (x0 & y0 & y2' & [= <- <-] & [= <-] & E'). contradiction.
  - cbn. split; [discriminate|]. intros (x0 & y0 & y2' & [=] & _).
Qed.

(** exact condition under which updating a derivative works, for every reachable state *)
Lemma update_derivs_iff ops (s : state) tr ly kx name y :
  Forall nonneg_kx ops -> run sup_td init ops = (s, tr) -> sup_td = true -> (0 <= kx)%Z ->
  content (rev tr) ly = Some y -> rank_ok y ->
  (snd (step sup_td s (UpdateDerivs ly kx name)) = Done <->
   exists x0 y0 y2,
     (if Z.eqb kx 0 then values_of (rev tr) name else derivs_of (rev tr) name (kx - 1)) = Some (x0, y0) /\
     table (rev tr) ly = Some y2 /\ rows x0 = rows y2 /\ derivs_of (rev tr) name kx <> None).
Proof.
  intros Hf Hr Hsup Hk Hy Hrk. destruct (rel_run ops s tr Hf Hr) as (Hinv & Harg & Hv & Hd).
  cbn [step]. rewrite Harg, Hy. unfold update_derivs. rewrite Hsup; cbn [negb].
  destruct (ensure_some y Hrk) as [y2 Ey]. rewrite Ey. rewrite (ensure_table _ _ _ _ Hy Ey).
  assert (Hprev : (if Z.eqb kx 0 then values_of (rev tr) name else derivs_of (rev tr) name (kx - 1)) = read s name kx).
  { destruct (Z.eqb_spec kx 0) as [->|Hne]; [symmetry; apply Hv|].
    rewrite <- Hd by lia. f_equal; lia. }
  rewrite Hprev. rewrite <- (Hd name kx Hk). unfold read.
  destruct (find_entry (points s) (name, kx)) as [[a b]|] eqn:He.
  - destruct (proj2 (proj2 Hinv) _ _ _ He) as (B1 & B2 & _).
    destruct (proj1 (proj2 Hinv) a B1) as [x Hx]. destruct (proj1 (proj2 Hinv) b B2) as [yb Hyb].
    rewrite Hx, Hyb. destruct (Nat.eqb_spec (rows x) (rows y2)) as [E|E]; cbn [negb].
    + destruct (find_entry (points s) (name, (kx + 1)%Z)) as [[a1 b1]|] eqn:He1.
      * destruct (proj2 (proj2 Hinv) _ _ _ He1) as (C1 & C2 & _).
        destruct (proj1 (proj2 Hinv) a1 C1) as [x1 Hx1]. destruct (proj1 (proj2 Hinv) b1 C2) as [yb1 Hyb1].
        rewrite Hx1, Hyb1. cbn. split; [|reflexivity]. intros _. exists x, yb, y2. repeat split; auto; discriminate.
      * cbn. split; [discriminate|]. intros (x0 & y0 & y2' & _ & _ & _ & H); congruence.
    + cbn. split; [discriminate|]. intros (x0 & y0 & y2' & [= <- <-] & [= <-] & E' & _). contradiction.
  - cbn. split; [discriminate|]. intros (x0 & y0 & y2' & [=] & _).
Qed.

(** prediction frame *)
Lemma predict_values_frame (h : nat -> option arr) l nx ny pred : fst (predict_values h l nx ny pred) = h.
Proof.
  unfold predict_values. destruct (h l) as [a|]; [|reflexivity]. destruct (ensure_2d a) as [x|]; [|reflexivity].
  destruct (negb _); [reflexivity|]. destruct (pred x) as [x' y]. destruct (rows x =? 0); reflexivity.
Qed.
Lemma predict_variances_frame sup h l nx ny pred : fst (@predict_variances A sup h l nx ny pred) = h.
Proof.
  unfold predict_variances. destruct sup; [|reflexivity]. cbn [negb].
  destruct (h l) as [a|]; [|reflexivity]. destruct (ensure_2d a) as [x|]; [|reflexivity].
  destruct (negb _); [reflexivity|]. destruct (pred x) as [x' y]. reflexivity.
Qed.

Lemma ensure_as_table (a : arr) : rank_ok a -> ensure_2d a = Some (as_table a).
Proof.
  unfold rank_ok, ensure_2d, as_table. destruct a as [sh d]; cbn. destruct sh as [|n [|m [|? ?]]]; cbn; intros H; try reflexivity. lia.
Qed.
Lemma ensure_none (a : arr) : ~ rank_ok a -> ensure_2d a = None.
Proof.
  unfold rank_ok, ensure_2d. destruct (shape a) as [|n [|m [|? ?]]]; cbn; intros H; try reflexivity; lia.
Qed.

Lemma predict_values_spec (h : nat -> option arr) l nx ny pred a :
  h l = Some a ->
  fst (predict_values h l nx ny pred) = h /\
  (~ rank_ok a -> snd (predict_values h l nx ny pred) = PErr EValue) /\
  (rank_ok a -> cols (as_table a) <> nx -> snd (predict_values h l nx ny pred) = PErr EValue) /\
  (rank_ok a -> cols (as_table a) = nx -> rows (as_table a) <> 0 ->
     length (snd (pred (as_table a))) = rows (as_table a) * ny ->
     snd (predict_values h l nx ny pred) = POk {| shape := [rows (as_table a); ny]; data := snd (pred (as_table a)) |}) /\
  (forall y, snd (predict_values h l nx ny pred) = POk y -> shape y = [rows (as_table a); ny] /\ data y = snd (pred (as_table a))).
Proof.
  intros Ha. split; [apply predict_values_frame|]. unfold predict_values; rewrite Ha.
  split; [intros Hr; rewrite ensure_none by exact Hr; reflexivity|].
  split; [intros Hr Hc; rewrite ensure_as_table by exact Hr; destruct (Nat.eqb_spec (cols (as_table a)) nx); [contradiction|reflexivity]|].
  split.
  - intros Hr Hc Hn Hl. rewrite ensure_as_table by exact Hr. rewrite Hc, Nat.eqb_refl; cbn [negb].
    destruct (pred (as_table a)) as [x' y]; cbn [snd] in *. destruct (Nat.eqb_spec (rows (as_table a)) 0); [contradiction|].
    unfold reshape2. cbn [snd]. rewrite Hl, Nat.eqb_refl. reflexivity.
  - intros y. destruct (ensure_2d a) as [x|] eqn:E; [|discriminate].
    assert (Ex : x = as_table a) by (pose proof (ensure_as_table a (ensure_rank a x E)); congruence). subst x.
    destruct (negb _); [discriminate|]. destruct (pred (as_table a)) as [x' d]. destruct (rows (as_table a) =? 0); [discriminate|].
    unfold reshape2; cbn [snd]. destruct (length d =? _); [|discriminate]. intros [= <-]. split; reflexivity.
Qed.

Lemma predict_variances_spec (h : nat -> option arr) l nx ny pred a sup :
  h l = Some a ->
  fst (predict_variances sup h l nx ny pred) = h /\
  (sup = false -> snd (predict_variances sup h l nx ny pred) = PErr ENotImpl) /\
  (sup = true -> ~ rank_ok a \/ cols (as_table a) <> nx -> snd (predict_variances sup h l nx ny pred) = PErr EValue) /\
  (sup = true -> rank_ok a -> cols (as_table a) = nx ->
     length (snd (pred (as_table a))) = rows (as_table a) * ny ->
     snd (predict_variances sup h l nx ny pred) = POk {| shape := [rows (as_table a); ny]; data := snd (pred (as_table a)) |}).
Proof.
  intros Ha. split; [apply predict_variances_frame|]. unfold predict_variances; rewrite Ha.
  split; [intros ->; reflexivity|]. split.
  - intros ->; cbn [negb]. intros H. destruct (ensure_2d a) as [x|] eqn:E; [|reflexivity].
    pose proof (ensure_rank a x E) as Hr. assert (Ex : x = as_table a) by (pose proof (ensure_as_table a Hr); congruence). subst x.
    destruct H as [H|H]; [contradiction|]. destruct (Nat.eqb_spec (cols (as_table a)) nx); [contradiction|reflexivity].
  - intros -> Hr Hc Hl. cbn [negb]. rewrite ensure_as_table by exact Hr. rewrite Hc, Nat.eqb_refl; cbn [negb].
    destruct (pred (as_table a)) as [x' y]; cbn [snd] in *. unfold reshape2. rewrite Hl, Nat.eqb_refl. reflexivity.
Qed.

Lemma predict_derivs_spec (h : nat -> option arr) l nx ny pred a sup :
  h l = Some a ->
  (sup = false -> predict_derivatives sup h l nx ny pred = (h, PErr ENotImpl)) /\
  (sup = true -> ~ rank_ok a \/ cols (as_table a) <> nx -> predict_derivatives sup h l nx ny pred = (h, PErr EValue)) /\
  (sup = true -> rank_ok a -> cols (as_table a) = nx -> rows (as_table a) <> 0 ->
     length (snd (pred (as_table a))) = rows (as_table a) * ny ->
     snd (predict_derivatives sup h l nx ny pred) = POk {| shape := [rows (as_table a); ny]; data := snd (pred (as_table a)) |} /\
     (data (fst (pred (as_table a))) = data a -> forall m, fst (predict_derivatives sup h l nx ny pred) m = h m)).
Proof.
  intros Ha. unfold predict_derivatives; rewrite Ha.
  split; [intros ->; reflexivity|]. split.
  - intros ->; cbn [negb]. intros H. destruct (ensure_2d a) as [x|] eqn:E; [|reflexivity].
    pose proof (ensure_rank a x E) as Hr. assert (Ex : x = as_table a) by (pose proof (ensure_as_table a Hr); congruence). subst x.
    destruct H as [H|H]; [contradiction|]. destruct (Nat.eqb_spec (cols (as_table a)) nx); [contradiction|reflexivity].
  - intros -> Hr Hc Hn Hl. cbn [negb]. rewrite ensure_as_table by exact Hr. rewrite Hc, Nat.eqb_refl; cbn [negb].
    destruct (pred (as_table a)) as [x' y]; cbn [snd fst] in *. destruct (Nat.eqb_spec (rows (as_table a)) 0); [contradiction|].
    unfold reshape2. cbn [snd fst]. rewrite Hl, Nat.eqb_refl. split; [reflexivity|].
    intros Hd m. unfold upd. destruct (Nat.eqb_spec m l) as [->|]; [|reflexivity]. rewrite Hd, Ha. destruct a; reflexivity.
Qed.

(** positive part of C06 *)
Lemma update_derivs_ok ops (s : state) tr ly kx name y x0 y0 xk yk :
  Forall nonneg_kx ops -> run sup_td init ops = (s, tr) -> sup_td = true -> (0 <= kx)%Z ->
  content (rev tr) ly = Some y -> rank_ok y ->
  derivs_of (rev tr) name kx = Some (xk, yk) -> rows xk = rows (as_table y) ->
  (if Z.eqb kx 0 then values_of (rev tr) name else derivs_of (rev tr) name (kx - 1)) = Some (x0, y0) ->
  rows x0 = rows xk ->
  let '(s', r) := step sup_td s (UpdateDerivs ly kx name) in
  r = Done /\ read s' name (kx + 1) = Some (xk, as_table y) /\
  (forall n k, ~ (n = name /\ k = kx) -> (0 <= k)%Z -> read s' n (k + 1) = read s n (k + 1)) /\
  (forall n, read s' n 0 = read s n 0).
Proof.
  intros Hf Hr Hsup Hk Hy Hrk Hd Hrows Hprev Hrows0.
  pose proof (proj2 (update_derivs_iff ops s tr ly kx name y Hf Hr Hsup Hk Hy Hrk)) as Hdone.
  assert (Hex : snd (step sup_td s (UpdateDerivs ly kx name)) = Done).
  { apply Hdone. exists x0, y0, (as_table y). unfold table; rewrite Hy. cbn [option_map]. repeat split; try assumption; congruence. }
  pose proof (rel_run ops s tr Hf Hr) as HR. pose proof (rel_step s (rev tr) (UpdateDerivs ly kx name) HR Hk) as HR'.
  destruct (step sup_td s (UpdateDerivs ly kx name)) as [s' r]. cbn [snd] in Hex. subst r.
  destruct HR as (_ & _ & Hv & Hdd). destruct HR' as (_ & _ & Hv' & Hdd').
  split; [reflexivity|]. split; [|split].
  - rewrite Hdd' by exact Hk. cbn. destruct (label_eqb_spec name name); [|contradiction].
    rewrite Z.eqb_refl; cbn. unfold table; rewrite Hd, Hy. reflexivity.
  - intros n k Hne Hk'. rewrite Hdd', Hdd by exact Hk'. cbn.
    destruct (label_eqb_spec n name) as [->|]; [|reflexivity].
    destruct (Z.eqb_spec k kx) as [->|]; [|reflexivity]. exfalso; apply Hne; split; reflexivity.
  - intros n. rewrite Hv', Hv. reflexivity.
Qed.
End Proofs.

(** witnesses (elements are integers) *)
Definition col (l : list Z) : arr Z := {| shape := [length l]; data := l |}.

(** C06: derivative 1 is set, derivative 0 is not: updating derivative 1 is rejected. *)
Definition hist_missing : list (op Z) :=
  [ NewArr {| shape := [2; 2]; data := [1; 2; 3; 4]%Z |}; NewArr (col [5; 6]%Z);
    SetValues 0 1 None; SetDerivs 0 1 1 None ].
(** C06: both derivatives are set, derivative 0 at three points and derivative 1 at two. *)
Definition hist_sizes : list (op Z) :=
  [ NewArr {| shape := [3; 2]; data := [1; 2; 3; 4; 5; 6]%Z |}; NewArr (col [7; 8; 9]%Z);
    NewArr {| shape := [2; 2]; data := [1; 2; 3; 4]%Z |}; NewArr (col [5; 6]%Z);
    SetValues 0 1 None; SetDerivs 0 1 0 None; SetDerivs 2 3 1 None ].
(** hypothesis witness for the positive part *)
Definition hist_good : list (op Z) :=
  [ NewArr {| shape := [2; 2]; data := [1; 2; 3; 4]%Z |}; NewArr (col [5; 6]%Z);
    SetValues 0 1 None; SetDerivs 0 1 0 None; SetDerivs 0 1 1 None; Poke 1 0 42%Z; Poke 0 3 43%Z ].

Lemma negative_kx : exists (ops : list (op Z)) s tr s' v0,
  run true init ops = (s, tr) /\ values_of (rev tr) None = Some v0 /\
  step true s (SetDerivs 0 2 (-1) None) = (s', Done) /\ read s' None 0 <> Some v0.
Proof. exists [NewArr (col [1; 2]%Z); NewArr (col [3; 4]%Z); NewArr (col [5; 6]%Z); SetValues 0 1 None]; do 4 eexists; split; [vm_compute; reflexivity|]. split; [vm_compute; reflexivity|]. split; [vm_compute; reflexivity|]. vm_compute; discriminate. Qed.

Lemma upd_der_missing : exists s tr y xk yk,
  run true init hist_missing = (s, tr) /\ content (rev tr) 1 = Some y /\
  derivs_of (rev tr) None 1 = Some (xk, yk) /\ rows xk = rows (as_table y) /\
  snd (step true s (UpdateDerivs 1 1 None)) = EValue.
Proof. do 5 eexists; split; [vm_compute; reflexivity|]. split; [vm_compute; reflexivity|]. split; [vm_compute; reflexivity|]. split; vm_compute; reflexivity. Qed.

Lemma upd_der_sizes : exists s tr s' x y,
  run true init hist_sizes = (s, tr) /\ step true s (UpdateDerivs 1 1 None) = (s', Done) /\
  read s' None 2 = Some (x, y) /\ rows x <> rows y.
Proof. do 5 eexists; split; [vm_compute; reflexivity|]. split; [vm_compute; reflexivity|]. split; [vm_compute; reflexivity|]. vm_compute; discriminate. Qed.

Lemma no_copy : exists (h : nat -> option (arr Z)) l nx ny pred,
  fst (predict_values h l nx ny pred) l = h l /\ fst (predict_derivatives true h l nx ny pred) l <> h l.
Proof. exists (fun _ => Some (col [1]%Z)), 0, 1, 1, (fun a => ({| shape := shape a; data := [9]%Z |}, [0]%Z)); split; [reflexivity|vm_compute; discriminate]. Qed.
