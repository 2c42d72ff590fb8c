(** Proofs about the hyperparameter search. *)
From Coq Require Import Reals Arith Bool List Lra Lia.
From Verif Require Import HyperOpt_M HyperOpt_S.
Import ListNotations.
Open Scope list_scope.
Open Scope R_scope.

Ltac pj := cbn [HyperOpt_M.s_k HyperOpt_M.s_stop HyperOpt_M.s_nb HyperOpt_M.s_mem HyperOpt_M.s_bv HyperOpt_M.s_bp HyperOpt_M.tick HyperOpt_M.more HyperOpt_M.with_mem HyperOpt_M.with_best] in *.
Section Search.
Context {Th Par : Type}.
Variable L : Th -> ev Par.
Local Notation st := (st Th Par).
Local Notation body := (body Th Par L).
Local Notation handler := (handler Th Par L).
Local Notation recall := (recall Th Par L).
Local Notation evals := (evals Th Par L).
Local Notation note := (note Th Par L).
Local Notation loop := (loop Th Par L).
Local Notation minimise := (minimise Th Par L).
Local Notation sk := (s_k Th Par). Local Notation sstop := (s_stop Th Par). Local Notation snb := (s_nb Th Par).
Local Notation smem := (s_mem Th Par). Local Notation sbv := (s_bv Th Par). Local Notation sbp := (s_bp Th Par).
Local Notation tick := (tick Th Par). Local Notation more := (more Th Par).
Local Notation with_mem := (with_mem Th Par). Local Notation with_best := (with_best Th Par).

(** ** bounded number of attempts *)
Definition meas (s : st) : nat := ((sstop s - sk s) + 2 * snb s + (10 - sstop s))%nat.
Definition inv0 (s : st) : Prop := sk s = 0%nat -> sstop s = 1%nat.
Lemma recall_proj s : sk (recall s) = sk s /\ sstop (recall s) = sstop s /\ snb (recall s) = snb s /\ smem (recall s) = smem s.
Proof. unfold HyperOpt_M.recall. destruct (smem s) as [[b t]|] eqn:E; [destruct (Rlt_dec _ _); [destruct (L t)|]|]; cbn; rewrite ?E; auto. Qed.
Lemma handler_dec s s' : (sk s < sstop s)%nat -> handler s = Continue Th Par s' ->
  (sstop s' - sk s' + 2 * snb s' + Nat.min 2 (sstop s - sk s) <= sstop s - sk s + 2 * snb s)%nat /\ (sstop s <= sstop s')%nat /\ (0 < sk s')%nat.
Proof.
  intros K. unfold HyperOpt_M.handler. destruct (snb s) as [|nb].
  - destruct (sbp s); [|discriminate]. intros [= <-]. pj. lia.
  - intros [= <-]. match goal with |- context [recall ?u] => destruct (recall_proj u) as (E1 & E2 & E3 & _); rewrite E1, E2, E3 end. pj. lia.
Qed.
Lemma body_dec s a s' : inv0 s -> (sk s < sstop s)%nat -> body s a = Continue Th Par s' -> (meas s' < meas s)%nat /\ (0 < sk s')%nat.
Proof.
  intros I K. unfold HyperOpt_M.body, meas, inv0 in *.
  destruct (minimise (smem s) a) as [|mem|mem x]; [discriminate| |].
  - intros H. apply handler_dec in H; [|exact K]. pj. lia.
  - assert (RT : forall u, sk (tick (recall u)) = (sk u + 1)%nat /\ sstop (tick (recall u)) = sstop u /\ snb (tick (recall u)) = snb u).
    { intros u. destruct (recall_proj u) as (E1 & E2 & E3 & _). pj. rewrite E1, E2, E3. auto. }
    destruct (L x) as [v p| | |]; [| | |discriminate].
    + cbn [HyperOpt_M.with_mem HyperOpt_M.s_k]. destruct (Nat.eqb_spec (sk s) 0) as [Z|Z].
      * intros [= <-]. pj. specialize (I Z). lia.
      * cbn [HyperOpt_M.s_mem]. destruct (note mem x) as [[b t]|]; cbn [HyperOpt_M.s_mem HyperOpt_M.with_mem]; [destruct (Rle_dec b v); [destruct (Rlt_dec _ v)|]|]; intros [= <-];
          try (match goal with |- context [recall ?u] => destruct (RT u) as (E1 & E2 & E3); rewrite E1, E2, E3 end); pj; lia.
    + cbn [HyperOpt_M.more HyperOpt_M.with_mem HyperOpt_M.s_k HyperOpt_M.s_stop]. destruct (Nat.eqb_spec (sk s) 0) as [Z|Z].
      * intros [= <-]. pj. specialize (I Z). lia.
      * unfold max_retry. destruct (Nat.ltb_spec 10 (sstop s + 1)) as [M|M].
        -- intros H. apply handler_dec in H; [pj; lia|pj; lia].
        -- intros [= <-]. pj. lia.
    + cbn [HyperOpt_M.more HyperOpt_M.with_mem HyperOpt_M.s_k HyperOpt_M.s_stop]. destruct (Nat.eqb_spec (sk s) 0) as [Z|Z].
      * intros [= <-]. pj. specialize (I Z). lia.
      * unfold max_retry. destruct (Nat.ltb_spec 10 (sstop s + 1)) as [M|M].
        -- intros H. apply handler_dec in H; [pj; lia|pj; lia].
        -- intros [= <-]. pj. lia.
Qed.
Lemma loop_fuel att : forall fuel n s, inv0 s -> (meas s <= fuel)%nat -> loop fuel att n s <> OutOfFuel.
Proof.
  induction fuel as [|fuel IH]; intros n s I M; cbn [HyperOpt_M.loop]; destruct (Nat.ltb_spec (sk s) (sstop s)) as [K|K]; try discriminate.
  - unfold meas in M. lia.
  - destruct (body s (att n)) as [s'| |] eqn:B; try discriminate. destruct (body_dec _ _ _ I K B) as [D I0]. assert (I' : inv0 s') by (unfold inv0; lia). apply IH; [exact I'|lia].
Qed.
Lemma loop_count att : forall fuel n s, inv0 s -> forall m nb v b, loop fuel att n s = Done m nb v b -> (m <= n + meas s)%nat /\ (nb <= snb s)%nat.
Proof.
  induction fuel as [|fuel IH]; intros n s I m nb v b; cbn [HyperOpt_M.loop]; destruct (Nat.ltb_spec (sk s) (sstop s)) as [K|K]; try discriminate.
  - intros [= <- <- _ _]. lia.
  - destruct (body s (att n)) as [s'| |] eqn:B; try discriminate. destruct (body_dec _ _ _ I K B) as [D I0]. assert (I' : inv0 s') by (unfold inv0; lia). intros H. apply IH in H; [|exact I'].
    split; [lia|]. assert (snb s' <= snb s)%nat; [|lia]. clear - B.
    assert (HH : forall u w, handler u = Continue Th Par w -> (snb w <= snb u)%nat).
    { intros u w. unfold HyperOpt_M.handler. destruct (snb u) as [|q]; [destruct (sbp u); [|discriminate]; intros [= <-]; pj; lia|]. intros [= <-].
      match goal with |- context [recall ?z] => destruct (recall_proj z) as (_ & _ & E & _); rewrite E end. pj. lia. }
    unfold HyperOpt_M.body in B. destruct (minimise (smem s) (att n)) as [|mem|mem x]; [discriminate|apply HH in B; exact B|].
    destruct (L x) as [v0 p0| | |]; [| | |discriminate]; cbn [HyperOpt_M.with_mem HyperOpt_M.more HyperOpt_M.s_k HyperOpt_M.s_mem] in B; destruct (Nat.eqb (sk s) 0).
    + injection B as <-. pj. lia.
    + destruct (note mem x) as [[b' t]|]; cbn [HyperOpt_M.s_mem HyperOpt_M.with_mem] in B; [destruct (Rle_dec b' v0); [destruct (Rlt_dec _ v0)|]|]; injection B as <-; pj; try lia.
      match goal with |- context [recall ?z] => destruct (recall_proj z) as (_ & _ & E & _); rewrite E end. pj. lia.
    + injection B as <-. pj. lia.
    + destruct (Nat.ltb _ _); [apply HH in B; exact B|injection B as <-; pj; lia].
    + injection B as <-. pj. lia.
    + destruct (Nat.ltb _ _); [apply HH in B; exact B|injection B as <-; pj; lia].
  - intros [= <- <- _ _]. lia.
Qed.
Lemma search_bounded nb att : search Th Par L (10 + 2 * nb) nb att <> OutOfFuel.
Proof. unfold search. apply loop_fuel; unfold inv0, meas; cbn; lia. Qed.
Lemma search_count fuel nb att m nb' v b : search Th Par L fuel nb att = Done m nb' v b -> (m <= 10 + 2 * nb)%nat /\ (nb' <= nb)%nat.
Proof. unfold search. intros H. apply loop_count in H; [unfold meas in H; cbn in H; lia|unfold inv0; cbn; lia]. Qed.

(** ** the remembered point and the result are evaluations of the likelihood *)
Definition mem_ok (m : option (R * Th)) : Prop := match m with None => True | Some (b, t) => exists p, L t = Fin b p end.
Definition best_ok (s : st) : Prop := match sbp s with None => sbv s = - 10 ^ 20 | Some (p, t) => L t = Fin (sbv s) p end.
Definition ok (s : st) : Prop := mem_ok (smem s) /\ best_ok s.
Lemma note_ok m t : mem_ok m -> mem_ok (note m t).
Proof. unfold HyperOpt_M.note. intros H. destruct (L t) eqn:E; try exact H. destruct m as [[b u]|]; [destruct (Rlt_dec b v)|]; try exact H; cbn; eauto. Qed.
Lemma evals_ok l : forall m m', mem_ok m -> evals m l = Some m' -> mem_ok m'.
Proof. induction l as [|t l IH]; cbn; intros m m' H; [intros [= <-]; exact H|]. pose proof (note_ok m t H) as N. destruct (L t); try discriminate; intros Q; exact (IH _ _ N Q). Qed.
Lemma minimise_ok m a : mem_ok m -> match minimise m a with MExc _ => True | MVal _ m' => mem_ok m' | MOk _ m' _ => mem_ok m' end.
Proof.
  intros H. unfold HyperOpt_M.minimise. destruct a as [a|a b].
  - destruct (evals m (r_evals a)) as [m1|] eqn:E; [|exact I]. pose proof (evals_ok _ _ _ H E). destruct (r_out a) as [[x f]|]; assumption.
  - destruct (evals m (r_evals a)) as [m1|] eqn:E; [|exact I]. pose proof (evals_ok _ _ _ H E) as H1. destruct (r_out a) as [[x f]|]; [|exact H1].
    destruct (evals m1 (r_evals b)) as [m2|] eqn:E2; [|exact I]. pose proof (evals_ok _ _ _ H1 E2). destruct (r_out b) as [[x2 f2]|]; assumption.
Qed.
Lemma recall_ok s : ok s -> ok (recall s).
Proof.
  intros [A B]. unfold HyperOpt_M.recall. destruct (smem s) as [[b t]|] eqn:E; [|split; [rewrite E; exact A|exact B]].
  destruct (Rlt_dec (sbv s) b); [|split; [rewrite E; exact A|exact B]]. destruct (L t) eqn:Lt; split; cbn; try (rewrite E; exact A); try exact B.
  - cbn in A. destruct A as [q A]. eauto.
  - exact Lt.
Qed.
Lemma handler_ok s s' : ok s -> handler s = Continue Th Par s' -> ok s'.
Proof.
  intros [A B]. unfold HyperOpt_M.handler. destruct (snb s) as [|nb].
  - destruct (sbp s) as [[p t]|] eqn:E; [|discriminate]. intros [= <-]. split; [exact A|]. unfold best_ok in *. cbn. rewrite E in B. exact B.
  - intros [= <-]. apply recall_ok. split; [exact A|exact B].
Qed.
Lemma body_ok s a s' : ok s -> body s a = Continue Th Par s' -> ok s'.
Proof.
  intros [A B]. unfold HyperOpt_M.body. pose proof (minimise_ok (smem s) a A) as M.
  destruct (minimise (smem s) a) as [|mem|mem x]; [discriminate| |].
  - intros H. apply handler_ok in H; [exact H|split; [exact M|exact B]].
  - pose proof (note_ok mem x M) as N. destruct (L x) as [v p| | |] eqn:Lx; [| | |discriminate].
    + cbn [HyperOpt_M.with_mem HyperOpt_M.s_k]. assert (W : ok (with_mem s (note mem x))) by (split; [exact N|exact B]).
      assert (Wb : ok (with_best (with_mem s (note mem x)) v p x)) by (split; [exact N|exact Lx]).
      destruct (Nat.eqb (sk s) 0); [intros [= <-]; exact Wb|]. cbn [HyperOpt_M.s_mem]. destruct (note mem x) as [[b t]|]; cbn [HyperOpt_M.s_mem HyperOpt_M.with_mem]; [|intros [= <-]; exact W].
      destruct (Rle_dec b v); [|intros [= <-]; exact W]. destruct (Rlt_dec _ v); intros [= <-]; [exact Wb|]. apply (recall_ok _ W).
    + assert (W : ok (more (with_mem s mem))) by (split; [exact M|exact B]). destruct (Nat.eqb _ 0); [intros [= <-]; exact W|]. destruct (Nat.ltb _ _); [intros H; exact (handler_ok _ _ W H)|intros [= <-]; exact W].
    + assert (W : ok (more (with_mem s mem))) by (split; [exact M|exact B]). destruct (Nat.eqb _ 0); [intros [= <-]; exact W|]. destruct (Nat.ltb _ _); [intros H; exact (handler_ok _ _ W H)|intros [= <-]; exact W].
Qed.
Lemma loop_ok att : forall fuel n s m nb v b, ok s -> loop fuel att n s = Done m nb v b ->
  match b with None => v = - 10 ^ 20 | Some (p, t) => L t = Fin v p end.
Proof.
  induction fuel as [|fuel IH]; intros n s m nb v b O; cbn [HyperOpt_M.loop]; destruct (Nat.ltb (sk s) (sstop s)); try discriminate.
  - intros [= _ _ <- <-]. exact (proj2 O).
  - destruct (body s (att n)) as [s'| |] eqn:B; try discriminate. apply IH. exact (body_ok _ _ _ O B).
  - intros [= _ _ <- <-]. exact (proj2 O).
Qed.
Lemma search_consistent fuel nb att m nb' v p t : search Th Par L fuel nb att = Done m nb' v (Some (p, t)) -> L t = Fin v p.
Proof. unfold search. intros H. apply loop_ok in H; [exact H|]. split; [exact I|reflexivity]. Qed.

(** ** best value, for optimisers that return their best point *)
Definition covers (m : option (R * Th)) (l : list Th) : Prop :=
  forall e w q, In e l -> L e = Fin w q -> match m with None => False | Some (b, _) => w <= b end.
Definition mem_le (m m' : option (R * Th)) : Prop := match m, m' with None, _ => True | Some (b, _), Some (b', _) => b <= b' | _, None => False end.
Lemma mem_le_refl m : mem_le m m. Proof. destruct m as [[b t]|]; cbn; [lra|exact I]. Qed.
Lemma mem_le_trans a b c : mem_le a b -> mem_le b c -> mem_le a c.
Proof. destruct a as [[? ?]|], b as [[? ?]|], c as [[? ?]|]; cbn; try tauto. lra. Qed.
Lemma covers_le m m' l : mem_le m m' -> covers m l -> covers m' l.
Proof. intros H C e w q He Hw. specialize (C e w q He Hw). destruct m as [[b t]|], m' as [[b' t']|]; cbn in H; try tauto. lra. Qed.
Lemma note_le m t : mem_le m (note m t).
Proof. unfold HyperOpt_M.note. destruct (L t); try apply mem_le_refl. destruct m as [[b u]|]; [|exact I]. destruct (Rlt_dec b v); cbn; lra. Qed.
Lemma note_cov m t : covers (note m t) [t].
Proof. intros e w q [<-|[]] E. unfold HyperOpt_M.note. rewrite E. destruct m as [[b u]|]; [destruct (Rlt_dec b w)|]; lra. Qed.
Lemma evals_le l : forall m m', evals m l = Some m' -> mem_le m m' /\ covers m' l /\ (forall e, In e l -> L e <> Exc).
Proof.
  induction l as [|t l IH]; cbn; intros m m'; [intros [= <-]; split; [apply mem_le_refl|split; intros e; [intros ? ? []|intros []]]|].
  intros E. assert (E2 : L t <> Exc /\ evals (note m t) l = Some m') by (destruct (L t); [split; [discriminate|exact E]..|discriminate]).
  destruct E2 as [NE E2]. destruct (IH _ _ E2) as (A & B & C). split; [exact (mem_le_trans _ _ _ (note_le m t) A)|]. split.
  - intros e w q [<-|He]; [apply (covers_le _ _ _ A (note_cov m t)); left; reflexivity|apply B; exact He].
  - intros e [<-|He]; [exact NE|exact (C e He)].
Qed.
(** the memory only ever holds evaluated points *)
Lemma evals_src l : forall m m', evals m l = Some m' -> m' = m \/ exists b t, m' = Some (b, t) /\ In t l.
Proof.
  induction l as [|t l IH]; cbn; intros m m'; [intros [= <-]; auto|]. intros E.
  assert (E2 : evals (note m t) l = Some m') by (destruct (L t); [exact E..|discriminate]). destruct (IH _ _ E2) as [-> |(b & u & -> & Hu)]; [|right; exists b, u; auto].
  unfold HyperOpt_M.note. destruct (L t); auto. destruct m as [[b u]|]; [destruct (Rlt_dec b v)|]; eauto 6.
Qed.
Definition returns_best (l : list Th) (x : Th) : Prop :=
  In x l /\ match L x with Fin v _ => forall e w q, In e l -> L e = Fin w q -> w <= v | NegInf => forall e w q, In e l -> L e <> Fin w q | PosInf => False | Exc => False end.
Hypothesis no_pinf : forall t, L t <> PosInf.
Lemma objective_fin t w q : L t = Fin w q -> objective L t (FFin (- w)).
Proof. intros E. unfold objective. rewrite E. reflexivity. Qed.
Lemma good_run_best r x f : good_run L r -> (forall e, In e (r_evals r) -> L e <> Exc) -> r_out r = Some (x, f) -> returns_best (r_evals r) x /\ objective L x f.
Proof.
  intros G NE O. destruct (G x f O) as (Hx & Ho & Hb). split; [|exact Ho]. split; [exact Hx|]. unfold objective in Ho. destruct (L x) as [v p| | |] eqn:Lx.
  - intros e w q He E. specialize (Hb e _ He (objective_fin _ _ _ E)). subst f. cbn in Hb. destruct (Rlt_dec (- w) (- v)); [discriminate|lra].
  - exact (no_pinf x Lx).
  - intros e w q He E. specialize (Hb e _ He (objective_fin _ _ _ E)). subst f. discriminate.
  - exact Ho.
Qed.
Lemma minimise_best m a : good_attempt L a ->
  match minimise m a with
  | MExc _ => True
  | MVal _ m' => mem_le m m' /\ covers m' (points a) /\ raised a
  | MOk _ m' x => mem_le m m' /\ covers m' (points a) /\ returns_best (points a) x /\ (m' = m \/ exists b t, m' = Some (b, t) /\ In t (points a))
  end.
Proof.
  intros G. unfold HyperOpt_M.minimise, points. destruct a as [a|a b]; cbn in G.
  - destruct (evals m (r_evals a)) as [m1|] eqn:E; [|exact I]. destruct (evals_le _ _ _ E) as (A & B & C). destruct (r_out a) as [[x f]|] eqn:O; [|split; [exact A|split; [exact B|exact O]]].
    split; [exact A|]. split; [exact B|]. split; [exact (proj1 (good_run_best _ _ _ G C O))|]. exact (evals_src _ _ _ E).
  - destruct G as [G1 G2]. destruct (evals m (r_evals a)) as [m1|] eqn:E; [|exact I]. destruct (evals_le _ _ _ E) as (A & B & C). destruct (r_out a) as [[x f]|] eqn:O; cycle 1.
    { rewrite app_nil_r. split; [exact A|]. split; [exact B|]. left. exact O. }
    destruct (evals m1 (r_evals b)) as [m2|] eqn:E2; [|exact I]. destruct (evals_le _ _ _ E2) as (A2 & B2 & C2).
    assert (LE : mem_le m m2) by exact (mem_le_trans _ _ _ A A2).
    assert (CV : covers m2 (r_evals a ++ r_evals b)).
    { intros e w q He. apply in_app_or in He. destruct He as [He|He]; [exact (covers_le _ _ _ A2 B e w q He)|exact (B2 e w q He)]. }
    destruct (r_out b) as [[x2 f2]|] eqn:O2; [|split; [exact LE|split; [exact CV|right; exact O2]]].
    split; [exact LE|]. split; [exact CV|]. split; cycle 1.
    { destruct (evals_src _ _ _ E2) as [-> |(c & t & -> & Ht)]; [|right; exists c, t; split; [reflexivity|apply in_or_app; auto]].
      destruct (evals_src _ _ _ E) as [-> |(c & t & -> & Ht)]; [left; reflexivity|right; exists c, t; split; [reflexivity|apply in_or_app; auto]]. }
    destruct (good_run_best _ _ _ G1 C O) as [[I1 P1] Q1]. destruct (good_run_best _ _ _ G2 C2 O2) as [[I2 P2] Q2]. unfold objective in Q1, Q2.
    destruct (L x) as [v p| | |] eqn:Lx; try tauto; destruct (L x2) as [v2 p2| | |] eqn:Lx2; try tauto; subst f f2; cbn [f_gt].
    + destruct (Rlt_dec (- v2) (- v)) as [H|H]; split; try (apply in_or_app; auto); rewrite ?Lx, ?Lx2; intros e w q He; apply in_app_or in He; destruct He as [He|He]; intros Q;
        try (specialize (P1 e w q He Q)); try (specialize (P2 e w q He Q)); lra.
    + split; [apply in_or_app; auto|]. rewrite Lx. intros e w q He Q. apply in_app_or in He. destruct He as [He|He]; [exact (P1 e w q He Q)|elim (P2 e w q He Q)].
    + split; [apply in_or_app; auto|]. rewrite Lx2. intros e w q He Q. apply in_app_or in He. destruct He as [He|He]; [elim (P1 e w q He Q)|exact (P2 e w q He Q)].
    + split; [apply in_or_app; auto|]. rewrite Lx. intros e w q He Q. apply in_app_or in He. destruct He as [He|He]; [exact (P1 e w q He Q)|exact (P2 e w q He Q)].
Qed.
Hypothesis floor : forall t v p, L t = Fin v p -> - 10 ^ 20 < v.
(** after each attempt the best value is the remembered one *)
Definition synced (s : st) : Prop := match smem s with None => sbp s = None /\ sbv s = - 10 ^ 20 | Some (b, _) => sbv s = b /\ sbp s <> None end.
Definition wide (s : st) : Prop := ok s /\ synced s.
(** which attempts have been seen by the state *)
Definition seen (s : st) (l : list Th) : Prop := forall e w q, In e l -> L e = Fin w q -> w <= sbv s /\ sbp s <> None.
Lemma synced_seen s l : synced s -> covers (smem s) l -> seen s l.
Proof. intros S C e w q He E. specialize (C e w q He E). unfold synced in S. destruct (smem s) as [[b t]|]; [|destruct C]. destruct S as [-> H]. split; [exact C|exact H]. Qed.
Lemma recall_sync s : ok s -> (match smem s with None => sbp s = None /\ sbv s = - 10 ^ 20 | Some (b, _) => sbv s <= b end) -> synced (recall s).
Proof.
  intros [A B] H. unfold HyperOpt_M.recall, synced. destruct (smem s) as [[b t]|] eqn:E; cbv beta iota; [|rewrite E; exact H]. destruct A as [q A].
  destruct (Rlt_dec (sbv s) b) as [Q|Q]; [rewrite A; cbn; split; [reflexivity|discriminate]|]. cbv beta iota.
  rewrite E. split; [lra|]. intros N. unfold best_ok in B. rewrite N in B. pose proof (floor t b q A). lra.
Qed.

Lemma sync_le s : synced s -> match smem s with None => sbp s = None /\ sbv s = - 10 ^ 20 | Some (b, _) => sbv s <= b end.
Proof. unfold synced. destruct (smem s) as [[b t]|]; [intros [-> _]; lra|auto]. Qed.
(** with a memory at least as good as the best value *)
Lemma sync_mem s m : synced s -> mem_le (smem s) m -> mem_ok m -> match m with None => sbp s = None /\ sbv s = - 10 ^ 20 | Some (b, _) => sbv s <= b end.
Proof.
  unfold synced, mem_le. intros S H M. destruct (smem s) as [[b t]|], m as [[b' t']|]; try tauto; [destruct S as [-> _]; exact H|]. destruct S as [_ ->]. destruct M as [p M]. pose proof (floor _ _ _ M). lra.
Qed.
Lemma inf_mem s m l x : synced s -> mem_le (smem s) m -> (m = smem s \/ exists b t, m = Some (b, t) /\ In t l) -> mem_ok m -> returns_best l x -> (forall v p, L x <> Fin v p) -> synced (with_mem s m).
Proof.
  intros S LE [-> |(b & t & -> & Ht)] M [_ RB] NF; [exact S|]. exfalso. destruct M as [p M]. destruct (L x) as [v q| | |] eqn:Lx; [exact (NF v q eq_refl)|exact RB| |exact RB]. exact (RB t b p Ht M).
Qed.
Lemma body_step s a s' : good_attempt L a -> (sk s = 0%nat -> smem s = None) -> ok s -> synced s -> body s a = Continue Th Par s' ->
  (synced s' /\ mem_le (smem s) (smem s') /\ covers (smem s') (points a)) \/
  (raised a /\ (sstop s' <= sk s')%nat /\ sbp s' = sbp s /\ sbv s' = sbv s /\ sbp s' <> None).
Proof.
  intros G K0' O S. unfold HyperOpt_M.body. pose proof (minimise_best (smem s) a G) as M. pose proof (minimise_ok (smem s) a (proj1 O)) as MO.
  assert (NB : forall u, smem (recall u) = smem u) by (intros u; exact (proj2 (proj2 (proj2 (recall_proj u))))).
  destruct (minimise (smem s) a) as [|mem|mem x]; [discriminate| |].
  - destruct M as (LE & CV & RA). unfold HyperOpt_M.handler. pj. destruct (snb s) as [|nb].
    + destruct (sbp s) as [pt|] eqn:E; [|discriminate]. intros [= <-]. pj. right. split; [exact RA|]. split; [lia|]. split; [reflexivity|]. split; [reflexivity|discriminate].
    + intros [= <-]. left. rewrite NB. pj. split; [|split; [exact LE|exact CV]]. apply recall_sync; pj; [split; [exact MO|exact (proj2 O)]|]. exact (sync_mem s mem S LE MO).
  - destruct M as (LE & CV & RB & SRC).
    assert (IX : (forall v p, L x <> Fin v p) -> forall s', (let s := more (with_mem s mem) in if Nat.eqb (sk s) 0 then Continue Th Par (tick s) else if Nat.ltb max_retry (sstop s) then handler s else Continue Th Par (tick s)) = Continue Th Par s' ->
      synced s' /\ mem_le (smem s) (smem s') /\ covers (smem s') (points a)).
    { intros NF u. pose proof (inf_mem s mem (points a) x S LE SRC MO RB NF) as W. cbv zeta.
      assert (K0 : forall q, Continue Th Par (tick (more (with_mem s mem))) = Continue Th Par q -> synced q /\ mem_le (smem s) (smem q) /\ covers (smem q) (points a)).
      { intros q [= <-]. split; [exact W|]. split; [exact LE|exact CV]. }
      destruct (Nat.eqb _ 0); [apply K0|]. destruct (Nat.ltb _ _); [|apply K0]. unfold HyperOpt_M.handler. pj. destruct (snb s) as [|nb].
      - destruct (sbp s) as [pt|] eqn:E; [|discriminate]. intros [= <-]. pj. split; [|split; [exact LE|exact CV]]. unfold synced in W |- *. pj. rewrite <- E. exact W.
      - intros [= <-]. rewrite NB. pj. split; [|split; [exact LE|exact CV]]. apply recall_sync; pj; [split; [exact MO|exact (proj2 O)]|]. exact (sync_le _ W). }
    destruct (L x) as [v p| | |] eqn:Lx; [| | |discriminate].
    + intros B. left. clear IX. destruct RB as [Hx Hb]. rewrite Lx in Hb.
      assert (NE : note mem x = mem /\ exists b t, mem = Some (b, t) /\ v <= b).
      { pose proof (CV x v p Hx Lx) as C. destruct mem as [[b t]|]; [|destruct C]. unfold HyperOpt_M.note. rewrite Lx. destruct (Rlt_dec b v); [lra|]. split; [reflexivity|]. exists b, t. auto. }
      destruct NE as (NE & b & t & -> & Vb). rewrite NE in B. cbv zeta in B. pj.
      assert (TOP : b <= v \/ (exists b0 t0, smem s = Some (b0, t0) /\ b0 = b)).
      { destruct SRC as [E|(b1 & t1 & [= <- <-] & Ht)]; [right; rewrite <- E; eauto|left]. destruct MO as [q MO]. exact (Hb t b q Ht MO). }
      destruct (Nat.eqb_spec (sk s) 0) as [Z|Z].
      * injection B as <-. pj. split; [|split; [exact LE|exact CV]]. unfold synced. pj. split; [|discriminate].
        destruct TOP as [T|(b0 & t0 & E & ->)]; [lra|]. 
        rewrite (K0' Z) in E. discriminate.
      * destruct (Rle_dec b v) as [Q|Q].
        -- assert (v = b) by lra. subst v. destruct (Rlt_dec (sbv s) b) as [H|H]; injection B as <-; pj; rewrite ?NB; pj.
           ++ split; [|split; [exact LE|exact CV]]. unfold synced. pj. split; [reflexivity|discriminate].
           ++ split; [|split; [exact LE|exact CV]]. apply (recall_sync (with_mem s (Some (b, t)))); pj; [split; [exact MO|exact (proj2 O)]|]. exact (sync_mem s _ S LE MO).
        -- injection B as <-. pj. split; [|split; [exact LE|exact CV]]. destruct TOP as [T|(b0 & t0 & E & ->)]; [lra|]. unfold synced in S |- *. pj. rewrite E in S. exact S.
    + intros B. left. apply IX; [discriminate|exact B].
    + intros B. left. apply IX; [discriminate|exact B].
Qed.

Lemma loop_best att : (forall i, good_attempt L (att i)) -> forall fuel n s m nb v b, inv0 s -> (sk s = 0%nat -> smem s = None) ->
  ok s -> synced s -> (sbp s <> None \/ sk s < sstop s)%nat -> (forall i, (i < n)%nat -> covers (smem s) (points (att i))) ->
  loop fuel att n s = Done m nb v b ->
  (n <= m)%nat /\ (forall i e w q, (i < m)%nat -> ((i + 1 < m)%nat \/ ~ raised (att i)) -> In e (points (att i)) -> L e = Fin w q -> w <= v).
Proof.
  intros G. induction fuel as [|fuel IH]; intros n s m nb v b IN K0 O S X C; cbn [HyperOpt_M.loop]; destruct (Nat.ltb_spec (sk s) (sstop s)) as [K|K]; try discriminate.
  - intros [= <- _ <- _]. split; [lia|]. intros i e w q Hi _ He E. exact (proj1 (synced_seen s _ S (C i Hi) e w q He E)).
  - destruct (body s (att n)) as [s'| |] eqn:B; try discriminate. destruct (body_dec _ _ _ IN K B) as [D P].
    destruct (body_step _ _ _ (G n) K0 O S B) as [(S' & LE & CV)|(RA & K' & E1 & E2 & NN)].
    + intros H. destruct (Nat.ltb_spec (sk s') (sstop s')) as [Q|Q].
      * apply IH in H; [split; [lia|apply H]|unfold inv0; lia|lia|exact (body_ok _ _ _ O B)|exact S'|right; exact Q|].
        intros i Hi. destruct (Nat.eq_dec i n) as [-> |Ne]; [exact CV|]. apply (covers_le _ _ _ LE). apply C. lia.
      * assert (C' : forall i, (i < n + 1)%nat -> covers (smem s') (points (att i))).
        { intros i Hi. destruct (Nat.eq_dec i n) as [-> |Ne]; [exact CV|]. apply (covers_le _ _ _ LE). apply C. lia. }
        assert (Q' : Nat.ltb (sk s') (sstop s') = false) by (apply Nat.ltb_ge; exact Q).
        destruct fuel; cbn [HyperOpt_M.loop] in H; rewrite Q' in H; injection H as <- _ <- _; (split; [lia|]); intros i e w q Hi _ He E; refine (proj1 (synced_seen s' _ S' (C' i _) e w q He E)); lia.
    + assert (Q' : Nat.ltb (sk s') (sstop s') = false) by (apply Nat.ltb_ge; exact K').
      intros H. destruct fuel; cbn [HyperOpt_M.loop] in H; rewrite Q' in H; injection H as <- _ <- _; (split; [lia|]); intros i e w q Hi NR He E; rewrite E2;
        (assert (i < n)%nat by (destruct NR as [NR|NR]; [lia|]; destruct (Nat.eq_dec i n) as [-> |Ne]; [tauto|lia])); refine (proj1 (synced_seen s _ S (C i _) e w q He E)); assumption.
  - intros [= <- _ <- _]. split; [lia|]. intros i e w q Hi _ He E. exact (proj1 (synced_seen s _ S (C i Hi) e w q He E)).
Qed.
(** Done implies a result: an attempt that makes k reach stop leaves one *)
Lemma body_result s a s' : (sk s < sstop s)%nat -> inv0 s -> good_attempt L a -> (sk s = 0%nat -> smem s = None) -> ok s -> synced s -> body s a = Continue Th Par s' -> (sstop s' <= sk s')%nat -> sbp s' <> None.
Proof.
  intros K IN G K0 O S B Q. destruct (body_step _ _ _ G K0 O S B) as [(S' & LE & CV)|(_ & _ & _ & _ & NN)]; [|exact NN].
  revert B Q. unfold HyperOpt_M.body. pose proof (minimise_best (smem s) a G) as M.
  assert (RP : forall u, sk (recall u) = sk u /\ sstop (recall u) = sstop u) by (intros u; destruct (recall_proj u) as (A & B & _); auto).
  assert (HH : forall u, (sk u < sstop u)%nat -> handler u = Continue Th Par s' -> (sstop s' <= sk s')%nat -> sbp s' <> None).
  { intros u Ku. unfold HyperOpt_M.handler. destruct (snb u); [destruct (sbp u) eqn:E; [|discriminate]; intros [= <-] _; pj; discriminate|].
    intros [= <-]. match goal with |- context [recall ?z] => destruct (RP z) as (E1 & E2); rewrite E1, E2 end. pj. lia. }
  destruct (minimise (smem s) a) as [|mem|mem x]; [discriminate|apply HH; pj; exact K|].
  destruct M as (_ & _ & RB & _). destruct (L x) as [v p| | |] eqn:Lx; [| | |discriminate].
  - intros _ _ N. specialize (CV x v p (proj1 RB) Lx). unfold synced in S'. destruct (smem s') as [[b t]|]; [|exact CV]. exact (proj2 S' N).
  - cbv zeta. pj. destruct (Nat.eqb_spec (sk s) 0) as [Z|Z]; [intros [= <-]; pj; lia|]. destruct (Nat.ltb _ _); [apply HH; pj; lia|intros [= <-]; pj; lia].
  - cbv zeta. pj. destruct (Nat.eqb_spec (sk s) 0) as [Z|Z]; [intros [= <-]; pj; lia|]. destruct (Nat.ltb _ _); [apply HH; pj; lia|intros [= <-]; pj; lia].
Qed.
Lemma loop_result att : (forall i, good_attempt L (att i)) -> forall fuel n s m nb v b, inv0 s -> (sk s = 0%nat -> smem s = None) ->
  ok s -> synced s -> (sk s < sstop s)%nat -> loop fuel att n s = Done m nb v b -> b <> None.
Proof.
  intros G. induction fuel as [|fuel IH]; intros n s m nb v b IN K0 O S K; cbn [HyperOpt_M.loop]; (assert (K' : Nat.ltb (sk s) (sstop s) = true) by (apply Nat.ltb_lt; exact K)); rewrite K'; try discriminate.
  destruct (body s (att n)) as [s'| |] eqn:B; try discriminate. destruct (body_dec _ _ _ IN K B) as [D P]. intros H.
  destruct (Nat.ltb_spec (sk s') (sstop s')) as [Q|Q].
  - destruct (body_step _ _ _ (G n) K0 O S B) as [(S' & LE & CV)|(RA & K2 & _)]; [|lia].
    refine (IH _ _ _ _ _ _ _ _ (body_ok _ _ _ O B) S' Q H); [unfold inv0; lia|lia].
  - pose proof (body_result _ _ _ K IN (G n) K0 O S B Q) as R. assert (Q' : Nat.ltb (sk s') (sstop s') = false) by (apply Nat.ltb_ge; exact Q).
    destruct fuel; cbn [HyperOpt_M.loop] in H; rewrite Q' in H; injection H as _ _ _ <-; exact R.
Qed.
Lemma search_best fuel nb att m nb' v b : (forall i, good_attempt L (att i)) -> search Th Par L fuel nb att = Done m nb' v b ->
  (exists p t, b = Some (p, t) /\ L t = Fin v p) /\
  forall i e w q, (i < m)%nat -> ((i + 1 < m)%nat \/ ~ raised (att i)) -> In e (points (att i)) -> L e = Fin w q -> w <= v.
Proof.
  intros G H. assert (O : ok (init Th Par nb)) by (split; [exact I|reflexivity]). assert (S : synced (init Th Par nb)) by (split; reflexivity). split.
  - assert (b <> None) by (unfold search in H; refine (loop_result att G _ _ _ _ _ _ _ _ _ O S _ H); [unfold inv0; reflexivity|reflexivity|cbn; lia]).
    destruct b as [[p t]|]; [|congruence]. exists p, t. split; [reflexivity|]. exact (search_consistent _ _ _ _ _ _ _ _ H).
  - unfold search in H. refine (proj2 (loop_best att G _ _ _ _ _ _ _ _ _ O S _ _ H)); [unfold inv0; reflexivity|reflexivity|right; cbn; lia|intros; lia].
Qed.
End Search.

(** ** no finite evaluation: the search fails *)
Section Fail.
Context {Th Par : Type}.
Variable L : Th -> ev Par.
Hypothesis inf : forall t v p, L t <> Fin v p.
Local Notation st := (st Th Par).
Local Notation body := (body Th Par L).
Local Notation loop := (loop Th Par L).
Definition blank (s : st) : Prop := s_mem Th Par s = None /\ s_bp Th Par s = None.
Lemma note_blank t : note Th Par L None t = None.
Proof. unfold note. destruct (L t) eqn:E; try reflexivity. elim (inf t v p E). Qed.
Lemma evals_blank l m : evals Th Par L None l = Some m -> m = None.
Proof. induction l as [|t l IH]; cbn; [intros [= <-]; reflexivity|]. rewrite note_blank. destruct (L t); try exact IH. discriminate. Qed.
Lemma minimise_blank a : match minimise Th Par L None a with MExc _ => True | MVal _ m => m = None | MOk _ m _ => m = None end.
Proof.
  unfold minimise. destruct a as [a|a b].
  - destruct (evals Th Par L None (r_evals a)) as [m1|] eqn:E; [|exact I]. pose proof (evals_blank _ _ E). destruct (r_out a) as [[x f]|]; assumption.
  - destruct (evals Th Par L None (r_evals a)) as [m1|] eqn:E; [|exact I]. pose proof (evals_blank _ _ E) as ->. destruct (r_out a) as [[x f]|]; [|reflexivity].
    destruct (evals Th Par L None (r_evals b)) as [m2|] eqn:E2; [|exact I]. pose proof (evals_blank _ _ E2). destruct (r_out b) as [[x2 f2]|]; assumption.
Qed.
Lemma body_blank s a s' : blank s -> (s_k Th Par s < s_stop Th Par s)%nat -> body s a = Continue Th Par s' -> blank s' /\ (s_k Th Par s' < s_stop Th Par s')%nat.
Proof.
  intros [Bm Bp] K. unfold HyperOpt_M.body. rewrite Bm. pose proof (minimise_blank a) as M.
  assert (HH : forall u, s_mem Th Par u = None -> s_bp Th Par u = None -> (s_k Th Par u < s_stop Th Par u)%nat -> handler Th Par L u = Continue Th Par s' -> blank s' /\ (s_k Th Par s' < s_stop Th Par s')%nat).
  { intros u Hm Hp Hk. unfold handler. destruct (s_nb Th Par u); [rewrite Hp; discriminate|]. unfold recall. pj. rewrite Hm. intros [= <-]. split; [split; [reflexivity|exact Hp]|pj; lia]. }
  destruct (minimise Th Par L None a) as [|mem|mem x]; [discriminate|subst mem; apply HH; pj; try reflexivity; assumption|]. subst mem.
  assert (J : (let s := more Th Par (with_mem Th Par s None) in if Nat.eqb (s_k Th Par s) 0 then Continue Th Par (tick Th Par s) else if Nat.ltb max_retry (s_stop Th Par s) then handler Th Par L s else Continue Th Par (tick Th Par s)) = Continue Th Par s' -> blank s' /\ (s_k Th Par s' < s_stop Th Par s')%nat).
  { cbv zeta. assert (T : Continue Th Par (tick Th Par (more Th Par (with_mem Th Par s None))) = Continue Th Par s' -> blank s' /\ (s_k Th Par s' < s_stop Th Par s')%nat).
    { intros [= <-]. split; [split; [reflexivity|exact Bp]|pj; lia]. }
    destruct (Nat.eqb _ 0); [exact T|]. destruct (Nat.ltb _ _); [apply HH; pj; try reflexivity; try assumption; lia|exact T]. }
  destruct (L x) as [v p| | |] eqn:Lx; [elim (inf x v p Lx)|exact J|exact J|discriminate].
Qed.
Lemma loop_blank att : forall fuel n s m nb v b, blank s -> (s_k Th Par s < s_stop Th Par s)%nat -> loop fuel att n s <> Done m nb v b.
Proof.
  induction fuel as [|fuel IH]; intros n s m nb v b Bl K; cbn [HyperOpt_M.loop]; (assert (K' : Nat.ltb (s_k Th Par s) (s_stop Th Par s) = true) by (apply Nat.ltb_lt; exact K)); rewrite K'; try discriminate.
  destruct (body s (att n)) as [s'| |] eqn:B; try discriminate. destruct (body_blank _ _ _ Bl K B) as [Bl' K2]. apply IH; assumption.
Qed.
Lemma search_fails nb att : exists n, search Th Par L (10 + 2 * nb) nb att = FailV n \/ search Th Par L (10 + 2 * nb) nb att = FailE n.
Proof.
  pose proof (search_bounded L nb att) as A. pose proof (fun m nb' v b => loop_blank att (10 + 2 * nb) 0 (init Th Par nb) m nb' v b (conj eq_refl eq_refl)) as B. unfold search in *.
  destruct (HyperOpt_M.loop Th Par L (10 + 2 * nb) att 0 (init Th Par nb)) as [m nb' v b|n|n|] eqn:E; eauto; [|congruence]. exfalso. apply (B m nb' v b); [cbn; lia|reflexivity].
Qed.
End Fail.
