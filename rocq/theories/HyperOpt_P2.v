(** Constant outputs; starting points; options kept between trainings. *)
From Coq Require Import Reals Arith Bool List Lra Lia.
From Verif Require Import RSum Mat Krg_M Krg_S Krg_P4 Krg_P5 HyperOpt_M HyperOpt_M2 HyperOpt_S HyperOpt_P.
Import ListNotations.
Open Scope list_scope.
Open Scope R_scope.

Lemma std_const n v c : (2 <= n)%nat -> (forall i, (i < n)%nat -> v i = c) -> std1 n v = 0.
Proof.
  intros Hn H. unfold std1. assert (M : mean n v = c). { unfold mean. rewrite (rsum_ext n v (fun _ => c)) by exact H. rewrite rsum_const. field. apply not_0_INR. lia. }
  rewrite M. rewrite rsum_zero by (intros i Hi; rewrite H by exact Hi; ring). unfold Rdiv. rewrite Rmult_0_l. apply sqrt_0.
Qed.
Lemma krg_eval_const {Th : Type} qr rcond condF nx nt po (sp : Th -> kspec) nugget noise X y c : qr_contract qr -> rcond_contract rcond -> (2 <= nt)%nat -> (n_regr po nx <= nt)%nat ->
  (forall i, (i < nt)%nat -> y i = c) -> forall t v p, krg_eval qr rcond condF nx nt po sp nugget noise X y t <> Fin v p.
Proof.
  intros Q1 Q2 Hn Hp Hy t v p. unfold krg_eval.
  destruct (reduced_likelihood _ _ _ _ _ _ _ _ _ _) as [v' pr| |] eqn:E; try discriminate.
  assert (T : exists m, krg_train qr rcond condF nx nt po (sp t) nugget noise X y = Some m /\ m_par m = pr).
  { unfold krg_train. destruct (Nat.leb_spec nt 1); [lia|]. destruct (Nat.ltb_spec nt (n_regr po nx)); [lia|]. rewrite E. eexists. split; reflexivity. }
  destruct T as (m & T & <-). rewrite (s2_zero _ _ _ _ _ _ _ _ _ _ _ Hn m Q1 Q2 T (std_const nt y c Hn Hy)). destruct (Req_EM_T 0 0); [discriminate|lra].
Qed.
Lemma constant_outputs {Th : Type} qr rcond condF nx nt po (sp : Th -> kspec) nugget noise X y c nb att : qr_contract qr -> rcond_contract rcond -> (2 <= nt)%nat -> (n_regr po nx <= nt)%nat ->
  (forall i, (i < nt)%nat -> y i = c) ->
  exists n, search Th par (krg_eval qr rcond condF nx nt po sp nugget noise X y) (10 + 2 * nb) nb att = FailV n \/
            search Th par (krg_eval qr rcond condF nx nt po sp nugget noise X y) (10 + 2 * nb) nb att = FailE n.
Proof. intros Q1 Q2 Hn Hp Hy. apply search_fails. exact (krg_eval_const qr rcond condF nx nt po sp nugget noise X y c Q1 Q2 Hn Hp Hy). Qed.

(** ** starting points *)
Lemma start_theta_spec lo hi rnd th i : (i < length th)%nat ->
  nth i (start_theta lo hi rnd th) 0 = let t := nth i th 0 in if Rlt_dec t lo then rnd i * (hi - lo) + lo else if Rlt_dec hi t then rnd i * (hi - lo) + lo else t.
Proof.
  intros H. unfold start_theta. set (f := fun '(i, t) => _).
  rewrite nth_indep with (d' := f (0%nat, 0)) by (rewrite map_length, combine_length, seq_length, Nat.min_id; exact H).
  rewrite map_nth, combine_nth by apply seq_length. rewrite seq_nth by exact H. reflexivity.
Qed.
Lemma start_length lo hi rnd th : length (start_theta lo hi rnd th) = length th.
Proof. unfold start_theta. rewrite map_length, combine_length, seq_length. apply Nat.min_id. Qed.
Lemma start_in_bounds lo hi rnd th : lo <= hi -> (forall i, 0 <= rnd i < 1) ->
  length (start_theta lo hi rnd th) = length th /\
  forall i, (i < length th)%nat -> lo <= nth i (start_theta lo hi rnd th) 0 <= hi /\ (lo <= nth i th 0 <= hi -> nth i (start_theta lo hi rnd th) 0 = nth i th 0).
Proof.
  intros H Hr. split; [apply start_length|]. intros i Hi. rewrite start_theta_spec by exact Hi. cbv zeta. specialize (Hr i).
  assert (0 <= rnd i * (hi - lo) <= hi - lo) by (split; [apply Rmult_le_pos; lra|]; rewrite <- (Rmult_1_l (hi - lo)) at 2; apply Rmult_le_compat_r; lra).
  destruct (Rlt_dec _ lo); [split; lra|]. destruct (Rlt_dec hi _); split; lra.
Qed.
Lemma start_at_length noise th n : length (start_at noise th n) = (length th + (n + 1) * length noise)%nat.
Proof. induction n as [|n IH]; cbn [start_at]; rewrite app_length; [lia|]. rewrite IH. lia. Qed.

(** ** options kept between trainings *)
Lemma imul_len v d w : imul_ones v d = Some w -> s_len v <> d -> s_len v = 1%nat -> s_len w = d /\ exists a, v = PyList [a].
Proof.
  destruct v as [l|l]; cbn; intros E N O.
  - destruct l as [|a [|b l]]; cbn in *; try lia. injection E as <-. cbn. rewrite repeat_length. split; [reflexivity|eauto].
  - rewrite O in *. destruct (Nat.eqb_spec 1 d); [congruence|]. destruct (Nat.eqb_spec d 1); [congruence|discriminate].
Qed.
Lemma check_len nm nx nt o o' : check_param nm nx nt o = Some o' ->
  s_len (k_theta0 o') = match nm with NKriging => nx | _ => k_ncomp o end /\ k_ncomp o' = k_ncomp o /\ k_het o' = k_het o /\ k_eval o' = k_eval o /\
  (k_het o = true -> k_eval o = false -> s_len (k_noise0 o') = nt) /\ (k_het o = false -> s_len (k_noise0 o') = 1%nat /\ k_noise0 o' = k_noise0 o).
Proof.
  unfold check_param. set (d := match nm with NKriging => nx | _ => k_ncomp o end).
  destruct (if Nat.eqb (s_len (k_theta0 o)) d then _ else _) as [th|] eqn:E; [|discriminate].
  assert (Lt : s_len th = d).
  { destruct (Nat.eqb_spec (s_len (k_theta0 o)) d) as [Q|Q]; [injection E as <-; exact Q|]. destruct (Nat.eqb_spec (s_len (k_theta0 o)) 1) as [Q1|Q1]; [|discriminate]. exact (proj1 (imul_len _ _ _ E Q Q1)). }
  destruct (if andb (k_het o) (negb (k_eval o)) then _ else _) as [no|] eqn:F; [|discriminate].
  destruct (andb (negb (k_het o)) (negb (Nat.eqb (s_len no) 1))) eqn:G; [discriminate|]. intros [= <-]. cbn. repeat split; try assumption.
  - intros Hh He. rewrite Hh, He in F. cbn in F. destruct (Nat.eqb_spec (s_len (k_noise0 o)) nt) as [Q|Q]; [injection F as <-; exact Q|]. destruct (Nat.eqb_spec (s_len (k_noise0 o)) 1) as [Q1|Q1]; [|discriminate]. exact (proj1 (imul_len _ _ _ F Q Q1)).
  - rewrite H in G. cbn in G. destruct (Nat.eqb_spec (s_len no) 1); [assumption|discriminate].
  - rewrite H in F. cbn in F. injection F as <-. reflexivity.
Qed.
Lemma check_same nm nx nt o o' : check_param nm nx nt o = Some o' -> check_param nm nx nt o' = Some o'.
Proof.
  intros H. destruct (check_len _ _ _ _ _ H) as (A & B & C & D & E & F). unfold check_param at 1. rewrite B, C, D, A, Nat.eqb_refl.
  destruct (k_het o) eqn:Hh; destruct (k_eval o) eqn:He; cbn.
  - destruct o'; cbn in *; subst; reflexivity.
  - rewrite (E eq_refl eq_refl), Nat.eqb_refl. destruct o'; cbn in *; subst; reflexivity.
  - destruct (F eq_refl) as [F1 F2]. rewrite F1. cbn. destruct o'; cbn in *; subst; reflexivity.
  - destruct (F eq_refl) as [F1 F2]. rewrite F1. cbn. destruct o'; cbn in *; subst; reflexivity.
Qed.
(** default-style theta0 = [a]: another dimension *)
Lemma other_dimension nx1 nx2 nt1 nt2 a o o' : k_theta0 o = PyList [a] -> k_het o = false -> (2 <= nx1)%nat ->
  after_training NKriging nx1 nt1 [] o = Some o' ->
  (exists o2, after_training NKriging nx2 nt2 [] o = Some o2) /\ ((exists o2, after_training NKriging nx2 nt2 [] o' = Some o2) <-> nx2 = nx1).
Proof.
  intros T Hh N. unfold after_training. destruct (check_param NKriging nx1 nt1 o) as [o1|] eqn:E; [|discriminate]. intros [= <-].
  destruct (check_len _ _ _ _ _ E) as (A & B & C & D & _ & F). destruct (F Hh) as [F1 F2]. split.
  - unfold check_param. rewrite T, Hh. rewrite F2 in F1. cbn [s_len length]. destruct (Nat.eqb_spec 1 nx2); cbn; rewrite F1; cbn; eauto.
  - split.
    + intros [o2 H]. destruct (check_param NKriging nx2 nt2 o1) as [o3|] eqn:G; [|discriminate]. unfold check_param in G. rewrite A in G. destruct (Nat.eqb_spec nx1 nx2); [congruence|]. destruct (Nat.eqb_spec nx1 1); [lia|discriminate].
    + intros ->. exists o1. assert (G : check_param NKriging nx1 nt2 o1 = Some o1).
      { unfold check_param. rewrite A, Nat.eqb_refl, C, Hh. cbn. rewrite F1. cbn. rewrite <- Hh, <- C. destruct o1; reflexivity. }
      rewrite G. reflexivity.
Qed.
Lemma array_theta0 nx nt a o : k_theta0 o = NpArray [a] -> (2 <= nx)%nat -> check_param NKriging nx nt o = None.
Proof. intros T N. unfold check_param. rewrite T. cbn [s_len length imul_ones]. destruct (Nat.eqb_spec 1 nx); [lia|]. destruct (Nat.eqb_spec nx 1); [lia|reflexivity]. Qed.
Lemma rbf_retrain nx1 nx2 a : rbf_setup nx2 (rbf_setup nx1 (DNum a)) = rbf_setup nx2 (DNum a) <-> nx1 = nx2.
Proof. split; [|intros ->; reflexivity]. cbn. intros [= H]. apply (f_equal (@length R)) in H. rewrite !repeat_length in H. exact H. Qed.

(** ** witnesses *)
(** without the contract: a first run that returns a poor point although it evaluated a better one *)
Definition Lw (t : nat) : ev nat := if Nat.eqb t 9 then NegInf else Fin (INR t) t.
Definition lose : attempt nat := Cobyla {| r_evals := [5; 2]%nat; r_out := Some (2%nat, FFin (-2)) |}.

Lemma loop_S {Th Par} (L : Th -> ev Par) f att n s s' : (s_k Th Par s < s_stop Th Par s)%nat -> body Th Par L s (att n) = Continue Th Par s' -> loop Th Par L (S f) att n s = loop Th Par L f att (S n) s'.
Proof. intros K B. cbn [loop]. apply Nat.ltb_lt in K. rewrite K, B. reflexivity. Qed.
Lemma loop_D {Th Par} (L : Th -> ev Par) f att n s : (s_stop Th Par s <= s_k Th Par s)%nat -> loop Th Par L f att n s = Done n (s_nb Th Par s) (s_bv Th Par s) (s_bp Th Par s).
Proof. intros K. apply Nat.ltb_ge in K. destruct f; cbn [loop]; rewrite K; reflexivity. Qed.
Definition mkst k stop nb m v b : st nat nat := {| s_k := k; s_stop := stop; s_nb := nb; s_mem := m; s_bv := v; s_bp := b |}.
Ltac go := unfold body, minimise, init, mkst; cbn -[INR pow];
  repeat match goal with
  | |- context [Rlt_dec ?a ?b] => destruct (Rlt_dec a b); try (exfalso; lra); cbn -[INR pow]
  | |- context [Rle_dec ?a ?b] => destruct (Rle_dec a b); try (exfalso; lra); cbn -[INR pow]
  end; try reflexivity.
Lemma lose_done : search nat nat Lw 20 5 (fun _ => lose) = Done 1 5 (INR 2) (Some (2, 2)%nat).
Proof.
  unfold search. rewrite (loop_S Lw _ _ _ _ (mkst 1 1 5 (Some (INR 5, 5%nat)) (INR 2) (Some (2, 2)%nat))); [apply loop_D; cbn; lia|cbn; lia|].
  assert (I5 : INR 5 = 5) by (cbn; lra). assert (I2 : INR 2 = 2) by (cbn; lra). go.
Qed.
(** ... or a run that evaluates a finite value and returns a failing point, then a worse finite one: no parameters at all *)
Definition empty_att (n : nat) : attempt nat :=
  match n with
  | O => Cobyla {| r_evals := [5; 9]%nat; r_out := Some (9%nat, FPosInf) |}
  | _ => Cobyla {| r_evals := [2]%nat; r_out := Some (2%nat, FFin (-2)) |}
  end.
Lemma empty_done : search nat nat Lw 20 5 empty_att = Done 2 5 (- 10 ^ 20) None.
Proof.
  assert (I5 : INR 5 = 5) by (cbn; lra). assert (I2 : INR 2 = 2) by (cbn; lra). assert (P : 0 < 10 ^ 20) by (apply pow_lt; lra).
  unfold search. rewrite (loop_S Lw _ _ _ _ (mkst 1 2 5 (Some (INR 5, 5%nat)) (- 10 ^ 20) None)); [|cbn; lia|go].
  rewrite (loop_S Lw _ _ _ _ (mkst 2 2 5 (Some (INR 5, 5%nat)) (- 10 ^ 20) None)); [apply loop_D; cbn; lia|cbn; lia|go].
Qed.
(** with it *)
Definition good2 (n : nat) : attempt nat :=
  match n with
  | O => Cobyla {| r_evals := [5; 9]%nat; r_out := None |}
  | _ => Tnc {| r_evals := [1; 3]%nat; r_out := Some (3%nat, FFin (-3)) |} {| r_evals := [7; 4]%nat; r_out := Some (7%nat, FFin (-7)) |}
  end.
Lemma good2_ok i : good_attempt Lw (good2 i).
Proof.
  destruct i as [|i]; cbn; [intros x f [=]|].
  split; intros x f [= <- <-]; (split; [cbn; auto|]); (split; [cbn; f_equal; cbn; lra|]); intros t g [<-|[<-|[]]]; cbn; intros ->; destruct (Rlt_dec _ _); try reflexivity; exfalso; lra.
Qed.
Lemma good2_done : search nat nat Lw 20 5 good2 = Done 2 4 (INR 7) (Some (7, 7)%nat).
Proof.
  assert (I1 : INR 1 = 1) by reflexivity. assert (I3 : INR 3 = 3) by (cbn; lra). assert (I4 : INR 4 = 4) by (cbn; lra). assert (I5 : INR 5 = 5) by (cbn; lra). assert (I7 : INR 7 = 7) by (cbn; lra).
  assert (P : 0 < 10 ^ 20) by (apply pow_lt; lra).
  unfold search. rewrite (loop_S Lw _ _ _ _ (mkst 1 2 4 (Some (INR 5, 5%nat)) (INR 5) (Some (5, 5)%nat))); [|cbn; lia|go].
  rewrite (loop_S Lw _ _ _ _ (mkst 2 2 4 (Some (INR 7, 7%nat)) (INR 7) (Some (7, 7)%nat))); [apply loop_D; cbn; lia|cbn; lia|].
  go. all: exfalso; lra.
Qed.
