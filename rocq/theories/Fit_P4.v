(** Proofs for C115: the reported figures; examples. *)
From Coq Require Import Reals ZArith Arith Bool List String Lia Lra.
From Verif Require Import RSum Fit_M Fit_S Fit_P Fit_P2 Fit_P3.
Import ListNotations.
Open Scope list_scope.
Open Scope R_scope.
Lemma metrics_figures m p t : (0 < m)%nat -> let M := fit_metrics m p t in figures m p t (R_squared M) (std_error M) (avg_error M).
Proof.
  intros Hm M. unfold figures. cbv zeta. unfold M, fit_metrics. cbn [R_squared std_error avg_error].
  split; [exact (round2_near (np_mean m (fun i => p i - t i)))|]. split; [exact (round2_near (np_std m (fun i => p i - t i)))|].
  change (/ 10 ^ 8) with epsilon. rewrite <- (rsq_one m Hm p t). split; [apply round2_near|]. destruct (round2_one _ (rsq_le m Hm p t)) as [A B]. split; [exact A|]. rewrite B. rewrite (rsq_level m Hm p t (995 / 1000)). replace (1 - 995 / 1000) with (5 / 1000) by lra. reflexivity.
Qed.
Lemma goodness_values n_x n_y eval grad tp X Y r q : (0 < cols Y)%nat ->
  ((exists M, goodness n_x n_y eval grad tp X Y None r q = Some M) <-> cols X = cols Y /\ rows X = n_x /\ rows Y = n_y /\ (r < n_y)%nat) /\
  forall M, goodness n_x n_y eval grad tp X Y None r q = Some M -> figures (cols Y) (eval X r) (at2 Y r) (R_squared M) (std_error M) (avg_error M).
Proof.
  intros Hm. unfold goodness. destruct (Nat.eqb_spec (cols X) (cols Y)) as [A|A]; cbn [negb]; [|split; [split; [intros (M & H); discriminate|tauto]|discriminate]].
  destruct (Nat.eqb_spec (rows X) n_x) as [B|B]; cbn [negb]; [|split; [split; [intros (M & H); discriminate|tauto]|discriminate]].
  destruct (Nat.eqb_spec (rows Y) n_y) as [C|C]; cbn [negb]; [|split; [split; [intros (M & H); discriminate|tauto]|discriminate]].
  destruct (Nat.ltb_spec r n_y) as [D|D]; [|split; [split; [intros (M & H); discriminate|intros (_ & _ & _ & H); exfalso; lia]|discriminate]].
  split; [split; [intros _; repeat split; assumption|intros _; eexists; reflexivity]|]. intros M [= <-]. apply metrics_figures. exact Hm.
Qed.
Lemma goodness_partials n_x n_y eval grad tp X Y J r q : (0 < cols Y)%nat ->
  ((exists M, goodness n_x n_y eval grad tp X Y (Some J) r q = Some M) <-> cols X = cols Y /\ rows X = n_x /\ rows Y = n_y /\ t_m J = cols X /\ t_x J = n_x /\ tp = true /\ (r < t_y J)%nat /\ (r < n_y)%nat /\ (q < n_x)%nat) /\
  forall M, goodness n_x n_y eval grad tp X Y (Some J) r q = Some M -> figures (cols Y) (grad X r q) (at3 J r q) (R_squared M) (std_error M) (avg_error M).
Proof.
  intros Hm. unfold goodness. destruct (Nat.eqb_spec (cols X) (cols Y)) as [A|A]; cbn [negb]; [|split; [split; [intros (M & H); discriminate|tauto]|discriminate]].
  destruct (Nat.eqb_spec (rows X) n_x) as [B|B]; cbn [negb]; [|split; [split; [intros (M & H); discriminate|tauto]|discriminate]].
  destruct (Nat.eqb_spec (rows Y) n_y) as [C|C]; cbn [negb]; [|split; [split; [intros (M & H); discriminate|tauto]|discriminate]].
  destruct (Nat.eqb_spec (cols X) (t_m J)) as [E|E]; cbn [negb]; [|split; [split; [intros (M & H); discriminate|intros H; exfalso; apply E; symmetry; tauto]|discriminate]].
  destruct (Nat.eqb_spec (rows X) (t_x J)) as [F|F]; cbn [negb]; [|split; [split; [intros (M & H); discriminate|intros H; exfalso; apply F; rewrite B; symmetry; tauto]|discriminate]].
  destruct tp; cbn [negb]; [|split; [split; [intros (M & H); discriminate|intros (_ & _ & _ & _ & _ & H & _); discriminate]|discriminate]].
  destruct (Nat.ltb_spec r (t_y J)) as [G|G]; cbn [andb]; [|split; [split; [intros (M & H); discriminate|intros H; exfalso; lia]|discriminate]].
  destruct (Nat.ltb_spec r n_y) as [H|H]; cbn [andb]; [|split; [split; [intros (M & K); discriminate|intros K; exfalso; lia]|discriminate]].
  destruct (Nat.ltb_spec q n_x) as [I|I]; [|split; [split; [intros (M & K); discriminate|intros K; exfalso; lia]|discriminate]].
  split; [split; [intros _|intros _; eexists; reflexivity]|].
  - split; [exact A|]. split; [exact B|]. split; [exact C|]. split; [congruence|]. split; [congruence|]. split; [reflexivity|]. split; [exact G|]. split; [exact H|exact I].
  - intros M [= <-]. apply metrics_figures. exact Hm.
Qed.
(** a small file *)
Definition e_names : list string := ["x"; "y"; "x"; "dy"]%string.
Definition e_lines : list (list R) := [[1; 2; 9; 3]; [4; 5; 9; 6]].
Lemma e_load : load_csv (File e_names e_lines) (Some ["x"]%string) (Some ["y"; "x"]%string) (Some [["dy"]]%string) = Got ([[1; 4]], [[2; 5]; [1; 4]], Some [[[3; 6]]; [[0; 0]]]).
Proof. reflexivity. Qed.
Lemma e_multi : let t : arr := fun k i => if Nat.eqb k 0 then 0 else 2 in let p : arr := fun k i => 1 in rsquare 1 1 (fun _ => p 0%nat) (fun _ => t 0%nat) 0%nat < rsquare 2 1 p t 0%nat.
Proof.
  intros t p. destruct (rsq_multi 1 ltac:(lia) 2 p t 0%nat ltac:(lia)) as [L E]. apply Rnot_le_lt. intros H. assert (X : rsquare 1 1 (fun _ => p 0%nat) (fun _ => t 0%nat) 0%nat = rsquare 2 1 p t 0%nat) by lra.
  apply E in X. unfold average, t, p in X. cbn [rsum INR Nat.eqb] in X. destruct X as [X|X]; [specialize (X 0%nat ltac:(lia)); lra|]. lra.
Qed.
