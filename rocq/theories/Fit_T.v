(** Theorems C115. *)
From Coq Require Import Reals ZArith Arith Bool List String Lia Lra.
From Verif Require Import RSum Fit_M Fit_S Fit_P Fit_P2 Fit_P3 Fit_P4.
Import ListNotations.
Open Scope list_scope.
Open Scope R_scope.
(** R-square of one response: at most 1, 1 exactly for perfect predictions, nonnegative exactly if the mean squared error is at most the variance of
    the true values (plus 1e-8); bias and deviation of the errors account for all of it. *)
Theorem C115_r_squared : forall m, (0 < m)%nat -> forall p t, let r := rsquare 1 m (fun _ => p) (fun _ => t) 0%nat in
  r = 1 - mean_sq m p t / (variance m t + / 10 ^ 8) /\ r <= 1 /\ (r = 1 <-> forall i, (i < m)%nat -> p i = t i) /\
  (forall c, c <= r <-> mean_sq m p t <= (1 - c) * (variance m t + / 10 ^ 8)) /\
  mean_sq m p t = np_mean m (fun i => p i - t i) ^ 2 + np_std m (fun i => p i - t i) ^ 2.
Proof. exact (fun m Hm p t => conj (rsq_one m Hm p t) (conj (rsq_le m Hm p t) (conj (rsq_is_one m Hm p t) (conj (rsq_level m Hm p t) (bias_variance m Hm p t))))). Qed.
Print Assumptions C115_r_squared.
(** Several responses in one call: each gets at least the R-square it would get alone, more unless it is predicted perfectly or its mean is the mean of all. *)
Theorem C115_several_responses : forall m, (0 < m)%nat -> forall K pred true k, (k < K)%nat -> rsquare 1 m (fun _ => pred k) (fun _ => true k) 0%nat <= rsquare K m pred true k /\
  (rsquare 1 m (fun _ => pred k) (fun _ => true k) 0%nat = rsquare K m pred true k <-> (forall i, (i < m)%nat -> pred k i = true k i) \/ average m (true k) = average K (fun k => average m (true k))).
Proof. exact rsq_multi. Qed.
Print Assumptions C115_several_responses.
Theorem C115_several_responses_refuted : exists (p t : arr), rsquare 1 1 (fun _ => p 0%nat) (fun _ => t 0%nat) 0%nat < rsquare 2 1 p t 0%nat.
Proof. exact (ex_intro _ _ (ex_intro _ _ e_multi)). Qed.
(** What goodness_of_fit accepts and what its figures mean. *)
Theorem C115_report : forall n_x n_y eval grad tp X Y r q, (0 < cols Y)%nat ->
  ((exists M, goodness n_x n_y eval grad tp X Y None r q = Some M) <-> cols X = cols Y /\ rows X = n_x /\ rows Y = n_y /\ (r < n_y)%nat) /\
  forall M, goodness n_x n_y eval grad tp X Y None r q = Some M -> figures (cols Y) (eval X r) (at2 Y r) (R_squared M) (std_error M) (avg_error M).
Proof. exact goodness_values. Qed.
Print Assumptions C115_report.
Theorem C115_report_partials : forall n_x n_y eval grad tp X Y J r q, (0 < cols Y)%nat ->
  ((exists M, goodness n_x n_y eval grad tp X Y (Some J) r q = Some M) <-> cols X = cols Y /\ rows X = n_x /\ rows Y = n_y /\ t_m J = cols X /\ t_x J = n_x /\ tp = true /\ (r < t_y J)%nat /\ (r < n_y)%nat /\ (q < n_x)%nat) /\
  forall M, goodness n_x n_y eval grad tp X Y (Some J) r q = Some M -> figures (cols Y) (grad X r q) (at3 J r q) (R_squared M) (std_error M) (avg_error M).
Proof. exact goodness_partials. Qed.
Print Assumptions C115_report_partials.
Example C115_nonvacuous_report : exists M, goodness 1 1 (fun X r i => at2 X 0 i + 1) (fun _ _ _ _ => 1) true {| rows := 1; cols := 3; at2 := (fun _ i => INR i) |} {| rows := 1; cols := 3; at2 := (fun _ i => INR i) |} None 0 0 = Some M.
Proof. exact (ex_intro _ _ eq_refl). Qed.
(** Reading a CSV file: when it succeeds, and what is returned. *)
Theorem C115_csv_succeeds : forall names lines, (2 <= length names)%nat -> forall inputs outputs partials,
  (exists r, load_csv (File names lines) (Some inputs) (Some outputs) partials = Got r) <->
  table lines /\ inputs <> [] /\ outputs <> [] /\ (forall l, In l inputs \/ In l outputs -> known names lines l) /\
  forall i j l, label_at (given partials) i j = Some l -> (i < length outputs)%nat /\ (j < length inputs)%nat /\ known names lines l.
Proof. exact load_iff. Qed.
Print Assumptions C115_csv_succeeds.
Theorem C115_csv_contents : forall names lines, (2 <= length names)%nat -> forall inputs outputs partials X Y J,
  load_csv (File names lines) (Some inputs) (Some outputs) partials = Got (X, Y, J) ->
  Forall2 (is_column names lines) inputs X /\ Forall2 (is_column names lines) outputs Y /\
  match J with
  | None => given partials = []
  | Some T => given partials <> [] /\ length T = length outputs /\ (forall row, In row T -> length row = length inputs) /\
      (forall i j l, label_at (given partials) i j = Some l -> exists v, entry T i j = Some v /\ is_column names lines l v) /\
      (forall i j, label_at (given partials) i j = None -> (i < length outputs)%nat -> (j < length inputs)%nat -> entry T i j = Some (repeat 0 (length lines)))
  end.
Proof. exact (fun names lines HN inputs outputs partials X Y J E => proj2 (proj2 (proj2 (load_ok names lines HN inputs outputs partials X Y J E)))). Qed.
Print Assumptions C115_csv_contents.
Example C115_nonvacuous_csv : load_csv (File e_names e_lines) (Some ["x"]%string) (Some ["y"; "x"]%string) (Some [["dy"]]%string) = Got ([[1; 4]], [[2; 5]; [1; 4]], Some [[[3; 6]]; [[0; 0]]]).
Proof. exact e_load. Qed.
