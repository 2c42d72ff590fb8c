(** Properties C05-C07: training data and prediction entry points. *)
From Coq Require Import String ZArith Bool Arith List Lia.
From Verif Require Import Training_M Training_S Training_P Training_P2 Training_P3.
Import ListNotations.
Open Scope list_scope.

(** C05. After any history of API calls and caller-side array writes (derivative indexes
    non-negative, as documented), the stored training data of every group are the contents the
    arrays had at the last successful call for that group and kind. *)
Theorem C05_training_data_by_value : forall (A : Type) (sup_td : bool) ops (s : state A) tr name,
  Forall nonneg_kx ops -> run sup_td init ops = (s, tr) ->
  read s name 0 = values_of (rev tr) name /\
  forall k, (0 <= k)%Z -> read s name (k + 1) = derivs_of (rev tr) name k.
Proof. exact @by_value. Qed.
Print Assumptions C05_training_data_by_value.

(** C05. Updating values succeeds exactly when values were set before for that group with the
    same number of points. *)
Theorem C05_update_values_iff : forall (A : Type) (sup_td : bool) ops (s : state A) tr ly name y,
  Forall nonneg_kx ops -> run sup_td init ops = (s, tr) ->
  content (rev tr) ly = Some y -> rank_ok y ->
  (snd (step sup_td s (UpdateValues ly name)) = Done <->
   exists x0 y0 y2, values_of (rev tr) name = Some (x0, y0) /\ table (rev tr) ly = Some y2 /\ rows x0 = rows y2).
Proof. exact @update_values_iff. Qed.
Print Assumptions C05_update_values_iff.

(** C05. The sizes the model works with are those of the last successful call setting values, whatever the group; updates do not change them. *)
Theorem C05_recorded_sizes : forall (A : Type) (sup_td : bool) ops (s : state A) tr, Forall nonneg_kx ops -> run sup_td init ops = (s, tr) -> dims s = sizes_of (rev tr).
Proof. exact @sizes_run. Qed.
Print Assumptions C05_recorded_sizes.
(** C05. So they can disagree with the stored data: an update with another number of outputs is accepted, and values set for another group
    change the number of points recorded for all. *)
Theorem C05_sizes_disagree_refuted : exists (ops : list (op Z)) s tr x y nt nx ny, Forall nonneg_kx ops /\ run true init ops = (s, tr) /\ values_of (rev tr) None = Some (x, y) /\
  dims s = Some (nt, nx, ny) /\ (rows x <> nt) /\ (cols x <> nx) /\ (cols y <> ny).
Proof.
  set (ops := [NewArr {| shape := [2; 1]; data := [1; 2]%Z |}; NewArr {| shape := [2; 3]; data := [1; 2; 3; 4; 5; 6]%Z |}; SetValues 0 0 None; UpdateValues 1 None;
    NewArr {| shape := [1; 2]; data := [1; 2]%Z |}; SetValues 5 5 (Some "low"%string)]).
  exists ops, (fst (run true init ops)), (snd (run true init ops)), {| shape := [2; 1]; data := [1; 2]%Z |}, {| shape := [2; 3]; data := [1; 2; 3; 4; 5; 6]%Z |}, 1, 2, 2.
  split; [repeat constructor|]. split; [apply surjective_pairing|]. split; [vm_compute; reflexivity|]. split; [vm_compute; reflexivity|]. cbn. split; [discriminate|]. split; discriminate.
Qed.
Print Assumptions C05_sizes_disagree_refuted.

(** C05. A negative derivative index is accepted and silently overwrites the training values. *)
Theorem C05_negative_kx_refuted : exists (ops : list (op Z)) s tr s' v0,
  run true init ops = (s, tr) /\ values_of (rev tr) None = Some v0 /\
  step true s (SetDerivs 0 2 (-1) None) = (s', Done) /\ read s' None 0 <> Some v0.
Proof. exact negative_kx. Qed.
Print Assumptions C05_negative_kx_refuted.

(** C06. Exact success condition of updating the derivative w.r.t. input [kx]: besides the
    derivative itself, the entry *before* it (the values for kx = 0, the derivative kx-1
    otherwise) must be present, and the number of points is compared with that entry. *)
Theorem C06_update_derivative_iff : forall (A : Type) (sup_td : bool) ops (s : state A) tr ly kx name y,
  Forall nonneg_kx ops -> run sup_td init ops = (s, tr) -> sup_td = true -> (0 <= kx)%Z ->
  content (rev tr) ly = Some y -> rank_ok y ->
  (snd (step sup_td s (UpdateDerivs ly kx name)) = Done <->
   exists x0 y0 y2,
     (if Z.eqb kx 0 then values_of (rev tr) name else derivs_of (rev tr) name (kx - 1)) = Some (x0, y0) /\
     table (rev tr) ly = Some y2 /\ rows x0 = rows y2 /\ derivs_of (rev tr) name kx <> None).
Proof. exact @update_derivs_iff. Qed.
Print Assumptions C06_update_derivative_iff.

(** C06. When the previous entry has as many points as the derivative being updated, the update
    does exactly what is documented. *)
Theorem C06_update_derivative_matching : forall (A : Type) (sup_td : bool) ops (s : state A) tr ly kx name y x0 y0 xk yk,
  Forall nonneg_kx ops -> run sup_td init ops = (s, tr) -> sup_td = true -> (0 <= kx)%Z ->
  content (rev tr) ly = Some y -> rank_ok y ->
  derivs_of (rev tr) name kx = Some (xk, yk) -> rows xk = rows (as_table y) ->
  (if Z.eqb kx 0 then values_of (rev tr) name else derivs_of (rev tr) name (kx - 1)) = Some (x0, y0) ->
  rows x0 = rows xk ->
  let '(s', r) := step sup_td s (UpdateDerivs ly kx name) in
  r = Done /\ read s' name (kx + 1) = Some (xk, as_table y) /\
  (forall n k, ~ (n = name /\ k = kx) -> (0 <= k)%Z -> read s' n (k + 1) = read s n (k + 1)) /\
  (forall n, read s' n 0 = read s n 0).
Proof. exact @update_derivs_ok. Qed.
Print Assumptions C06_update_derivative_matching.

(** C06. Whatever the sizes, a successful update replaces the outputs of that derivative only and keeps its points; a failed one
    changes nothing. *)
Theorem C06_update_derivative_effect : forall (A : Type) (sup_td : bool) ops (s : state A) tr ly kx name y s' r,
  Forall nonneg_kx ops -> run sup_td init ops = (s, tr) -> sup_td = true -> (0 <= kx)%Z ->
  content (rev tr) ly = Some y -> rank_ok y -> step sup_td s (UpdateDerivs ly kx name) = (s', r) ->
  (r = Done -> exists xk yk, derivs_of (rev tr) name kx = Some (xk, yk) /\ read s' name (kx + 1) = Some (xk, as_table y) /\
    (forall n k, ~ (n = name /\ k = kx) -> (0 <= k)%Z -> read s' n (k + 1) = read s n (k + 1)) /\ (forall n, read s' n 0 = read s n 0)) /\
  (r <> Done -> s' = s).
Proof. exact @update_derivs_effect. Qed.
Print Assumptions C06_update_derivative_effect.

(** C06 is false in general: the derivative w.r.t. input 1 was set with two points, yet updating
    it with two points is rejected (derivative 0 was never set). *)
Theorem C06_update_derivative_refuted : exists s tr y xk yk,
  run true init hist_missing = (s, tr) /\ content (rev tr) 1 = Some y /\
  derivs_of (rev tr) None 1 = Some (xk, yk) /\ rows xk = rows (as_table y) /\
  snd (step true s (UpdateDerivs 1 1 None)) = EValue.
Proof. exact upd_der_missing. Qed.
Print Assumptions C06_update_derivative_refuted.

(** C06. ... and an update with the wrong number of points is accepted, leaving derivative data
    with more outputs than inputs. *)
Theorem C06_wrong_size_accepted_refuted : exists s tr s' x y,
  run true init hist_sizes = (s, tr) /\ step true s (UpdateDerivs 1 1 None) = (s', Done) /\
  read s' None 2 = Some (x, y) /\ rows x <> rows y.
Proof. exact upd_der_sizes. Qed.
Print Assumptions C06_wrong_size_accepted_refuted.

(** C07. Value prediction: caller's arrays untouched whatever the predictor does, shape and
    validation as documented. *)
Theorem C07_predict_values : forall (A : Type) (h : nat -> option (arr A)) l nx ny pred a,
  h l = Some a ->
  fst (predict_values h l nx ny pred) = h /\
  (~ rank_ok a -> snd (predict_values h l nx ny pred) = PErr EValue) /\
  (rank_ok a -> cols (as_table a) <> nx -> snd (predict_values h l nx ny pred) = PErr EValue) /\
  (rank_ok a -> cols (as_table a) = nx -> rows (as_table a) <> 0 ->
     length (snd (pred (as_table a))) = rows (as_table a) * ny ->
     snd (predict_values h l nx ny pred) = POk {| shape := [rows (as_table a); ny]; data := snd (pred (as_table a)) |}) /\
  (forall y, snd (predict_values h l nx ny pred) = POk y -> shape y = [rows (as_table a); ny] /\ data y = snd (pred (as_table a))).
Proof. exact @predict_values_spec. Qed.
Print Assumptions C07_predict_values.

(** C07. Variance prediction. *)
Theorem C07_predict_variances : forall (A : Type) (h : nat -> option (arr A)) l nx ny pred a sup,
  h l = Some a ->
  fst (predict_variances sup h l nx ny pred) = h /\
  (sup = false -> snd (predict_variances sup h l nx ny pred) = PErr ENotImpl) /\
  (sup = true -> ~ rank_ok a \/ cols (as_table a) <> nx -> snd (predict_variances sup h l nx ny pred) = PErr EValue) /\
  (sup = true -> rank_ok a -> cols (as_table a) = nx ->
     length (snd (pred (as_table a))) = rows (as_table a) * ny ->
     snd (predict_variances sup h l nx ny pred) = POk {| shape := [rows (as_table a); ny]; data := snd (pred (as_table a)) |}).
Proof. exact @predict_variances_spec. Qed.
Print Assumptions C07_predict_variances.

(** C07. Exact results of value and variance prediction, for every predictor and an empty query. *)
Theorem C07_predict_values_exact : forall (A : Type) (h : nat -> option (arr A)) l nx ny pred a, h l = Some a -> rank_ok a -> cols (as_table a) = nx ->
  predict_values h l nx ny pred = (h, if Nat.eqb (rows (as_table a)) 0 then PErr EZero else if Nat.eqb (length (snd (pred (as_table a)))) (rows (as_table a) * ny) then POk {| shape := [rows (as_table a); ny]; data := snd (pred (as_table a)) |} else PErr EValue).
Proof. exact @predict_values_exact. Qed.
Print Assumptions C07_predict_values_exact.
Theorem C07_predict_variances_exact : forall (A : Type) (h : nat -> option (arr A)) l nx ny pred a, h l = Some a -> rank_ok a -> cols (as_table a) = nx ->
  predict_variances true h l nx ny pred = (h, if Nat.eqb (length (snd (pred (as_table a)))) (rows (as_table a) * ny) then POk {| shape := [rows (as_table a); ny]; data := snd (pred (as_table a)) |} else PErr EValue).
Proof. exact @predict_variances_exact. Qed.
Print Assumptions C07_predict_variances_exact.

(** C07. Derivative prediction validates likewise, but hands the caller's own array to the model-specific predictor: afterwards the
    array holds exactly what the predictor left in it, so it is unchanged exactly if the predictor leaves it alone. *)
Theorem C07_predict_derivatives : forall (A : Type) (h : nat -> option (arr A)) l nx ny pred a sup,
  h l = Some a ->
  (sup = false -> predict_derivatives sup h l nx ny pred = (h, PErr ENotImpl)) /\
  (sup = true -> ~ rank_ok a \/ cols (as_table a) <> nx -> predict_derivatives sup h l nx ny pred = (h, PErr EValue)) /\
  (sup = true -> rank_ok a -> cols (as_table a) = nx ->
     let '(h', res) := predict_derivatives sup h l nx ny pred in let '(left_in_x, y) := pred (as_table a) in
     res = (if Nat.eqb (rows (as_table a)) 0 then PErr EZero else if Nat.eqb (length y) (rows (as_table a) * ny) then POk {| shape := [rows (as_table a); ny]; data := y |} else PErr EValue) /\
     (forall m, m <> l -> h' m = h m) /\ h' l = Some {| shape := shape a; data := data left_in_x |} /\ (h' l = h l <-> data left_in_x = data a)).
Proof. exact @predict_derivs_exact. Qed.
Print Assumptions C07_predict_derivatives.

(** C07. Output derivatives: likewise; the predictor's result is returned as it is, whatever its shape. *)
Theorem C07_predict_output_derivatives : forall (A B : Type) (h : nat -> option (arr A)) l nx (pred : arr A -> arr A * B) a sup,
  h l = Some a ->
  (sup = false -> predict_output_derivatives sup h l nx pred = (h, inr ENotImpl)) /\
  (sup = true -> ~ rank_ok a \/ cols (as_table a) <> nx -> predict_output_derivatives sup h l nx pred = (h, inr EValue)) /\
  (sup = true -> rank_ok a -> cols (as_table a) = nx ->
     let '(h', res) := predict_output_derivatives sup h l nx pred in let '(left_in_x, y) := pred (as_table a) in
     res = inl y /\ (forall m, m <> l -> h' m = h m) /\ h' l = Some {| shape := shape a; data := data left_in_x |} /\ (h' l = h l <-> data left_in_x = data a)).
Proof. exact @predict_output_exact. Qed.
Print Assumptions C07_predict_output_derivatives.

(** C07. Variance derivatives: likewise, except that a bad rank is reported before a missing capability. *)
Theorem C07_predict_variance_derivatives : forall (A B : Type) (h : nat -> option (arr A)) l nx (pred : arr A -> arr A * B) a sup,
  h l = Some a ->
  (~ rank_ok a -> predict_variance_derivatives sup h l nx pred = (h, inr EValue)) /\
  (rank_ok a -> sup = false -> predict_variance_derivatives sup h l nx pred = (h, inr ENotImpl)) /\
  (rank_ok a -> sup = true -> cols (as_table a) <> nx -> predict_variance_derivatives sup h l nx pred = (h, inr EValue)) /\
  (sup = true -> rank_ok a -> cols (as_table a) = nx ->
     let '(h', res) := predict_variance_derivatives sup h l nx pred in let '(left_in_x, y) := pred (as_table a) in
     res = (if Nat.eqb (rows (as_table a)) 0 then inr EZero else inl y) /\ (forall m, m <> l -> h' m = h m) /\ h' l = Some {| shape := shape a; data := data left_in_x |} /\ (h' l = h l <-> data left_in_x = data a)).
Proof. exact @predict_vderivs_exact. Qed.
Print Assumptions C07_predict_variance_derivatives.

(** C07. Unlike value prediction, derivative prediction does not protect the caller. *)
Theorem C07_predict_derivatives_no_copy_refuted : exists (h : nat -> option (arr Z)) l nx ny pred,
  fst (predict_values h l nx ny pred) l = h l /\ fst (predict_derivatives true h l nx ny pred) l <> h l.
Proof. exact no_copy. Qed.
Print Assumptions C07_predict_derivatives_no_copy_refuted.

(** Non-vacuity: a history with two groups of derivative data followed by caller-side writes
    meets the hypotheses of C05 and of the positive C06 theorem, and by-value really matters
    there (the caller's arrays differ from the stored data at the end). *)
Example C05_C06_nonvacuous : exists s tr y x0 y0 xk yk,
  Forall nonneg_kx hist_good /\ run true init hist_good = (s, tr) /\
  content (rev tr) 1 = Some y /\ rank_ok y /\ (0 <= 1)%Z /\
  derivs_of (rev tr) None 1 = Some (xk, yk) /\ rows xk = rows (as_table y) /\
  derivs_of (rev tr) None (1 - 1) = Some (x0, y0) /\ rows x0 = rows xk /\ data y <> data yk.
Proof.
  do 7 eexists. split; [repeat (constructor; [cbn; try exact I; lia|]); constructor|].
  split; [vm_compute; reflexivity|]. split; [vm_compute; reflexivity|].
  split; [unfold rank_ok; cbn; lia|]. split; [lia|].
  do 4 (split; [vm_compute; reflexivity|]). vm_compute; discriminate.
Qed.
Example C07_nonvacuous :
  let a := {| shape := [3]; data := [1; 2; 3]%Z |} in
  rank_ok a /\ cols (as_table a) = 1 /\ rows (as_table a) = 3 /\
  snd (predict_values (fun _ => Some a) 0 1 1 (fun x => ({| shape := []; data := [] |}, data x)))
    = POk {| shape := [3; 1]; data := [1; 2; 3]%Z |}.
Proof. cbn. unfold rank_ok; cbn. repeat split; lia. Qed.
