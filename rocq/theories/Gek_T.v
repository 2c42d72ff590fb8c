(** Theorems C102. *)
From Coq Require Import Reals Arith ZArith Bool List Lia Lra.
From Verif Require Import RSum Mat Tri_M Kernels_M Krg_M Krg_S Krg_Qr Gek_M Gek_S Gek_P Gek_P2.
Import ListNotations.
Open Scope list_scope.
Open Scope R_scope.

(** C102. GEKPLS fits one PLS model per training point, on points within one step of it whose outputs are the
    first-order Taylor values, the point itself first ... *)
Theorem C102_local_data : forall bb dim delta_x lower upper X y pts, bb_contract bb -> (2 <= dim)%nat -> forall i,
  (exists x l, local bb dim delta_x lower upper X y pts i = (x, y i) :: l /\ forall j, x j = X i j) /\
  (forall x v, In (x, v) (local bb dim delta_x lower upper X y pts i) -> v = taylor dim (X i) (y i) (fun j => grad pts j i) x /\
     forall j, (j < dim)%nat -> Rabs (x j - X i j) <= Rabs (delta_x * (upper j - lower j))).
Proof.
  intros bb dim delta_x lower upper X y pts HB D i. split; [exact (local_centre bb dim delta_x lower upper X y pts i HB D)|].
  intros x v H. split; [exact (local_taylor bb dim delta_x lower upper X y pts i x v H D)|]. intros j Hj. exact (local_box bb dim delta_x lower upper X y pts i x v j HB D Hj H).
Qed.
Print Assumptions C102_local_data.
(** ... the kernel uses the mean of the absolute values of their coefficients ... *)
Theorem C102_coefficients_nonnegative : forall bb pls dim nt n_comp delta_x lower upper X y pts j l,
  0 <= coeff_pls bb pls dim nt n_comp delta_x lower upper X y pts j l /\
  coeff_pls bb pls dim nt n_comp delta_x lower upper X y pts j l =
    rsum nt (fun i => Rabs (pls dim n_comp (local bb dim delta_x lower upper X y pts i) j l)) / INR nt.
Proof. intros. split; [apply cpls_nonneg|reflexivity]. Qed.
Print Assumptions C102_coefficients_nonnegative.
(** ... the given points keep their places in the training set; each is followed, at the end, by extra_points
    points moved by one step in as many different inputs, those with the largest first coefficient, and with
    the first-order Taylor output ... *)
Theorem C102_extra_points : forall bb pls argsort dim nt n_comp delta_x lower upper X y pts, argsort_contract argsort ->
  forall extra st rows Xa ya co, snd (prepare bb pls argsort dim nt n_comp delta_x lower upper X y pts extra st) = Ready rows Xa ya co -> (0 <= extra <= Z.of_nat dim)%Z ->
  rows = (nt * (1 + Z.to_nat extra))%nat /\ co = coeff_pls bb pls dim nt n_comp delta_x lower upper X y pts /\
  (forall i, (i < nt)%nat -> Xa i = X i /\ ya i = y i) /\
  exists sel : nat -> nat -> nat, forall i, (i < nt)%nat ->
    (forall r, (r < Z.to_nat extra)%nat -> (sel i r < dim)%nat /\
       moved (X i) (sel i r) (delta_x * (upper (sel i r) - lower (sel i r))) (Xa (nt + i * Z.to_nat extra + r)%nat) /\
       ya (nt + i * Z.to_nat extra + r)%nat = taylor dim (X i) (y i) (fun j => grad pts j i) (Xa (nt + i * Z.to_nat extra + r)%nat)) /\
    (forall r r', (r < Z.to_nat extra)%nat -> (r' < Z.to_nat extra)%nat -> sel i r = sel i r' -> r = r') /\
    (forall r k, (r < Z.to_nat extra)%nat -> (k < dim)%nat -> (forall r', (r' < Z.to_nat extra)%nat -> sel i r' <> k) ->
       Rabs (coeff_at bb pls dim n_comp delta_x lower upper X y pts i k 0%nat) <= Rabs (coeff_at bb pls dim n_comp delta_x lower upper X y pts i (sel i r) 0%nat)).
Proof. exact t_table. Qed.
Print Assumptions C102_extra_points.
(** ... so for an affine function with its exact derivatives all outputs, of the extra points too, are exact ... *)
Theorem C102_affine_exact : forall bb pls argsort dim nt n_comp delta_x lower upper X y pts, argsort_contract argsort ->
  forall extra st rows Xa ya co (b : R) (a : vec), snd (prepare bb pls argsort dim nt n_comp delta_x lower upper X y pts extra st) = Ready rows Xa ya co -> (0 <= extra <= Z.of_nat dim)%Z ->
  (forall i, (i < nt)%nat -> y i = b + rsum dim (fun j => a j * X i j)) -> (forall i j, (i < nt)%nat -> (j < dim)%nat -> grad pts j i = a j) ->
  forall q, (q < rows)%nat -> ya q = b + rsum dim (fun j => a j * Xa q j).
Proof. exact t_affine_exact. Qed.
Print Assumptions C102_affine_exact.
(** ... without nugget and noise the trained model returns the given outputs at the given points, and its
    difference quotient over one step in each of the extra_points inputs chosen is the given derivative ... *)
Theorem C102_reproduces_derivatives : forall bb pls argsort dim nt n_comp delta_x lower upper X y pts, argsort_contract argsort ->
  forall qr rcond condF, qr_contract qr -> rcond_contract rcond -> forall po c theta nugget noise extra m,
  gek_train bb pls argsort dim nt n_comp delta_x lower upper X y pts qr rcond condF po c theta nugget noise extra = Some m ->
  (0 <= extra <= Z.of_nat dim)%Z -> (forall a, nugget + noise a = 0) -> exists sel : nat -> nat -> nat, forall i, (i < nt)%nat -> predict_value m (X i) = y i /\
    (forall r r', (r < Z.to_nat extra)%nat -> (r' < Z.to_nat extra)%nat -> sel i r = sel i r' -> r = r') /\
    (forall r, (r < Z.to_nat extra)%nat -> (sel i r < dim)%nat /\ exists x, moved (X i) (sel i r) (delta_x * (upper (sel i r) - lower (sel i r))) x /\
      predict_value m x - predict_value m (X i) = grad pts (sel i r) i * (delta_x * (upper (sel i r) - lower (sel i r)))).
Proof. exact t_reproduces. Qed.
Print Assumptions C102_reproduces_derivatives.
(** ... the prediction is the best linear unbiased prediction from the extended set, for the kernel whose
    hyperparameter of input j is the sum over the components of theta_l times the squared (absolute, for the
    absolute exponential) mean coefficient ... *)
Theorem C102_predictor : forall bb pls argsort dim nt n_comp delta_x lower upper X y pts qr rcond condF po c theta nugget noise extra m,
  qr_contract qr -> rcond_contract rcond -> c = AbsExp \/ c = SquarExp ->
  gek_train bb pls argsort dim nt n_comp delta_x lower upper X y pts qr rcond condF po c theta nugget noise extra = Some m ->
  exists rows Xa ya co, snd (prepare bb pls argsort dim nt n_comp delta_x lower upper X y pts extra (Z.of_nat nt)) = Ready rows Xa ya co /\
  forall x, exists w, q_blup dim rows po (KStd c (fun j => rsum n_comp (fun l => theta l * (match c with SquarExp => co j l ^ 2 | _ => Rabs (co j l) end)))) nugget noise Xa x w /\
    predict_value m x = dot rows w ya.
Proof. exact t_predictor. Qed.
Print Assumptions C102_predictor.
(** ... with a constant trend it trains when the points are further apart than the step ... *)
Theorem C102_trains : forall bb pls argsort dim nt n_comp delta_x lower upper X y pts, argsort_contract argsort ->
  forall c theta nugget noise extra, (2 <= dim)%nat -> (0 < nt)%nat -> (2 <= nt * (1 + Z.to_nat extra))%nat -> all_given dim pts -> (0 <= extra <= Z.of_nat dim)%Z ->
  c = AbsExp \/ c = SquarExp -> (forall l, (l < n_comp)%nat -> 0 < theta l) -> (forall a, 0 <= nugget + noise a) ->
  (forall j, (j < dim)%nat -> delta_x * (upper j - lower j) <> 0) ->
  (forall i i', (i < nt)%nat -> (i' < nt)%nat -> i <> i' -> exists j, (j < dim)%nat /\ Rabs (delta_x * (upper j - lower j)) < Rabs (X i j - X i' j)) ->
  (forall j, (j < dim)%nat -> exists i l, (i < nt)%nat /\ (l < n_comp)%nat /\ coeff_at bb pls dim n_comp delta_x lower upper X y pts i j l <> 0) ->
  exists m, gek_train bb pls argsort dim nt n_comp delta_x lower upper X y pts gs_qr rcond01 cond0 PConstant c theta nugget noise extra = Some m.
Proof. exact t_trains. Qed.
Print Assumptions C102_trains.
(** ... the number of rows is only consistent when extra_points is 0, or at most the number of inputs and
    train() is called for the first time since the training values were set (also read: a second train() with
    extra_points > 0 fails) ... *)
Theorem C102_calls : forall bb pls argsort dim nt n_comp delta_x lower upper X y pts, argsort_contract argsort ->
  forall extra k j, (0 < nt)%nat -> all_given dim pts -> (2 <= dim)%nat -> (0 <= extra)%Z -> (j < k)%nat ->
  is_ready (nth j (prepares bb pls argsort dim nt n_comp delta_x lower upper X y pts extra (Z.of_nat nt) k) KeyError) <-> (extra = 0)%Z \/ (extra <= Z.of_nat dim)%Z /\ j = 0%nat.
Proof. exact t_calls. Qed.
Print Assumptions C102_calls.
Theorem C102_negative_extra_points : forall bb pls argsort dim nt n_comp delta_x lower upper X y pts, argsort_contract argsort ->
  forall extra, (0 < nt)%nat -> all_given dim pts -> (2 <= dim)%nat -> (extra < 0)%Z ->
  snd (prepare bb pls argsort dim nt n_comp delta_x lower upper X y pts extra (Z.of_nat nt)) = RowsMismatch.
Proof. exact t_negative. Qed.
Print Assumptions C102_negative_extra_points.
(** ... a derivative that was not given is a KeyError, before the check with the readable message is reached;
    one input is an IndexError ... *)
Theorem C102_missing_derivative : forall bb pls argsort dim nt n_comp delta_x lower upper X y pts extra st, ~ all_given dim pts ->
  prepare bb pls argsort dim nt n_comp delta_x lower upper X y pts extra st = (st, KeyError).
Proof. exact t_missing. Qed.
Print Assumptions C102_missing_derivative.
Theorem C102_one_input : forall bb pls argsort dim nt n_comp delta_x lower upper X y pts extra st, all_given dim pts -> (dim <= 1)%nat ->
  prepare bb pls argsort dim nt n_comp delta_x lower upper X y pts extra st = (st, IndexError).
Proof. exact t_one_input. Qed.
Print Assumptions C102_one_input.
(** ... and the points given together with the derivatives are never read: the derivatives are taken to be
    at the training points, in their order. *)
Theorem C102_positions_not_read : forall bb pls argsort dim nt n_comp delta_x lower upper X y p q extra st,
  (forall j, match p j, q j with Some (_, v), Some (_, w) => v = w | None, None => True | _, _ => False end) ->
  prepare bb pls argsort dim nt n_comp delta_x lower upper X y p extra st = prepare bb pls argsort dim nt n_comp delta_x lower upper X y q extra st.
Proof. exact t_positions. Qed.
Print Assumptions C102_positions_not_read.
(** two points in two inputs, one extra point each *)
Example C102_nonvacuous : argsort_contract isort /\ bb_contract bb3 /\ qr_contract gs_qr /\ rcond_contract rcond01 /\
  exists m, gek_train bb3 (fun _ _ _ _ _ => 1) isort 2 2 1 (1 / 10) (fun _ => 0) (fun _ => 1) (fun i _ => INR i) (fun i => INR i)
    (fun _ => Some ((fun i _ => INR i), (fun _ => 1))) gs_qr rcond01 cond0 PConstant SquarExp (fun _ => 1) 0 (fun _ => 0) 1 = Some m.
Proof.
  split; [exact isort_contract|]. split; [exact bb3_contract|]. split; [exact gs_contract|]. split; [exact rcond01_contract|].
  apply t_trains.
  - exact isort_contract.
  - lia.
  - lia.
  - cbn. lia.
  - intros j _. discriminate.
  - cbn. lia.
  - right. reflexivity.
  - intros; lra.
  - intros; lra.
  - intros; lra.
  - intros i i' Hi Hi' N. exists 0%nat. split; [lia|]. assert (W : Rabs (1 / 10 * (1 - 0)) < 1) by (rewrite Rabs_pos_eq; lra). eapply Rlt_le_trans; [exact W|].
    destruct i as [|[|i]], i' as [|[|i']]; try lia; cbn [INR]; [rewrite Rabs_left; lra|rewrite Rabs_pos_eq; lra].
  - intros j Hj. exists 0%nat, 0%nat. split; [lia|]. split; [lia|]. unfold coeff_at. lra.
Qed.
