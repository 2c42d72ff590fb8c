(** Properties C08-C11, C67, C68: mixed-integer and categorical encodings. *)
From Coq Require Import String ZArith QArith Bool Arith List Lia.
From Verif Require Import MixInt_M MixInt_S MixInt_P.
Import ListNotations.
Open Scope list_scope.
Open Scope nat_scope.

(** C08. The consistency check accepts exactly the specifications whose limits fit their types. *)
Theorem C08_check_iff : forall ts ls, check_xspec ts ls = true <-> Forall2 limits_fit ts ls.
Proof. exact check_iff. Qed.
Print Assumptions C08_check_iff.

(** C08. For an accepted specification the relaxed bounds are, variable by variable and in
    order, its own two numbers or one [0,1] row per level (and nothing else is returned). *)
Theorem C08_unfolded_limits : forall ts ls lims, check_xspec ts ls = true ->
  (unfold_xlimits ts ls = Ok lims <-> exists rss, Forall3 relaxed ts ls rss /\ lims = concat rss).
Proof. exact unfold_limits_iff. Qed.
Print Assumptions C08_unfolded_limits.

(** C08. The advertised dimension is the number of relaxed bounds. *)
Theorem C08_unfolded_dimension : forall ts ls lims, check_xspec ts ls = true ->
  unfold_xlimits ts ls = Ok lims -> compute_unfolded_dimension ts = Ok (length lims).
Proof. exact unfold_dim. Qed.
Print Assumptions C08_unfolded_dimension.

(** C09. A folded point and a relaxed point denoting the same values are converted into one
    another by unfolding and folding. *)
Theorem C09_fold_unfold : forall ts v bs, Forall good_type ts -> Forall3 same_value ts v bs ->
  unfold_row ts v = Ok (concat bs) /\ fold_row ts (concat bs) = Ok v.
Proof. exact fold_unfold. Qed.
Print Assumptions C09_fold_unfold.

(** C09. Round trip from any point with valid enum indexes. *)
Theorem C09_roundtrip_folded : forall ts v, Forall good_type ts ->
  Forall2 (fun t a => match t with ENUM n => exists i, i < n /\ a = inject_Z (Z.of_nat i) | _ => True end) ts v ->
  exists x, unfold_row ts v = Ok x /\ fold_row ts x = Ok v.
Proof. exact roundtrip_folded. Qed.
Print Assumptions C09_roundtrip_folded.

(** C09. Round trip from any relaxed point with one-hot enum blocks. *)
Theorem C09_roundtrip_unfolded : forall ts bs, Forall good_type ts -> blocks ts bs ->
  Forall2 (fun t b => match t with ENUM _ => exists i, hot b i | _ => True end) ts bs ->
  exists v, fold_row ts (concat bs) = Ok v /\ unfold_row ts v = Ok (concat bs).
Proof. exact roundtrip_unfolded. Qed.
Print Assumptions C09_roundtrip_unfolded.

(** C09. Any folded row: an index is truncated and a negative one counts from the end; a row in which some index names no level is refused. *)
Theorem C09_every_row : forall ts v, Forall good_type ts -> length v = length ts ->
  (forall bs, Forall3 names_level ts v bs -> unfold_row ts v = Ok (concat bs)) /\
  ((exists i t a, nth_error ts i = Some t /\ nth_error v i = Some a /\ no_level t a) -> unfold_row ts v = IndexError) /\
  ((exists bs, Forall3 names_level ts v bs) \/ exists i t a, nth_error ts i = Some t /\ nth_error v i = Some a /\ no_level t a).
Proof.
  intros ts v G L. split; [intros bs; exact (unfold_names ts v bs G)|]. split; [exact (unfold_no_level ts v G L)|exact (every_row ts v G L)].
Qed.
Print Assumptions C09_every_row.
Example C09_every_row_nonvacuous : unfold_row [INT; ENUM 3] [2 # 1; -1 # 1]%Q = Ok [2 # 1; 0; 0; 1]%Q /\ unfold_row [ENUM 3] [-4 # 1]%Q = IndexError /\ unfold_row [ENUM 3] [3 # 1]%Q = IndexError.
Proof. split; [reflexivity|]. split; reflexivity. Qed.
Print Assumptions C09_every_row_nonvacuous.

(** C10. The projection of any relaxed row, block by block. *)
Theorem C10_projection : forall ts bs, Forall good_type ts -> blocks ts bs ->
  exists bs', cast_row ts (concat bs) = Ok (concat bs') /\ Forall3 projected ts bs bs'.
Proof. exact cast_projects. Qed.
Print Assumptions C10_projection.

(** C10. Idempotence, for every row on which the projection does not raise. *)
Theorem C10_idempotent : forall ts x y, cast_row ts x = Ok y -> cast_row ts y = Ok y.
Proof. exact cast_idem. Qed.
Print Assumptions C10_idempotent.

(** C10. Folding any relaxed row gives for each enum the first index of a maximal coordinate. *)
Theorem C10_fold_index : forall ts bs, Forall good_type ts -> blocks ts bs ->
  exists v, fold_row ts (concat bs) = Ok v /\
    Forall3 (fun t b a => match t with
       | ENUM n => exists i, i < n /\ a = inject_Z (Z.of_nat i) /\ maximal b i /\
                     forall j, j < i -> (nth j b 0 < nth i b 0)%Q
       | _ => b = [a] end) ts bs v.
Proof. exact fold_maximal. Qed.
Print Assumptions C10_fold_index.

(** C10. Exactly one level is selected if and only if the maximum of the block is unique. *)
Theorem C10_single_level_iff : forall b b' n, projected (ENUM n) b b' -> length b = n ->
  ((exists i, hot b' i) <-> (forall i j, i < n -> j < n -> maximal b i -> maximal b j -> i = j)).
Proof. exact unique_iff. Qed.
Print Assumptions C10_single_level_iff.

(** C10. On ties several levels are selected. *)
Theorem C10_ties_refuted : exists x y, cast_row [ENUM 2] x = Ok y /\ y = [1%Q; 1%Q] /\ ~ exists i, hot y i.
Proof. exact ties. Qed.
Print Assumptions C10_ties_refuted.

(** C11. With integer bounds for integer variables the projection stays inside the relaxed bounds. *)
Theorem C11_projection_in_bounds : forall ts ls lims x, Forall good_type ts -> check_xspec ts ls = true ->
  Forall2 int_bounds ts ls -> unfold_xlimits ts ls = Ok lims -> Forall2 in_bounds lims x ->
  exists y, cast_row ts x = Ok y /\ Forall2 in_bounds lims y.
Proof. exact cast_stays. Qed.
Print Assumptions C11_projection_in_bounds.

(** C11. Without integer bounds it may leave them. *)
Theorem C11_noninteger_bounds_refuted : exists ts ls lims x y, check_xspec ts ls = true /\ unfold_xlimits ts ls = Ok lims /\
  Forall2 in_bounds lims x /\ cast_row ts x = Ok y /\ ~ Forall2 in_bounds lims y.
Proof. exact noninteger_bounds. Qed.
Print Assumptions C11_noninteger_bounds_refuted.

(** C67. Whatever the wrapped sampler does inside the relaxed bounds, the mixed-integer sampler
    returns the requested number of rows and every coordinate is legal for its variable. *)
Theorem C67_sampling_legal : forall ts ls lims inner nt, Forall good_type ts -> Forall2 int_bounds ts ls ->
  check_xspec ts ls = true -> unfold_xlimits ts ls = Ok lims ->
  length (inner lims nt) = nt -> Forall (Forall2 in_bounds lims) (inner lims nt) ->
  exists rows, sample ts ls true inner nt = Ok rows /\ length rows = nt /\ Forall (Forall3 legal ts ls) rows.
Proof. exact sample_legal. Qed.
Print Assumptions C67_sampling_legal.

(** C67. Such a row decodes to the user's values: floats and integers inside their bounds, enum
    values among the declared levels. *)
Theorem C67_decoding_legal : forall ts ls v, Forall2 limits_fit ts ls -> Forall3 legal ts ls v ->
  exists m, cast_to_mixed ts ls v = Ok m /\ Forall3 legal_mixed ts ls m.
Proof. exact decode_legal. Qed.
Print Assumptions C67_decoding_legal.

(** C68. The wrapped surrogate is asked at exactly the points it was trained on if and only if the
    integer coordinates of the training points are integers. *)
Theorem C68_train_predict_same_points : forall ts xs, Forall good_type ts ->
  Forall (fun v => Forall2 (fun t a => match t with ENUM n => exists i, i < n /\ a = inject_Z (Z.of_nat i) | _ => True end) ts v) xs ->
  exists us, to_inner_train ts true xs = Ok us /\
   (to_inner_predict ts true xs = Ok us <->
    Forall (fun v => Forall2 (fun t a => match t with INT => a = inject_Z (np_round a) | _ => True end) ts v) xs).
Proof. exact train_predict_same. Qed.
Print Assumptions C68_train_predict_same_points.

(** C68. With a non-integer training coordinate the two differ. *)
Theorem C68_noninteger_training_refuted : exists ts xs us us', Forall good_type ts /\ to_inner_train ts true xs = Ok us /\
  to_inner_predict ts true xs = Ok us' /\ us <> us'.
Proof. exact noninteger_training. Qed.
Print Assumptions C68_noninteger_training_refuted.

(** Non-vacuity: float, integer and enum variables together. *)
Definition ex_ts := [FLOAT; INT; ENUM 3].
Definition ex_ls := [[Num (-1); Num 1]; [Num 0; Num 5]; [Lab "blue"; Lab "red"; Lab "green"]]%string.
Definition ex_lims : list (Q * Q) := [(-1, 1); (0, 5); (0, 1); (0, 1); (0, 1)]%Q.
Example C08_C68_nonvacuous :
  Forall good_type ex_ts /\ check_xspec ex_ts ex_ls = true /\ Forall2 int_bounds ex_ts ex_ls /\
  unfold_xlimits ex_ts ex_ls = Ok ex_lims /\ compute_unfolded_dimension ex_ts = Ok 5 /\
  Forall2 in_bounds ex_lims [1 # 2; 5 # 2; 1 # 5; 4 # 5; 3 # 5]%Q /\
  cast_row ex_ts [1 # 2; 5 # 2; 1 # 5; 4 # 5; 3 # 5]%Q = Ok [1 # 2; 2; 0; 1; 0]%Q /\
  fold_row ex_ts [1 # 2; 2; 0; 1; 0]%Q = Ok [1 # 2; 2; 1]%Q /\
  cast_to_mixed ex_ts ex_ls [1 # 2; 2; 1]%Q = Ok [MFloat (1 # 2); MInt 2; MLevel (Lab "red")]%string /\
  Forall3 same_value ex_ts [1 # 2; 2; 1]%Q [[1 # 2]; [2]; [0; 1; 0]]%Q /\
  sample ex_ts ex_ls true (fun _ _ => [[1 # 2; 5 # 2; 1 # 5; 4 # 5; 3 # 5]%Q]) 1 = Ok [[1 # 2; 2; 1]%Q].
Proof.
  unfold ex_ts, ex_ls, ex_lims.
  split; [repeat constructor|]. split; [reflexivity|].
  split; [repeat constructor; exists 0%Z, 5%Z; reflexivity|].
  split; [reflexivity|]. split; [reflexivity|].
  split; [repeat constructor; cbn; unfold Qle; cbn; lia|].
  split; [reflexivity|]. split; [reflexivity|]. split; [reflexivity|].
  split; [|reflexivity].
  repeat (constructor; [reflexivity|]). constructor; [|constructor].
  split; [reflexivity|]. exists 1. split; [reflexivity|]. split; [cbn; lia|].
  intros j Hj. cbn in Hj. destruct j as [|[|[|j]]]; try reflexivity; lia.
Qed.
