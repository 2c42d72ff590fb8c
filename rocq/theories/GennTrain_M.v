(** Model of the training of GENN: smt/utils/neural_net/data.py random_mini_batches (86-138) and normalize_data (141-198), model.py initialize_parameters (26-58), initialize (123-134),
    load_parameters (136-144), train (146-236), training_data (98-102), _load_training_data (328-359), smt/surrogate_models/genn.py load_smt_data (18-50), smt_to_genn (53-107), _train (162-209), goodness_of_fit (234-255).
    Simplifications: real arithmetic (a constant input, whose standard deviation is 0, divides by 0 = 0 instead of giving NaN); floor(m / size) is integer division; printing is left out;
    the random generator is an arbitrary state machine; every reseeding without a seed (np.random.seed(None)) sets an arbitrary new state. *)
From Coq Require Import Reals ZArith Arith Bool List.
From Verif Require Import RSum Genn_M GennOpt_M.
Import ListNotations.
Open Scope list_scope.
Open Scope R_scope.
(** * data.py *)
(** a set of examples; the Jacobian may be missing *)
Record batch := { b_size : nat; b_X : arr; b_Y : arr; b_J : option arr3 }.
(** data.py 100-109: columns in the order of the permutation *)
Definition take_cols (perm : list nat) (A : arr) : arr := fun i e => A i (nth e perm 0%nat).
Definition take_cols3 (perm : list nat) (A : arr3) : arr3 := fun j i e => A j i (nth e perm 0%nat).
(** A[:, a:] *)
Definition from_col (a : nat) (A : arr) : arr := fun i e => A i (a + e)%nat.
Definition from_col3 (a : nat) (A : arr3) : arr3 := fun j i e => A j i (a + e)%nat.
Definition columns (a n : nat) (X Y : arr) (J : option arr3) : batch := {| b_size := n; b_X := from_col a X; b_Y := from_col a Y; b_J := option_map (from_col3 a) J |}.
(** data.py 97-138 after the permutation was drawn.  Raise: ZeroDivisionError, or UnboundLocalError for k *)
Definition mini_batches (perm : list nat) (m : nat) (X Y : arr) (J : option arr3) (mini_batch_size : Z) : res (list batch) :=
  let X := take_cols perm X in let Y := take_cols perm Y in let J := option_map (take_cols3 perm) J in
  let size := Z.min mini_batch_size (Z.of_nat m) in
  if Z.eqb size 0 then Raise
  else let num := Z.to_nat (Z.of_nat m / size) in   (* range(0, n) is empty for n <= 0 *)
       let sz := Z.to_nat size in
       let complete := map (fun k => columns (k * sz) sz X Y J) (seq 0 num) in
       if Z.eqb (Z.of_nat m mod size) 0 then Ret complete
       else if Nat.eqb num 0 then Raise
       else let k := (num - 1)%nat in Ret (complete ++ [columns ((k + 1) * sz) (m - (k + 1) * sz) X Y J]).
(** data.py 164-198 *)
Definition mean (m : nat) (a : vec) : R := rsum m a / INR m.
Definition std (m : nat) (a : vec) : R := sqrt (rsum m (fun e => (a e - mean m a) ^ 2) / INR m).
Definition scale_of (m : nat) (X Y : arr) : scaling := {| mu_x := fun i => mean m (X i); sigma_x := fun i => std m (X i); mu_y := fun k => mean m (Y k); sigma_y := fun k => std m (Y k) |}.
Definition normed_y (s : scaling) (Y : arr) : arr := fun k e => (Y k e - mu_y s k) / sigma_y s k.
Definition normed_j (s : scaling) (J : arr3) : arr3 := fun j k e => J j k e * sigma_x s j / sigma_y s k.
Definition normalize_data (m : nat) (X Y : arr) (J : option arr3) : arr * arr * option arr3 * scaling :=
  let s := scale_of m X Y in (normed s X, normed_y s Y, option_map (normed_j s) J, s).

(** * the parameters dictionary *)
Inductive key := W (l i q : nat) | B (l i : nat).
Notation params := (key -> R).
(** model.py 123-134: the layers of a network; hidden layers are Tanh, the last one Linear *)
Fixpoint layers_from (l : nat) (dims : list nat) (p : params) : list layer :=
  match dims with
  | [] => []
  | ni :: rest => match rest with
    | [] => []
    | no :: more => {| n_out := no; n_in := ni; weight := fun i q => p (W l i q); bias := fun i => p (B l i); act := match more with [] => Linear | _ => Tanh end |} :: layers_from (S l) rest p
    end
  end.
Definition layers (dims : list nat) (p : params) : list layer := layers_from 1 dims p.
Definition dims_of (nx ny deep wide : nat) : list nat := [nx] ++ repeat wide deep ++ [ny].
(** the gradients dictionary dW1, db1, .. renamed to the parameters' keys (model.py 405-416) *)
Definition grads_params (gs : list grads) : params := fun k =>
  match k with
  | W l i q => match nth_error gs (l - 1) with Some g => dW g i q | None => 0 end
  | B l i => match nth_error gs (l - 1) with Some g => db g i | None => 0 end
  end.
(** the cost and gradient functions given to the optimiser, model.py 207-219 *)
Definition batch_cost (dims : list nat) (nx ny : nat) (b : batch) (lambd gamma : R) (p : params) : option R := cost (layers dims p) ny nx (b_size b) (b_X b) (b_Y b) (b_J b) lambd gamma.
Definition batch_grad (dims : list nat) (nx : nat) (b : batch) (lambd gamma : R) (p : params) : option params := option_map grads_params (grad (layers dims p) nx (b_size b) (b_X b) (b_Y b) (b_J b) lambd gamma).

Record goptions := { o_alpha : R; o_beta1 : R; o_beta2 : R; o_lambd : R; o_gamma : R; o_deep : nat; o_wide : nat; o_batch : Z; o_iterations : nat; o_epochs : nat; o_seed : option Z }.
(** numpy tables and the training_points[None] dictionary of SMT: 0 for values, 1 + kx for derivatives *)
Record table := { t_rows : nat; t_cols : nat; t_val : nat -> nat -> R }.
Notation points := (nat -> option (table * table)).

Section Training.
Variable rng : Type.
Variable seeded : Z -> rng.                                 (* np.random.seed(seed) *)
Variable permutation : rng -> nat -> list nat * rng.        (* np.random.permutation(m) *)
Variable initial : rng -> list nat -> params * rng.         (* model.py 26-58, drawing from np.random.randn *)
Variable entropy : nat -> rng.                              (* state after the n-th np.random.seed(None) *)
(** data.py 97-101 *)
Definition random_mini_batches (seed : option Z) (n : nat) (m : nat) (X Y : arr) (J : option arr3) (size : Z) : res (list batch) * rng :=
  let g := match seed with Some z => seeded z | None => entropy n end in
  let '(perm, g) := permutation g m in (mini_batches perm m X Y J size, g).
(** model.py 200-226: the batches of one epoch in turn, each with a new optimizer *)
Fixpoint train_batches (fuel : nat) (o : goptions) (dims : list nat) (nx ny : nat) (bs : list batch) (p : params) : res (params * list (list R)) :=
  match bs with
  | [] => Ret (p, [])
  | b :: bs =>
      rbind (optimize fuel Adam (batch_cost dims nx ny b (o_lambd o) (o_gamma o)) (batch_grad dims nx b (o_lambd o) (o_gamma o)) (o_alpha o) (o_iterations o) p (new_optimizer (o_beta1 o) (o_beta2 o)))
        (fun '(p, _, h) => rbind (train_batches fuel o dims nx ny bs p) (fun '(p, hs) => Ret (p, h :: hs)))
  end.
(** model.py 195-236, epochs e, e+1, ..; g is the state of the generator before *)
Fixpoint train_epochs (fuel : nat) (o : goptions) (dims : list nat) (nx ny m : nat) (X Y : arr) (J : option arr3) (size : Z) (todo e : nat) (p : params) (g : rng) : res (params * list (list (list R)) * rng) :=
  match todo with
  | O => Ret (p, [], g)
  | S todo =>
      let '(bs, g) := random_mini_batches (o_seed o) e m X Y J size in
      rbind bs (fun bs => rbind (train_batches fuel o dims nx ny bs p) (fun '(p, hs) =>
      rbind (train_epochs fuel o dims nx ny m X Y J size todo (S e) p g) (fun '(p, hss, g) => Ret (p, hs :: hss, g))))
  end.
(** a network: dimensions, parameters, scale factors *)
Record network := { net_dims : list nat; net_params : params; net_scaling : scaling }.
(** model.py 184-236 *)
Definition model_train (fuel : nat) (o : goptions) (nx ny m : nat) (X Y : arr) (J : option arr3) (dims : list nat) (p : params) (g : rng) : res (network * list (list (list R)) * rng) :=
  let '(Xn, Yn, Jn, s) := normalize_data m X Y J in
  let size := if Z.eqb (o_batch o) 0 then Z.of_nat m else o_batch o in
  rbind (train_epochs fuel o dims nx ny m Xn Yn Jn size (o_epochs o) 0 p g) (fun '(p, h, g) => Ret ({| net_dims := dims; net_params := p; net_scaling := s |}, h, g)).
(** genn.py 53-107; X, Y, J as (variable or output, example).  Raise: KeyError or AssertionError *)
Definition nonzero (t : table) : bool := forallb (fun i => forallb (fun j => if Req_EM_T (t_val t i j) 0 then false else true) (seq 0 (t_cols t))) (seq 0 (t_rows t)).
Definition derivative_ok (m nx ny : nat) (x0 x d : table) : bool :=
  Nat.eqb (t_rows x) m && Nat.eqb (t_cols x) nx && Nat.eqb (t_rows d) m && Nat.eqb (t_cols d) ny && Bool.eqb (nonzero x) (nonzero x0).
Definition smt_to_genn (tp : points) : res (nat * nat * nat * arr * arr * arr3) :=
  match tp 0%nat with
  | None => Raise
  | Some (x, y) =>
      let m := t_rows x in let nx := t_cols x in let ny := t_cols y in
      if forallb (fun k => match tp (S k) with Some (x', d) => derivative_ok m nx ny x x' d | None => false end) (seq 0 nx)
      then Ret (m, nx, ny, (fun i e => t_val x e i), (fun k e => t_val y e k), (fun j k e => if Nat.ltb j nx then match tp (S j) with Some (_, d) => t_val d e k | None => 0 end else 0))
      else Raise
  end.
(** genn.py 162-209 (J.size is never 0 here, so gamma is not switched off); the model and its initial parameters are made before the mini-batches reseed the generator *)
Definition genn_train (fuel : nat) (o : goptions) (tp : points) (g : rng) : res (network * list (list (list R)) * rng) :=
  rbind (smt_to_genn tp) (fun '(m, nx, ny, X, Y, J) =>
    let dims := dims_of nx ny (o_deep o) (o_wide o) in
    let '(p, g) := initial g dims in
    model_train fuel o nx ny m X Y (Some J) dims p g).
End Training.
(** model.py 136-144: parameters of a network with known dimensions loaded into a new Model; the scale factors stay those of __init__ *)
Definition load_parameters (dims : list nat) (p : params) : network := {| net_dims := dims; net_params := p; net_scaling := initial_scaling |}.
Definition network_values (n : network) (nx ny m : nat) (x : arr) : option arr := predict_values (layers (net_dims n) (net_params n)) (net_scaling n) nx ny m x.
Definition network_derivatives (n : network) (nx ny m : nat) (x : arr) (kx : nat) : option arr := predict_derivatives (layers (net_dims n) (net_params n)) (net_scaling n) nx ny m x kx.
(** model.py 98-102 for one output *)
Definition training_data (nx ny m : nat) (s : scaling) (Xn Yn : arr) (Jn : arr3) : option (ndarray * ndarray * ndarray) :=
  obind (broadcast Rmult (of2 nx m Xn) (of1 nx (sigma_x s))) (fun a => obind (broadcast Rplus a (of1 nx (mu_x s))) (fun X =>
  obind (broadcast Rmult (of2 ny m Yn) (of1 ny (sigma_y s))) (fun b => obind (broadcast Rplus b (of1 ny (mu_y s))) (fun Y =>
  obind (broadcast Rmult {| shape := [ny; nx; m]; data := fun ix => Jn (nth 1 ix 0%nat) (nth 0 ix 0%nat) (nth 2 ix 0%nat) |} (of1 ny (sigma_y s))) (fun c => obind (broadcast Rdiv c (of1 nx (sigma_x s))) (fun J => Some (X, Y, J))))))).

(** * the GENN object: its training_points dictionary is a mutable object referred to by an address *)
Record object := { heap : nat -> points; tp_ref : nat; a_nt : nat; a_nx : nat; a_ny : nat; a_model : network }.
Definition stored (s : object) : points := heap s (tp_ref s).
Definition set_entry (s : object) (k : nat) (v : table * table) : object :=
  {| heap := fun a => if Nat.eqb a (tp_ref s) then (fun i => if Nat.eqb i k then Some v else heap s a i) else heap s a; tp_ref := tp_ref s; a_nt := a_nt s; a_nx := a_nx s; a_ny := a_ny s; a_model := a_model s |}.
(** surrogate_model.py 102-128 and genn.py 18-50 with two-dimensional xt, yt and a gradient of one output given as a table of one column per variable; the flag is false after an exception.
    A gradient table of another shape with as many entries, which numpy would rearrange, counts as an exception here *)
Definition set_training_values (s : object) (x y : table) : object :=
  let s := set_entry s 0 (x, y) in {| heap := heap s; tp_ref := tp_ref s; a_nt := t_rows x; a_nx := t_cols x; a_ny := t_cols y; a_model := a_model s |}.
Definition column (d : table) (i : nat) : table := {| t_rows := t_rows d; t_cols := 1; t_val := fun e _ => t_val d e i |}.
Definition load_smt_data (s : object) (x y : table) (d : option table) : object * bool :=
  if negb (Nat.eqb (t_rows x) (t_rows y)) then (s, false)
  else let s := set_training_values s x y in
       match d with
       | None => (s, true)
       | Some d => if Nat.eqb (t_rows d * t_cols d) (t_rows x * t_cols x) && Nat.eqb (t_cols d) (t_cols x)
                   then (fold_left (fun s i => set_entry s (S i) (x, column d i)) (seq 0 (t_cols x)) s, true) else (s, false)
       end.
(** genn.py 234-255; the plots only read the model.  The flag: completed without an exception *)
Definition goodness_of_fit (plots : network -> points -> bool) (s : object) (x y : table) (d : option table) : object * bool :=
  let training_points := tp_ref s in
  let '(s, ok) := load_smt_data s x y d in
  if negb ok then (s, false)
  else match smt_to_genn (stored s) with
       | Ret _ => if plots (a_model s) (stored s) then ({| heap := heap s; tp_ref := training_points; a_nt := a_nt s; a_nx := a_nx s; a_ny := a_ny s; a_model := a_model s |}, true) else (s, false)
       | _ => (s, false)
       end.
(** surrogate_model.py 286-288 and genn.py 211-218: predictions of the object for a table of points; None: an exception *)
Definition object_values (s : object) (x : table) : option arr :=
  if Nat.eqb (t_cols x) (a_nx s) then network_values (a_model s) (t_cols x) (last (net_dims (a_model s)) 0%nat) (t_rows x) (t_val x) else None.
