(** Model of smt/applications/mfk.py 186-352 (MFK training) with the options eval_noise, use_het_noise and
    optim_var, together with the training data the surrogate keeps (surrogate_model.py 103-126), for one output.
    Mfk_M.v is the case eval_noise=False.
    Simplifications: doubles are reals; QR and condition numbers are any functions meeting their contracts; the
    search is any function of the data giving kernel parameters and, when asked to, a noise variance per level;
    the checks of _check_param other than those on the length of noise0 are in Mfk_M.v; multiplying a noise0 of
    length 1 by np.ones (727-728) is not recorded: it broadcasts to the same vector. *)
From Coq Require Import Reals Arith Bool List.
From Verif Require Import RSum Mat Tri_M Kernels_M Krg_M Mfk_M Het_M.
Import ListNotations.
Open Scope list_scope.
Open Scope R_scope.

(** the training data of one level (training_points[name][0]) and its noise0 *)
Record obs := { o_nt : nat; o_X : nat -> vec; o_y : vec; o_noise0 : list R }.
(** what the surrogate keeps between calls: training_points and options["eval_noise"] *)
Record store := { s_obs : list obs; s_eval : bool }.

Section Var.
Variables (nx : nat) (po rho : poly) (qr : nat -> nat -> mat -> mat * mat) (rcond : nat -> mat -> R) (condF : nat -> nat -> mat -> R).
Variables (nugget : R) (het optim_var : bool).
(** _optimize_hyperparam: kernel of level k, and its noise variance (the last hyperparameter, 322-326) *)
Variable search : bool -> list obs -> nat -> kspec * R.

(** mfk.py 722-742 (_check_param, noise0).  np.unique(X[i]) without axis: the distinct entries *)
Definition entries (o : obs) : list R := flat_map (fun i => map (o_X o i) (seq 0 nx)) (seq 0 (o_nt o)).
Definition check_noise0 (o : obs) : bool :=
  let n := length (o_noise0 o) in
  if het then if Nat.eqb (o_nt o) (length (nodup Req_EM_T (entries o))) then Nat.eqb n (o_nt o) || Nat.eqb n 1 else true
  else Nat.eqb n 1.

(** one level as Mfk_M sees it; the noise is the estimated one or noise0 (239-278, 322-326) *)
Definition data_of (ev : bool) (l : list obs) (k : nat) (o : obs) : data :=
  {| d_nt := o_nt o; d_X := o_X o; d_y := o_y o; d_k := fst (search ev l k);
     d_noise := if ev && negb het then (fun _ => snd (search ev l k)) else match bcast (o_nt o) (o_noise0 o) with Some v => v | None => fun _ => 0 end |}.
Fixpoint datas_from (ev : bool) (l : list obs) (k : nat) (todo : list obs) : list data :=
  match todo with [] => [] | o :: r => data_of ev l k o :: datas_from ev l (S k) r end.
Definition datas (ev : bool) (l : list obs) : list data := datas_from ev l 0 l.

(** 281-321 on standardised data, see Mfk_M.train_level *)
Definition train_std (all : list data) (done : list level) (nt : nat) (Xn : nat -> vec) (yn : vec) (s : kspec) (nug : R) (noise : vec) : option level :=
  let q := match done with [] => 0%nat | _ => nq nx rho end in
  let F : mat := fun i j => basis nx po rho (last_mean nx po rho done (Xn i)) (Xn i) j in
  if Nat.leb nt (np nx po + q) then None
  else match reduced_likelihood qr rcond condF nt (q + np nx po) (INR nt - INR (np nx po) - INR q) (corr_matrix s nx nt Xn nug noise) F yn (y_scale all) with
       | Fit _ pr => Some {| l_nt := nt; l_Xn := Xn; l_yn := yn; l_k := s; l_q := q; l_F := F; l_par := pr |}
       | _ => None
       end.
(** 239-328 (_new_train_iteration) with krg_based.py 238-256: with eval_noise the nugget is 0 *)
Definition iteration (ev : bool) (all : list data) (done : list level) (d : data) (o : obs) : option level :=
  let Xn := fun i => stdx all (d_X d i) in
  let yn := fun i => (d_y d i - y_off all) / y_scale all in
  let nug := if ev then 0 else nugget in
  if ev && het then
    let l := uniq nx Xn (d_nt d) in
    let idx := inverse nx Xn (d_nt d) in
    let nu := length l in
    match bcast nu (o_noise0 o) with
    | None => None
    | Some n0 => train_std all done nu (fun u => Xn (nth u l 0%nat)) (y_mean_rep (d_nt d) 1 idx (fun a _ => yn a)) (d_k d) nug (noise_rep (d_nt d) 1 idx (fun a _ => yn a) n0)
    end
  else if ev then train_std all done (d_nt d) Xn yn (d_k d) nug (d_noise d)
  else match bcast (d_nt d) (o_noise0 o) with None => None | Some _ => train_std all done (d_nt d) Xn yn (d_k d) nug (d_noise d) end.
Fixpoint iterations (ev : bool) (all : list data) (done : list level) (todo : list (data * obs)) : option (list level) :=
  match todo with
  | [] => Some done
  | (d, o) :: r => match iteration ev all done d o with Some lv => iterations ev all (done ++ [lv]) r | None => None end
  end.
(** 186-198: _new_train_init and the loop *)
Definition fit (ev : bool) (l : list obs) : option (list level) :=
  if forallb check_noise0 l then iterations ev (datas ev l) [] (combine (datas ev l) l) else None.

(** 339-352 (_new_train_finalize): the values the first fit predicts replace the training values *)
Definition with_y (o : obs) (y : vec) : obs := {| o_nt := o_nt o; o_X := o_X o; o_y := y; o_noise0 := o_noise0 o |}.
Fixpoint replaced (all : list data) (lvls : list level) (k : nat) (todo : list obs) : list obs :=
  match todo with
  | [] => []
  | o :: r => with_y o (fun i => match predict_intermediate nx po rho all lvls (S k) (o_X o i) with Some v => v | None => 0 end) :: replaced all lvls (S k) r
  end.
(** train(): what is kept, and the data and levels of the model (None: exception) *)
Definition train (st : store) : store * option (list data * list level) :=
  match fit (s_eval st) (s_obs st) with
  | None => (st, None)
  | Some lvls =>
      let all := datas (s_eval st) (s_obs st) in
      if s_eval st && optim_var then
        let l2 := replaced all lvls 0 (s_obs st) in
        ({| s_obs := l2; s_eval := false |}, match fit false l2 with Some lvls2 => Some (datas false l2, lvls2) | None => None end)
      else (st, Some (all, lvls))
  end.
End Var.
