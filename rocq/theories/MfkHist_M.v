(** Model of what training does to the options of MFK, MFKPLS and MFKPLSK: smt/applications/mfk.py 186-352 and
    654-742, mfkpls.py 26-44, mfkplsk.py 15-61, and the option writes of krg_based.py 893-1125.
    Simplifications: the numerical part of training is an oracle saying whether each step raises; entries of theta0
    and noise0 are doubles; a sequence nested more than once is not told from one nested once. *)
From Coq Require Import Reals Arith Bool List.
Import ListNotations.
Open Scope list_scope.
Open Scope nat_scope.

Inductive name := NMfk | NPls | NPlsk.
(** options["theta0"]: a list of numbers, an array with two axes ([c] columns), an array with one axis *)
Inductive tval := TList (l : list R) | TMat (c : nat) (rows : list (list R)) | TVec (l : list R).
(** an item of noise0: a number, a sequence of numbers, a sequence holding one sequence of numbers; [arr]: an ndarray *)
Inductive item := Num (s : R) | Seq (arr : bool) (l : list R) | Box (arr : bool) (l : list R).
Record noise := { n_arr : bool; n_items : list item }.
(** theta0, noise0, n_comp, use_het_noise, optim_var, eval_noise *)
Record opts := { o_theta : tval; o_noise : noise; o_ncomp : nat; o_het : bool; o_optim : bool; o_eval : bool }.
Definition set_theta (o : opts) (t : tval) : opts := {| o_theta := t; o_noise := o_noise o; o_ncomp := o_ncomp o; o_het := o_het o; o_optim := o_optim o; o_eval := o_eval o |}.
Definition set_noise (o : opts) (n : noise) : opts := {| o_theta := o_theta o; o_noise := n; o_ncomp := o_ncomp o; o_het := o_het o; o_optim := o_optim o; o_eval := o_eval o |}.
Definition set_ncomp (o : opts) (c : nat) : opts := {| o_theta := o_theta o; o_noise := o_noise o; o_ncomp := c; o_het := o_het o; o_optim := o_optim o; o_eval := o_eval o |}.
Definition set_eval (o : opts) (b : bool) : opts := {| o_theta := o_theta o; o_noise := o_noise o; o_ncomp := o_ncomp o; o_het := o_het o; o_optim := o_optim o; o_eval := b |}.

(** shapes of the training data: columns; for each level rows and whether len(X[i]) == len(np.unique(X[i])) (713) *)
Record shape := { s_nx : nat; s_levels : list (nat * bool) }.
Definition nlvl (s : shape) : nat := length (s_levels s).
(** 660-663 *)
Definition dim (nm : name) (s : shape) (o : opts) : nat := match nm with NMfk => s_nx s | _ => o_ncomp o end.

(** 680-700: theta0 afterwards, and whether no exception is raised.  Line 688 and 700 multiply a list by an array: a new
    array; line 693 multiplies the (nlvl, 1) array stored by 690 in place, which fails for d <> 1 *)
Definition check_theta (n d : nat) (t : tval) : tval * bool :=
  match t with
  | TMat c rows => (t, Nat.eqb (length rows) n && Nat.eqb c d)
  | TVec _ => (t, false)
  | TList l =>
      if negb (Nat.eqb (length l) d) then
        if Nat.eqb (length l) 1 then (TMat d (repeat (repeat (nth 0 l 0%R) d) n), true)
        else if Nat.eqb (length l) n then (TMat 1 (map (fun a => [a]) l), Nat.eqb d 1)
        else (t, false)
      else (TMat d (repeat l n), true)
  end.

(** 702-709: self.nlvl * [noise0] *)
Definition wrap (n : noise) : item :=
  match n_items n with
  | [Num s] => Seq (n_arr n) [s]
  | [Seq _ l] | [Box _ l] => Box (n_arr n) l
  | _ => Seq (n_arr n) []
  end.
Definition spread (k : nat) (n : noise) : noise * bool :=
  if Nat.eqb (length (n_items n)) k then (n, true)
  else if Nat.eqb (length (n_items n)) 1 then ({| n_arr := false; n_items := repeat (wrap n) k |}, true)
  else (n, false).
(** len(noise0[i]); None: TypeError *)
Definition len (i : item) : option nat := match i with Num _ => None | Seq _ l => Some (length l) | Box _ _ => Some 1 end.
(** noise0[i] *= np.ones(nt) for an item of length 1 <> nt: a list becomes a new array, an array must keep its shape *)
Definition times_ones (nt : nat) (i : item) : option item :=
  match i with
  | Num _ => None
  | Seq arr l => if arr then None else Some (Seq true (repeat (nth 0 l 0%R) nt))
  | Box arr l => if Nat.eqb (length l) nt then Some (Box true l)
                 else if negb arr && Nat.eqb (length l) 1 then Some (Box true (repeat (nth 0 l 0%R) nt)) else None
  end.
(** 711-742: one level *)
Definition check_item (het : bool) (lv : nat * bool) (i : item) : option item :=
  match len i with
  | None => if het && negb (snd lv) then Some i else None
  | Some n =>
      if het then if snd lv then if Nat.eqb n (fst lv) then Some i else if Nat.eqb n 1 then times_ones (fst lv) i else None else Some i
      else if Nat.eqb n 1 then Some i else None
  end.
Fixpoint check_items (het : bool) (lvs : list (nat * bool)) (l : list item) : list item * bool :=
  match lvs, l with
  | lv :: lvs, i :: l => match check_item het lv i with Some i' => let '(r, ok) := check_items het lvs l in (i' :: r, ok) | None => (i :: l, false) end
  | _, _ => (l, true)
  end.
(** 654-742, the options afterwards and whether no exception is raised *)
Definition check_param (nm : name) (s : shape) (o : opts) : opts * bool :=
  let '(t, ok) := check_theta (nlvl s) (dim nm s o) (o_theta o) in
  let o1 := set_theta o t in
  if ok then
    let '(n, ok) := spread (nlvl s) (o_noise o) in
    let o2 := set_noise o1 n in
    if ok then let '(l, ok) := check_items (o_het o) (s_levels s) (n_items n) in (set_noise o2 {| n_arr := n_arr n; n_items := l |}, ok) else (o2, false)
  else (o1, false).

(** np.array([noise0[lvl]]).flatten() (235) *)
Definition flat (i : item) : list R := match i with Num s => [s] | Seq _ l => l | Box _ l => l end.
(** starting values of a level: theta0 and noise0 as _new_train_iteration leaves them in the options (235-236) *)
Definition start := (list R * list R)%type.
Definition enter (o : opts) (st : start) : opts := set_noise (set_theta o (TVec (fst st))) {| n_arr := true; n_items := map Num (snd st) |}.
(** how a level ends: None: normally; Some None: an exception with the options as entered; Some (Some w): an exception in
    the second phase of MFKPLSK, after theta0 := w and n_comp := nx (krg_based.py 1117-1122) *)
Definition outcome := option (option (list R)).
Inductive result := Rejected | Failed (lvl : nat) | Trained.

(** 192-196 (mfkplsk.py 51-58): the loop over the levels; [saved] are the options at its start *)
Fixpoint loop (nm : name) (nx : nat) (saved : opts) (out : nat -> outcome) (k : nat) (todo : list start) (o : opts) : opts * result * list start :=
  match todo with
  | [] => (o, Trained, [])
  | st :: r =>
      match out k with
      | None => let '(o', res, tr) := loop nm nx saved out (S k) r saved in (o', res, st :: tr)
      | Some w => (match nm, w with NPlsk, Some w => set_ncomp (set_theta (enter o st) (TVec w)) nx | _, _ => enter o st end, Failed k, [st])
      end
  end.
Definition rows (t : tval) : list (list R) := match t with TMat _ r => r | _ => [] end.
(** 186-196: [pre]: the PLS regression and _check_list_structure do not raise *)
Definition new_train (nm : name) (s : shape) (pre : bool) (out : nat -> outcome) (o : opts) : opts * result * list start :=
  if pre then
    let '(o1, ok) := check_param nm s o in
    if ok then loop nm (s_nx s) o1 out 0 (combine (rows (o_theta o1)) (map flat (n_items (o_noise o1)))) o1 else (o1, Rejected, [])
  else (o, Rejected, []).
(** one call of train() and what happens in it; the second pair is for the second training of optim_var (339-352) *)
Record run := { r_shape : shape; r_pre : bool; r_out : nat -> outcome; r_pre2 : bool; r_out2 : nat -> outcome }.
(** 186-352; the starting values of the levels of each stage are recorded *)
Definition train (nm : name) (r : run) (o : opts) : opts * result * list (list start) :=
  let '(o1, res, tr) := new_train nm (r_shape r) (r_pre r) (r_out r) o in
  match res with
  | Trained => if o_eval o1 && o_optim o1 then let '(o2, res, tr2) := new_train nm (r_shape r) (r_pre2 r) (r_out2 r) (set_eval o1 false) in (o2, res, [tr; tr2]) else (o1, Trained, [tr])
  | _ => (o1, res, [tr])
  end.
(** what a user can do: train, write theta0, write noise0 *)
Inductive event := Train (r : run) | SetTheta (t : tval) | SetNoise (n : noise).
Fixpoint history (nm : name) (l : list event) (o : opts) : opts * list result :=
  match l with
  | [] => (o, [])
  | Train r :: l => let '(o1, res, _) := train nm r o in let '(o2, rs) := history nm l o1 in (o2, res :: rs)
  | SetTheta t :: l => history nm l (set_theta o t)
  | SetNoise n :: l => history nm l (set_noise o n)
  end.
