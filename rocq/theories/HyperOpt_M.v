(** Model of the hyperparameter search of kriging: smt/surrogate_models/krg_based.py 842-1127
    (_optimize_hyperparam) with the memory of the best evaluation kept by _reduced_likelihood_function
    (313-327), _check_param (1129-1183), and the option handling of rbf.py 62-67 and kplsk (1107-1124).
    Simplifications: scipy's minimize is any sequence of evaluations followed by a result or a ValueError;
    hyperparameter vectors are given as passed to the likelihood (after the 10** of 887 and 1027); prints
    and the (always zero) variable incr are left out. *)
From Coq Require Import Reals Arith Bool List.
Import ListNotations.
Open Scope list_scope.
Open Scope R_scope.

Section Search.
Variables (Th Par : Type).
(** what _reduced_likelihood_function(theta) does: a finite value with parameters; +inf or -inf; or the
    exception of 276-280, which is not a ValueError *)
Inductive ev := Fin (v : R) (p : Par) | PosInf | NegInf | Exc.
Variable L : Th -> ev.
(** 313-327: (best_iteration_fail, _thetaMemory) *)
Definition note (mem : option (R * Th)) (t : Th) : option (R * Th) :=
  match L t with
  | Fin v _ => match mem with
               | None => Some (v, t)
               | Some (b, _) => if Rlt_dec b v then Some (v, t) else mem
               end
  | _ => mem
  end.
(** value reported by minimize: -likelihood; None is +inf, Some None is -inf *)
Inductive fval := FFin (f : R) | FPosInf | FNegInf.
Definition f_gt (a b : fval) : bool :=
  match a, b with
  | FFin x, FFin y => if Rlt_dec y x then true else false
  | FPosInf, FPosInf => false
  | FPosInf, _ => true
  | FFin _, FNegInf => true
  | _, _ => false
  end.
(** one call of optimize.minimize: the points it evaluates, then its result (x, fun) or a ValueError *)
Record run := { r_evals : list Th; r_out : option (Th * fval) }.
(** 980-1020: one run (Cobyla) or two (TNC) *)
Inductive attempt := Cobyla (a : run) | Tnc (a b : run).
(** evaluations: None when one of them raises the non-ValueError exception *)
Fixpoint evals (mem : option (R * Th)) (l : list Th) : option (option (R * Th)) :=
  match l with
  | [] => Some mem
  | t :: l => match L t with Exc => None | _ => evals (note mem t) l end
  end.
(** result of the two minimisations: abort, ValueError, or the selected point (1018-1022) *)
Inductive mres := MExc | MVal (mem : option (R * Th)) | MOk (mem : option (R * Th)) (x : Th).
Definition minimise (mem : option (R * Th)) (a : attempt) : mres :=
  match a with
  | Cobyla a => match evals mem (r_evals a) with
                | None => MExc
                | Some mem => match r_out a with None => MVal mem | Some (x, _) => MOk mem x end
                end
  | Tnc a b => match evals mem (r_evals a) with
               | None => MExc
               | Some mem => match r_out a with
                   | None => MVal mem
                   | Some (x, f) => match evals mem (r_evals b) with
                       | None => MExc
                       | Some mem => match r_out b with
                           | None => MVal mem
                           | Some (x2, f2) => MOk mem (if f_gt f f2 then x2 else x)
                           end end end end
  end.
(** loop state: k, stop, nb_ill_matrix, memory, best_optimal_rlf_value, (best_optimal_par, best_optimal_theta) *)
Record st := { s_k : nat; s_stop : nat; s_nb : nat; s_mem : option (R * Th); s_bv : R; s_bp : option (Par * Th) }.
Inductive next := Continue (s : st) | RaiseV | RaiseE.
Definition max_retry : nat := 10.
(** re-evaluation of the remembered point, 1058-1064 and 1085-1091 *)
Definition recall (s : st) : st :=
  match s_mem s with
  | None => s
  | Some (b, t) =>
      if Rlt_dec (s_bv s) b
      then match L t with
           | Fin v p => {| s_k := s_k s; s_stop := s_stop s; s_nb := s_nb s; s_mem := s_mem s; s_bv := v; s_bp := Some (p, t) |}
           | _ => s
           end
      else s
  end.
Definition tick (s : st) : st := {| s_k := s_k s + 1; s_stop := s_stop s; s_nb := s_nb s; s_mem := s_mem s; s_bv := s_bv s; s_bp := s_bp s |}.
Definition more (s : st) : st := {| s_k := s_k s; s_stop := s_stop s + 1; s_nb := s_nb s; s_mem := s_mem s; s_bv := s_bv s; s_bp := s_bp s |}.
Definition with_mem (s : st) (m : option (R * Th)) : st := {| s_k := s_k s; s_stop := s_stop s; s_nb := s_nb s; s_mem := m; s_bv := s_bv s; s_bp := s_bp s |}.
Definition with_best (s : st) (v : R) (p : Par) (t : Th) : st := {| s_k := s_k s; s_stop := s_stop s; s_nb := s_nb s; s_mem := s_mem s; s_bv := v; s_bp := Some (p, t) |}.
(** 1074-1101: except ValueError *)
Definition handler (s : st) : next :=
  match s_nb s with
  | S nb => Continue (recall {| s_k := s_k s + 1; s_stop := s_stop s + 1; s_nb := nb; s_mem := s_mem s; s_bv := s_bv s; s_bp := s_bp s |})
  | O => match s_bp s with
         | None => RaiseV
         | Some _ => Continue {| s_k := s_stop s + 1; s_stop := s_stop s; s_nb := 0; s_mem := s_mem s; s_bv := s_bv s; s_bp := s_bp s |}
         end
  end.
(** 1024-1073 *)
Definition body (s : st) (a : attempt) : next :=
  match minimise (s_mem s) a with
  | MExc => RaiseE
  | MVal mem => handler (with_mem s mem)
  | MOk mem x =>
      match L x with
      | Exc => RaiseE
      | Fin v p =>
          let s := with_mem s (note mem x) in
          if Nat.eqb (s_k s) 0 then Continue (tick (with_best s v p x))
          else match s_mem s with
               | Some (b, _) =>
                   if Rle_dec b v
                   then if Rlt_dec (s_bv s) v then Continue (tick (with_best s v p x)) else Continue (tick (recall s))
                   else Continue (tick s)
               | None => Continue (tick s) (* unreachable: note has just recorded x *)
               end
      | _ =>
          let s := more (with_mem s mem) in
          if Nat.eqb (s_k s) 0 then Continue (tick s)
          else if Nat.ltb max_retry (s_stop s) then handler s else Continue (tick s)
      end
  end.
(** while k < stop, 942-1103; [n] is the number of attempts made.  OutOfFuel is not an outcome of the program *)
Inductive outcome := Done (n nb : nat) (v : R) (b : option (Par * Th)) | FailV (n : nat) | FailE (n : nat) | OutOfFuel.
Fixpoint loop (fuel : nat) (att : nat -> attempt) (n : nat) (s : st) : outcome :=
  if Nat.ltb (s_k s) (s_stop s)
  then match fuel with
       | O => OutOfFuel
       | S fuel => match body s (att n) with
                   | Continue s' => loop fuel att (S n) s'
                   | RaiseV => FailV (S n)
                   | RaiseE => FailE (S n)
                   end
       end
  else Done n (s_nb s) (s_bv s) (s_bp s).
(** 941: initialisation *)
Definition init (nb : nat) : st := {| s_k := 0; s_stop := 1; s_nb := nb; s_mem := None; s_bv := - 10 ^ 20; s_bp := None |}.
Definition search (fuel nb : nat) (att : nat -> attempt) : outcome := loop fuel att 0 (init nb).
End Search.
Arguments Fin {Par} v p. Arguments PosInf {Par}. Arguments NegInf {Par}. Arguments Exc {Par}.
Arguments Done {Th Par} n nb v b. Arguments FailV {Th Par} n. Arguments FailE {Th Par} n. Arguments OutOfFuel {Th Par}.
Arguments Cobyla {Th} a. Arguments Tnc {Th} a b. Arguments r_evals {Th} r. Arguments r_out {Th} r.

(** ** 905-917: the starting point.  [rnd i] is np.random.rand() for entry i *)
Definition start_theta (lo hi : R) (rnd : nat -> R) (theta0 : list R) : list R :=
  map (fun '(i, t) => if Rlt_dec t lo then rnd i * (hi - lo) + lo else if Rlt_dec hi t then rnd i * (hi - lo) + lo else t)
      (combine (seq 0 (length theta0)) theta0).
(** 948-972: with eval_noise (not heteroscedastic) every attempt appends noise0 to the starting vector *)
Fixpoint start_at (noise : list R) (theta0 : list R) (attempt : nat) : list R :=
  match attempt with O => theta0 ++ noise | S a => start_at noise theta0 a ++ noise end.

(** ** options touched by training *)
(** an option holding numbers: a Python list or a numpy array *)
Inductive seqv := PyList (l : list R) | NpArray (l : list R).
Definition s_len (v : seqv) : nat := match v with PyList l => length l | NpArray l => length l end.
Definition s_vals (v : seqv) : list R := match v with PyList l => l | NpArray l => l end.
(** v *= np.ones(d): a list is replaced by a new array of the broadcast shape; an array is updated in place,
    which raises (ValueError, None) when the broadcast shape is not its own *)
Definition imul_ones (v : seqv) (d : nat) : option seqv :=
  match v with
  | PyList l => match l with [a] => Some (NpArray (repeat a d)) | _ => if Nat.eqb (length l) d then Some (NpArray l) else None end
  | NpArray l => if Nat.eqb (length l) d then Some v else if Nat.eqb d 1 then Some v else None
  end.
Inductive kname := NKriging | NKpls | NKplsk.
Record kopts := { k_theta0 : seqv; k_noise0 : seqv; k_ncomp : nat; k_het : bool; k_eval : bool }.
(** 1129-1183 for the length checks (the kernel checks are in Kernels/Options); None is a ValueError *)
Definition check_param (nm : kname) (nx nt : nat) (o : kopts) : option kopts :=
  let d := match nm with NKriging => nx | _ => k_ncomp o end in
  match (if Nat.eqb (s_len (k_theta0 o)) d then Some (k_theta0 o)
         else if Nat.eqb (s_len (k_theta0 o)) 1 then imul_ones (k_theta0 o) d else None) with
  | None => None
  | Some th =>
      match (if andb (k_het o) (negb (k_eval o)) then
               if Nat.eqb (s_len (k_noise0 o)) nt then Some (k_noise0 o)
               else if Nat.eqb (s_len (k_noise0 o)) 1 then imul_ones (k_noise0 o) nt else None
             else Some (k_noise0 o)) with
      | None => None
      | Some no =>
          if andb (negb (k_het o)) (negb (Nat.eqb (s_len no) 1)) then None
          else Some {| k_theta0 := th; k_noise0 := no; k_ncomp := k_ncomp o; k_het := k_het o; k_eval := k_eval o |}
      end
  end.
(** 1107-1124: what KPLSK writes after its first phase; [theta'] is the vector of length nx it computes *)
Definition kplsk_write (nx : nat) (theta' : list R) (o : kopts) : kopts :=
  {| k_theta0 := NpArray theta'; k_noise0 := k_noise0 o; k_ncomp := nx; k_het := k_het o; k_eval := k_eval o |}.
(** the options after a training that got past _check_param *)
Definition after_training (nm : kname) (nx nt : nat) (theta' : list R) (o : kopts) : option kopts :=
  match check_param nm nx nt o with
  | None => None
  | Some o' => Some (match nm with NKplsk => kplsk_write nx theta' o' | _ => o' end)
  end.
(** rbf.py 62-67: d0 is a number or a sequence; the array stored and handed to the C++ code *)
Inductive d0v := DNum (a : R) | DSeq (l : list R).
Definition rbf_setup (nx : nat) (v : d0v) : d0v := match v with DNum a => DSeq (repeat a nx) | DSeq l => DSeq l end.
