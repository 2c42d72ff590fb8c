From Coq Require Import Reals ZArith Arith Bool List Lia Lra Psatz.
From Coquelicot Require Import Coquelicot.
From Verif Require Import RSum Problems_M Problems_S CStep_M CStep_P.
Import ListNotations.
Open Scope list_scope.
Open Scope R_scope.

Lemma good_eq f r d r1 d1 : good f r d -> r = r1 -> d = d1 -> good f r1 d1.
Proof. intros H <- <-. exact H. Qed.
Lemma good_ext f g r d : (forall h, f h = g h) -> good f r d -> good g r d.
Proof. intros E (g1 & g2 & L & H). exists g1, g2. split; [|exact H]. revert L. apply filter_imp. intros h X. rewrite <- E. exact X. Qed.
Lemma good_guard f (op : cx -> cx) r d r1 d1 : good f r d -> r <> 0 -> good (fun h => bind (f h) (fun u => Some (op u))) r1 d1 ->
  good (fun h => bind (f h) (fun u => if czero u then None else Some (op u))) r1 d1.
Proof.
  intros (g1' & g2' & E' & A' & B' & D1' & D2') N (g1 & g2 & E & H). exists g1, g2. split; [|exact H].
  assert (C1 : continuous g1' 0) by (apply (ex_derive_continuous (K := R_AbsRing) (V := R_NormedModule)); eexists; exact D1').
  assert (L1 : locally 0 (fun h => g1' h <> 0)) by (apply (C1 (fun a => a <> 0)); apply open_neq; rewrite A'; exact N).
  apply (filter_imp (fun h => (bind (f h) (fun u => Some (op u)) = Some (g1 h, g2 h) /\ f h = Some (g1' h, g2' h)) /\ g1' h <> 0)).
  - intros h ((X & Y) & Z). rewrite <- X. rewrite Y. cbn [bind]. assert (Cz : czero (g1' h, g2' h) = false) by (unfold czero; cbn [fst]; destruct (Req_EM_T (g1' h) 0); [contradiction|reflexivity]). rewrite Cz. reflexivity.
  - apply filter_and; [apply filter_and|]; assumption.
Qed.
Lemma pos_near r (P : R -> Prop) : 0 < r -> (forall a, 0 < a -> P a) -> locally r P.
Proof. intros H Q. apply (filter_imp (fun a => 0 < a)); [exact Q|]. apply open_gt. exact H. Qed.
Lemma hyp_r r : 0 < r -> hypot r 0 = r.
Proof. intros H. unfold hypot. replace (r ^ 2 + 0 ^ 2) with (r ^ 2) by ring. apply sqrt_pow2. lra. Qed.
Lemma d_hyp (g1 g2 : R -> R) r d : 0 < r -> g1 0 = r -> g2 0 = 0 -> is_derive g1 0 0 -> is_derive g2 0 d -> is_derive (fun h => hypot (g1 h) (g2 h)) 0 0.
Proof.
  intros Hr A B D1 D2. unfold hypot.
  assert (DD : is_derive (fun h => g1 h ^ 2 + g2 h ^ 2) 0 0).
  { eapply d_eq; [apply (d_add (fun h => g1 h ^ 2) (fun h => g2 h ^ 2)); [apply (d_comp (fun u => u ^ 2) g1 0 (2 * g1 0))|apply (d_comp (fun u => u ^ 2) g2 0 (2 * g2 0))]; try eassumption; auto_derive; try exact I; ring|]. rewrite B. ring. }
  eapply d_eq; [apply (d_comp sqrt (fun h => g1 h ^ 2 + g2 h ^ 2) 0 (/ (2 * sqrt (g1 0 ^ 2 + g2 0 ^ 2)))); [|exact DD]|ring].
  assert (P : 0 < g1 0 ^ 2 + g2 0 ^ 2) by (rewrite A, B; nra). assert (0 < sqrt (g1 0 ^ 2 + g2 0 ^ 2)) by (apply sqrt_lt_R0; exact P).
  auto_derive; [exact P|]. field. lra.
Qed.
Section U.
Variables (f : R -> option cx) (r d : R).
Hypothesis F : good f r d.
Lemma good_opp : good (fun h => bind (f h) (fun u => Some (- fst u, - snd u))) (- r) (- d).
Proof.
  apply (good_map f r d F (fun u => (- fst u, - snd u)) 1 (fun a b => - a) (fun a b => - b)); [|lra|].
  - apply filter_forall. intros a b _. reflexivity.
  - intros g1 g2 A B D1 D2. rewrite A, B. split; [reflexivity|]. split; [ring|]. split; [eapply d_eq; [apply d_opp; exact D1|ring]|apply d_opp; exact D2].
Qed.
Lemma good_pow n : good (fun h => bind (f h) (fun u => Some (cpow u n))) (r ^ n) (INR n * r ^ pred n * d).
Proof.
  induction n as [|n IH].
  - destruct F as (g1 & g2 & L & _). exists (fun _ => 1), (fun _ => 0). split; [revert L; apply filter_imp; intros h X; rewrite X; reflexivity|].
    split; [reflexivity|]. split; [reflexivity|]. split; [apply dcst|]. eapply d_eq; [apply dcst|]. cbn. ring.
  - apply (good_ext (fun h => bind (f h) (fun u => bind (bind (f h) (fun u => Some (cpow u n))) (fun v => Some (cmul u v))))).
    { intros h. destruct (f h); reflexivity. }
    eapply good_eq; [apply (good_mul f (fun h => bind (f h) (fun u => Some (cpow u n))) r d _ _ F IH)|reflexivity|].
    rewrite S_INR. cbn [pred]. destruct n; [cbn; ring|]. cbn [pred pow]. ring.
Qed.
Lemma good_log0 : 0 < r -> good (fun h => bind (f h) (fun u => Some (clog u))) (ln r) (d / r).
Proof.
  intros Hr. apply (good_map f r d F clog 1 (fun a b => ln (hypot a b)) (fun a b => atan (b / a))); [|lra|].
  - apply pos_near; [exact Hr|]. intros a Ha b _. unfold clog, arg. cbn [fst snd]. destruct (Rlt_dec 0 a); [reflexivity|contradiction].
  - intros g1 g2 A B D1 D2. rewrite A, B. rewrite hyp_r by exact Hr. split; [reflexivity|]. split; [replace (0 / r) with 0 by (field; lra); apply atan_0|]. split.
    + eapply d_eq; [apply (d_comp ln (fun h => hypot (g1 h) (g2 h)) 0 (/ r)); [|apply (d_hyp g1 g2 r d); assumption]|ring].
      rewrite A, B, hyp_r by exact Hr. auto_derive; [exact Hr|field; lra].
    + eapply d_eq; [apply (d_comp atan (fun h => g2 h / g1 h) 0 1); [|apply d_div; [exact D2|exact D1|rewrite A; lra]]|].
      * rewrite B. replace (0 / g1 0) with 0 by (rewrite A; field; lra). auto_derive; [exact I|]. field.
      * rewrite A, B. field. lra.
Qed.
Lemma good_log : 0 < r -> good (fun h => bind (f h) (fun u => if czero u then None else Some (clog u))) (ln r) (d / r).
Proof. intros Hr. apply (good_guard f clog r d); [exact F|lra|apply good_log0; exact Hr]. Qed.
Lemma good_sqrt : 0 < r -> good (fun h => bind (f h) (fun u => Some (csqrt u))) (sqrt r) (d / (2 * sqrt r)).
Proof.
  intros Hr. assert (S0 : 0 < sqrt r) by (apply sqrt_lt_R0; exact Hr).
  apply (good_map f r d F csqrt 1 (fun a b => sqrt ((a + hypot a b) / 2)) (fun a b => b / (2 * sqrt ((a + hypot a b) / 2)))); [|lra|].
  - apply pos_near; [exact Hr|]. intros a Ha b _. unfold csqrt. destruct (Rlt_dec 0 a); [reflexivity|contradiction].
  - intros g1 g2 A B D1 D2.
    assert (E : (g1 0 + hypot (g1 0) (g2 0)) / 2 = r) by (rewrite A, B, hyp_r by exact Hr; field).
    assert (DS : is_derive (fun h => sqrt ((g1 h + hypot (g1 h) (g2 h)) / 2)) 0 0).
    { eapply d_eq; [apply (d_comp sqrt (fun h => (g1 h + hypot (g1 h) (g2 h)) / 2) 0 (/ (2 * sqrt r)))|].
      - rewrite E. auto_derive; [exact Hr|field; lra].
      - apply (d_div (fun h => g1 h + hypot (g1 h) (g2 h)) (fun _ => 2)); [apply d_add; [exact D1|apply (d_hyp g1 g2 r d); assumption]|apply dcst|lra].
      - field. lra. }
    rewrite E. split; [reflexivity|]. split; [rewrite B; field; lra|]. split; [exact DS|].
    eapply d_eq; [apply (d_div g2 (fun h => 2 * sqrt ((g1 h + hypot (g1 h) (g2 h)) / 2))); [exact D2|apply (d_mul (fun _ => 2)); [apply dcst|exact DS]|rewrite E; lra]|].
    cbv beta. rewrite E, B. field. lra.
Qed.
Lemma good_cos : good (fun h => bind (f h) (fun u => Some (ccos u))) (cos r) (- sin r * d).
Proof.
  apply (good_map f r d F ccos 1 (fun a b => cos a * cosh b) (fun a b => - (sin a * sinh b))); [|lra|].
  - apply filter_forall. intros a b _. reflexivity.
  - intros g1 g2 A B D1 D2. rewrite A, B. rewrite cosh_0, sinh_0. split; [ring|]. split; [ring|].
    assert (DC : is_derive (fun h => cos (g1 h)) 0 (- sin (g1 0) * 0)) by (apply (d_comp cos g1 0 (- sin (g1 0))); [auto_derive; [exact I|ring]|exact D1]).
    assert (DSn : is_derive (fun h => sin (g1 h)) 0 (cos (g1 0) * 0)) by (apply (d_comp sin g1 0 (cos (g1 0))); [auto_derive; [exact I|ring]|exact D1]).
    assert (DH : is_derive (fun h => cosh (g2 h)) 0 (sinh (g2 0) * d)) by (apply (d_comp cosh g2 0 (sinh (g2 0))); [apply is_derive_Reals, derivable_pt_lim_cosh|exact D2]).
    assert (DSh : is_derive (fun h => sinh (g2 h)) 0 (cosh (g2 0) * d)) by (apply (d_comp sinh g2 0 (cosh (g2 0))); [apply is_derive_Reals, derivable_pt_lim_sinh|exact D2]).
    split.
    + eapply d_eq; [apply d_mul; eassumption|]. cbv beta. rewrite A, B, cosh_0, sinh_0. ring.
    + eapply d_eq; [apply d_opp; apply d_mul; eassumption|]. cbv beta. rewrite A, B, cosh_0, sinh_0. ring.
Qed.
End U.
Lemma good_exp f r d p : good f r d -> good (fun h => bind (f h) (fun u => Some (cexp (p * fst u, p * snd u)))) (exp (p * r)) (p * exp (p * r) * d).
Proof.
  intros F. apply (good_map f r d F (fun u => cexp (p * fst u, p * snd u)) 1 (fun a b => exp (p * a) * cos (p * b)) (fun a b => exp (p * a) * sin (p * b))); [|lra|].
  - apply filter_forall. intros a b _. reflexivity.
  - intros g1 g2 A B D1 D2. rewrite A, B. rewrite !Rmult_0_r, cos_0, sin_0. split; [ring|]. split; [ring|].
    assert (DE : is_derive (fun h => exp (p * g1 h)) 0 (p * exp (p * g1 0) * 0)) by (apply (d_comp (fun u => exp (p * u)) g1 0 (p * exp (p * g1 0))); [auto_derive; [exact I|ring]|exact D1]).
    assert (DC : is_derive (fun h => cos (p * g2 h)) 0 (- p * sin (p * g2 0) * d)) by (apply (d_comp (fun u => cos (p * u)) g2 0 (- p * sin (p * g2 0))); [auto_derive; [exact I|ring]|exact D2]).
    assert (DS : is_derive (fun h => sin (p * g2 h)) 0 (p * cos (p * g2 0) * d)) by (apply (d_comp (fun u => sin (p * u)) g2 0 (p * cos (p * g2 0))); [auto_derive; [exact I|ring]|exact D2]).
    split.
    + eapply d_eq; [apply d_mul; eassumption|]. cbv beta. rewrite A, B, !Rmult_0_r, cos_0, sin_0. ring.
    + eapply d_eq; [apply d_mul; eassumption|]. cbv beta. rewrite A, B, !Rmult_0_r, cos_0, sin_0. ring.
Qed.
Lemma good_powr f r d p : good f r d -> 0 < r -> good (fun h => bind (f h) (fun u => if czero u then None else Some (cexp (p * fst (clog u), p * snd (clog u))))) (Rpower r p) (p * Rpower r p / r * d).
Proof.
  intros F Hr. apply (good_guard f (fun u => cexp (p * fst (clog u), p * snd (clog u))) r d); [exact F|lra|].
  apply (good_ext (fun h => bind (bind (f h) (fun u => Some (clog u))) (fun u => Some (cexp (p * fst u, p * snd u))))); [intros h; destruct (f h); reflexivity|].
  eapply good_eq; [apply (good_exp _ _ _ p (good_log0 f r d F Hr))|reflexivity|]. unfold Rpower. field. lra.
Qed.
Lemma evalC_good e x k : regular e x -> good (fun h => evalC e (fun j => (x j, if Nat.eqb j k then h else 0))) (val e x) (der e x k).
Proof.
  induction e; cbn [regular val der evalC]; intros H.
  - exists (fun _ => x i), (fun h => if Nat.eqb i k then h else 0). split; [apply filter_forall; reflexivity|]. split; [reflexivity|]. split; [destruct (Nat.eqb i k); reflexivity|]. split; [apply dcst|].
    destruct (Nat.eqb i k); [apply (is_derive_id (K := R_AbsRing))|apply dcst].
  - exists (fun _ => r), (fun _ => 0). split; [apply filter_forall; reflexivity|]. split; [reflexivity|]. split; [reflexivity|]. split; apply dcst.
  - destruct H. apply good_add; auto.
  - destruct H. apply good_sub; auto.
  - destruct H. apply good_mul; auto.
  - destruct H as (A & B & N). apply good_div; auto.
  - apply good_opp; auto.
  - apply good_pow; auto.
  - destruct H. apply good_powr; auto.
  - destruct H. apply good_log; auto.
  - destruct H. apply good_sqrt; auto.
  - apply good_cos; auto.
Qed.
