From Coq Require Import Reals ZArith Arith Bool List Lia Lra Psatz.
From Coquelicot Require Import Coquelicot.
From Verif Require Import RSum Problems_M Problems_S CStep_M.
Import ListNotations.
Open Scope list_scope.
Open Scope R_scope.

(** value and derivative of an expression where it is regular *)
Fixpoint val (e : expr) (x : vec) : R :=
  match e with
  | Var i => x i | Num r => r
  | Add a b => val a x + val b x | Sub a b => val a x - val b x | Mul a b => val a x * val b x | Div a b => val a x / val b x
  | Opp a => - val a x | Pow a n => val a x ^ n | PowR a r => Rpower (val a x) r | Log a => ln (val a x) | Sqrt a => sqrt (val a x) | Cos a => cos (val a x)
  end.
Fixpoint der (e : expr) (x : vec) (k : nat) : R :=
  match e with
  | Var i => if Nat.eqb i k then 1 else 0 | Num r => 0
  | Add a b => der a x k + der b x k | Sub a b => der a x k - der b x k
  | Mul a b => der a x k * val b x + val a x * der b x k
  | Div a b => (der a x k * val b x - val a x * der b x k) / val b x ^ 2
  | Opp a => - der a x k
  | Pow a n => INR n * val a x ^ pred n * der a x k
  | PowR a r => r * Rpower (val a x) r / val a x * der a x k
  | Log a => der a x k / val a x
  | Sqrt a => der a x k / (2 * sqrt (val a x))
  | Cos a => - sin (val a x) * der a x k
  end.
Fixpoint regular (e : expr) (x : vec) : Prop :=
  match e with
  | Var _ | Num _ => True
  | Add a b | Sub a b | Mul a b => regular a x /\ regular b x
  | Div a b => regular a x /\ regular b x /\ val b x <> 0
  | Opp a | Pow a _ | Cos a => regular a x
  | PowR a _ | Log a | Sqrt a => regular a x /\ 0 < val a x
  end.
Lemma evalR_val e x : regular e x -> evalR e x = Some (val e x).
Proof.
  induction e; cbn [evalR val regular]; intros H; try reflexivity.
  - destruct H as (A & B). rewrite IHe1, IHe2 by assumption. reflexivity.
  - destruct H as (A & B). rewrite IHe1, IHe2 by assumption. reflexivity.
  - destruct H as (A & B). rewrite IHe1, IHe2 by assumption. reflexivity.
  - destruct H as (A & B & N). rewrite IHe1, IHe2 by assumption. cbn [bind]. destruct (Req_EM_T (val e2 x) 0); [contradiction|reflexivity].
  - rewrite IHe by assumption. reflexivity.
  - rewrite IHe by assumption. reflexivity.
  - destruct H as (A & N). rewrite IHe by assumption. cbn [bind]. destruct (Rle_dec (val e x) 0); [lra|reflexivity].
  - destruct H as (A & N). rewrite IHe by assumption. cbn [bind]. destruct (Rle_dec (val e x) 0); [lra|reflexivity].
  - destruct H as (A & N). rewrite IHe by assumption. cbn [bind]. destruct (Rlt_dec (val e x) 0); [lra|reflexivity].
  - rewrite IHe by assumption. reflexivity.
Qed.
Lemma upd_self (x : vec) k : forall j, upd x k (x k) j = x j.
Proof. intros j. destruct (Nat.eq_dec j k) as [-> |N]; [apply upd_eq|apply upd_neq; exact N]. Qed.
Lemma val_ext e x y : (forall j, x j = y j) -> val e x = val e y.
Proof. intros H. induction e; cbn [val]; try rewrite IHe1, IHe2; try rewrite IHe; try reflexivity. apply H. Qed.
Lemma der_ext e x y k : (forall j, x j = y j) -> der e x k = der e y k.
Proof. intros H. induction e; cbn [der]; try rewrite IHe1, IHe2; try rewrite IHe; try rewrite (val_ext e1 x y H), (val_ext e2 x y H); try rewrite (val_ext e x y H); reflexivity. Qed.
Lemma regular_ext e x y : (forall j, x j = y j) -> regular e x -> regular e y.
Proof. intros H. induction e; cbn [regular]; intuition; try (rewrite <- (val_ext e2 x y H) in *; tauto); try (rewrite <- (val_ext e x y H); assumption). Qed.
Lemma dcst (c t : R) : is_derive (fun _ => c) t 0.
Proof. auto_derive; [exact I|reflexivity]. Qed.
Lemma d_add (f g : R -> R) (t a b : R) : is_derive f t a -> is_derive g t b -> is_derive (fun t => f t + g t) t (a + b).
Proof. exact (is_derive_plus f g t a b). Qed.
Lemma d_sub (f g : R -> R) (t a b : R) : is_derive f t a -> is_derive g t b -> is_derive (fun t => f t - g t) t (a - b).
Proof. exact (is_derive_minus f g t a b). Qed.
Lemma d_opp (f : R -> R) (t a : R) : is_derive f t a -> is_derive (fun t => - f t) t (- a).
Proof. exact (is_derive_opp f t a). Qed.
Lemma d_mul (f g : R -> R) (t a b : R) : is_derive f t a -> is_derive g t b -> is_derive (fun t => f t * g t) t (a * g t + f t * b).
Proof. intros F G. exact (is_derive_mult f g t a b F G Rmult_comm). Qed.
Lemma d_div (f g : R -> R) (t a b : R) : is_derive f t a -> is_derive g t b -> g t <> 0 -> is_derive (fun t => f t / g t) t ((a * g t - f t * b) / g t ^ 2).
Proof. exact (is_derive_div f g t a b). Qed.
Lemma d_comp (f g : R -> R) (t a b : R) : is_derive f (g t) a -> is_derive g t b -> is_derive (fun t => f (g t)) t (a * b).
Proof. intros F G. rewrite Rmult_comm. exact (is_derive_comp f g t a b F G). Qed.
Lemma d_eq (f : R -> R) (t a b : R) : is_derive f t a -> a = b -> is_derive f t b.
Proof. intros H <-. exact H. Qed.
Lemma val_derive e x k : regular e x -> is_derive (fun t => val e (upd x k t)) (x k) (der e x k).
Proof.
  induction e; cbn [regular val der]; intros H.
  - destruct (Nat.eqb_spec i k) as [-> |N].
    + apply (is_derive_ext (fun t => t)); [intros t; symmetry; apply upd_eq|]. apply (is_derive_id (K := R_AbsRing)).
    + apply (is_derive_ext (fun _ => x i)); [intros t; symmetry; apply upd_neq; exact N|]. apply dcst.
  - apply dcst.
  - destruct H as (A & B). apply (d_add (fun t => val e1 (upd x k t)) (fun t => val e2 (upd x k t))); auto.
  - destruct H as (A & B). apply (d_sub (fun t => val e1 (upd x k t)) (fun t => val e2 (upd x k t))); auto.
  - destruct H as (A & B). eapply d_eq; [apply (d_mul (fun t => val e1 (upd x k t)) (fun t => val e2 (upd x k t))); auto|]. cbv beta.
    rewrite (val_ext e1 _ _ (upd_self x k)), (val_ext e2 _ _ (upd_self x k)). reflexivity.
  - destruct H as (A & B & N). eapply d_eq; [apply (d_div (fun t => val e1 (upd x k t)) (fun t => val e2 (upd x k t))); auto; rewrite (val_ext e2 _ _ (upd_self x k)); exact N|]. cbv beta.
    rewrite (val_ext e1 _ _ (upd_self x k)), (val_ext e2 _ _ (upd_self x k)). reflexivity.
  - apply (d_opp (fun t => val e (upd x k t))). auto.
  - eapply d_eq; [apply (d_comp (fun u => u ^ n) (fun t => val e (upd x k t)) (x k) (INR n * val e x ^ pred n))|]; [rewrite (val_ext e _ _ (upd_self x k)); auto_derive; [exact I|ring]|auto|reflexivity].
  - destruct H as (A & N). eapply d_eq; [apply (d_comp (fun u => Rpower u r) (fun t => val e (upd x k t)) (x k) (r * Rpower (val e x) r / val e x))|]; [|auto|reflexivity].
    rewrite (val_ext e _ _ (upd_self x k)). unfold Rpower. auto_derive; [exact N|]. field. lra.
  - destruct H as (A & N). eapply d_eq; [apply (d_comp ln (fun t => val e (upd x k t)) (x k) (/ val e x))|]; [|auto|match goal with |- ?a = ?b => change (@eq R a b) end; unfold Rdiv; ring].
    rewrite (val_ext e _ _ (upd_self x k)). auto_derive; [exact N|field; lra].
  - destruct H as (A & N). assert (S0 : 0 < sqrt (val e x)) by (apply sqrt_lt_R0; exact N).
    eapply d_eq; [apply (d_comp sqrt (fun t => val e (upd x k t)) (x k) (/ (2 * sqrt (val e x))))|]; [|auto|match goal with |- ?a = ?b => change (@eq R a b) end; unfold Rdiv; ring].
    rewrite (val_ext e _ _ (upd_self x k)). auto_derive; [exact N|field; lra].
  - eapply d_eq; [apply (d_comp cos (fun t => val e (upd x k t)) (x k) (- sin (val e x)))|]; [|auto|reflexivity].
    rewrite (val_ext e _ _ (upd_self x k)). auto_derive; [exact I|ring].
Qed.

(** * complex evaluation along an imaginary step *)
Definition good (f : R -> option cx) (r d : R) : Prop :=
  exists g1 g2 : R -> R, locally 0 (fun h => f h = Some (g1 h, g2 h)) /\ g1 0 = r /\ g2 0 = 0 /\ is_derive g1 0 0 /\ is_derive g2 0 d.
Lemma good_limit f r d : good f r d -> is_lim (fun h => match f h with Some z => snd z / h | None => 0 end) 0 d /\ locally 0 (fun h => f h <> None).
Proof.
  intros (g1 & g2 & L & _ & Z & _ & D). split.
  - apply (is_lim_ext_loc (fun h => (g2 (0 + h) - g2 0) / h)).
    + destruct L as (eps & L). exists eps. intros h Hh _. rewrite (L h Hh). cbn [snd]. rewrite Z, Rplus_0_l. f_equal. ring.
    + apply is_derive_Reals in D. apply is_lim_spec. intros eps. destruct (D eps (cond_pos eps)) as (del & Q). exists del. intros h Hh Nz. apply Q; [exact Nz|].
      change (Rabs (h - 0) < del) in Hh. rewrite Rminus_0_r in Hh. exact Hh.
  - revert L. apply filter_imp. intros h E. rewrite E. discriminate.
Qed.

Section Rules.
Variables (f f' : R -> option cx) (r d r' d' : R).
Hypothesis F : good f r d.
Lemma good_map (op : cx -> cx) (v : R) (h1 h2 : R -> R -> R) r1 d1 :
  locally r (fun a => forall b, Rabs b < v -> op (a, b) = (h1 a b, h2 a b)) -> 0 < v ->
  (forall g1 g2, g1 0 = r -> g2 0 = 0 -> is_derive g1 0 0 -> is_derive g2 0 d -> h1 (g1 0) (g2 0) = r1 /\ h2 (g1 0) (g2 0) = 0 /\ is_derive (fun h => h1 (g1 h) (g2 h)) 0 0 /\ is_derive (fun h => h2 (g1 h) (g2 h)) 0 d1) ->
  good (fun h => bind (f h) (fun u => Some (op u))) r1 d1.
Proof.
  intros L V H. destruct F as (g1 & g2 & E & A & B & D1 & D2). destruct (H g1 g2 A B D1 D2) as (P & Q & S1 & S2).
  exists (fun h => h1 (g1 h) (g2 h)), (fun h => h2 (g1 h) (g2 h)). split; [|auto].
  assert (C1 : continuous g1 0) by (apply (ex_derive_continuous (K := R_AbsRing) (V := R_NormedModule)); eexists; exact D1).
  assert (C2 : continuous g2 0) by (apply (ex_derive_continuous (K := R_AbsRing) (V := R_NormedModule)); eexists; exact D2).
  assert (L1 : locally 0 (fun h => forall b, Rabs b < v -> op (g1 h, b) = (h1 (g1 h) b, h2 (g1 h) b))) by (apply (C1 (fun a => forall b, Rabs b < v -> op (a, b) = (h1 a b, h2 a b))); rewrite A; exact L).
  assert (L2 : locally 0 (fun h => Rabs (g2 h) < v)).
  { apply (C2 (fun b => Rabs b < v)). rewrite B. exists (mkposreal v V). intros b Hb. change (Rabs (b - 0) < v) in Hb. rewrite Rminus_0_r in Hb. exact Hb. }
  apply (filter_imp (fun h => (f h = Some (g1 h, g2 h) /\ Rabs (g2 h) < v) /\ (forall b, Rabs b < v -> op (g1 h, b) = (h1 (g1 h) b, h2 (g1 h) b)))).
  - intros h ((X & Y) & Z). rewrite X. cbn [bind]. f_equal. apply Z. exact Y.
  - apply filter_and; [apply filter_and|]; assumption.
Qed.
Lemma good_ext_loc (g : R -> option cx) : locally 0 (fun h => f h = g h) -> good g r d.
Proof.
  intros L. destruct F as (g1 & g2 & E & H). exists g1, g2. split; [|exact H]. apply (filter_imp (fun h => f h = g h /\ f h = Some (g1 h, g2 h))); [intros h (X & Y); rewrite <- X; exact Y|apply filter_and; assumption].
Qed.
Hypothesis F' : good f' r' d'.
Lemma good_bin (op : cx -> cx -> cx) (h1 h2 : R -> R -> R -> R -> R) r1 d1 : (forall a b a' b', op (a, b) (a', b') = (h1 a b a' b', h2 a b a' b')) ->
  (forall g1 g2 g1' g2', g1 0 = r -> g2 0 = 0 -> is_derive g1 0 0 -> is_derive g2 0 d -> g1' 0 = r' -> g2' 0 = 0 -> is_derive g1' 0 0 -> is_derive g2' 0 d' ->
     h1 r 0 r' 0 = r1 /\ h2 r 0 r' 0 = 0 /\ is_derive (fun h => h1 (g1 h) (g2 h) (g1' h) (g2' h)) 0 0 /\ is_derive (fun h => h2 (g1 h) (g2 h) (g1' h) (g2' h)) 0 d1) ->
  good (fun h => bind (f h) (fun u => bind (f' h) (fun v => Some (op u v)))) r1 d1.
Proof.
  intros O H. destruct F as (g1 & g2 & E & A & B & D1 & D2). destruct F' as (g1' & g2' & E' & A' & B' & D1' & D2').
  destruct (H g1 g2 g1' g2' A B D1 D2 A' B' D1' D2') as (P & Q & S1 & S2).
  exists (fun h => h1 (g1 h) (g2 h) (g1' h) (g2' h)), (fun h => h2 (g1 h) (g2 h) (g1' h) (g2' h)). cbv beta. rewrite A, B, A', B'. split; [|auto].
  apply (filter_imp (fun h => f h = Some (g1 h, g2 h) /\ f' h = Some (g1' h, g2' h))); [|apply filter_and; assumption].
  intros h (X & Y). rewrite X, Y. cbn [bind]. rewrite O. reflexivity.
Qed.
Lemma good_add : good (fun h => bind (f h) (fun u => bind (f' h) (fun v => Some (cadd u v)))) (r + r') (d + d').
Proof.
  apply (good_bin cadd (fun a b a' b' => a + a') (fun a b a' b' => b + b')); [reflexivity|]. intros. split; [reflexivity|]. split; [ring|]. split.
  - eapply d_eq; [apply d_add; eassumption|ring].
  - apply d_add; assumption.
Qed.
Lemma good_sub : good (fun h => bind (f h) (fun u => bind (f' h) (fun v => Some (csub u v)))) (r - r') (d - d').
Proof.
  apply (good_bin csub (fun a b a' b' => a - a') (fun a b a' b' => b - b')); [reflexivity|]. intros. split; [reflexivity|]. split; [ring|]. split.
  - eapply d_eq; [apply d_sub; eassumption|ring].
  - apply d_sub; assumption.
Qed.
Lemma good_mul : good (fun h => bind (f h) (fun u => bind (f' h) (fun v => Some (cmul u v)))) (r * r') (d * r' + r * d').
Proof.
  apply (good_bin cmul (fun a b a' b' => a * a' - b * b') (fun a b a' b' => a * b' + b * a')); [reflexivity|]. intros g1 g2 g1' g2' A B D1 D2 A' B' D1' D2'. split; [ring|]. split; [ring|]. split.
  - eapply d_eq; [apply d_sub; apply d_mul; eassumption|]. rewrite A, B, A', B'. ring.
  - eapply d_eq; [apply d_add; apply d_mul; eassumption|]. rewrite A, B, A', B'. ring.
Qed.
Lemma good_div : r' <> 0 -> good (fun h => bind (f h) (fun u => bind (f' h) (fun v => if czero v then None else Some (cdiv u v)))) (r / r') ((d * r' - r * d') / r' ^ 2).
Proof.
  intros N.
  assert (G : good (fun h => bind (f h) (fun u => bind (f' h) (fun v => Some (cdiv u v)))) (r / r') ((d * r' - r * d') / r' ^ 2)).
  { apply (good_bin cdiv (fun a b a' b' => (a * a' + b * b') / (a' ^ 2 + b' ^ 2)) (fun a b a' b' => (b * a' - a * b') / (a' ^ 2 + b' ^ 2))); [reflexivity|]. intros g1 g2 g1' g2' A B D1 D2 A' B' D1' D2'.
    assert (P2 : r' ^ 2 + 0 ^ 2 <> 0) by (replace (r' ^ 2 + 0 ^ 2) with (r' * r') by ring; apply Rmult_integral_contrapositive_currified; exact N).
    assert (DD : is_derive (fun h => g1' h ^ 2 + g2' h ^ 2) 0 0).
    { eapply d_eq; [apply (d_add (fun h => g1' h ^ 2) (fun h => g2' h ^ 2)); [apply (d_comp (fun u => u ^ 2) g1' 0 (2 * g1' 0))|apply (d_comp (fun u => u ^ 2) g2' 0 (2 * g2' 0))]; try eassumption; auto_derive; try exact I; ring|]. rewrite B'. ring. }
    split; [field; exact N|]. split; [field; exact N|]. split.
    - eapply d_eq; [apply (d_div (fun h => g1 h * g1' h + g2 h * g2' h) (fun h => g1' h ^ 2 + g2' h ^ 2)); [apply d_add; apply d_mul; eassumption|exact DD|rewrite A', B'; exact P2]|]. cbv beta. rewrite A, B, A', B'. field. exact N.
    - eapply d_eq; [apply (d_div (fun h => g2 h * g1' h - g1 h * g2' h) (fun h => g1' h ^ 2 + g2' h ^ 2)); [apply d_sub; apply d_mul; eassumption|exact DD|rewrite A', B'; exact P2]|]. cbv beta. rewrite A, B, A', B'. field. exact N. }
  destruct G as (g1 & g2 & E & H). exists g1, g2. split; [|exact H]. destruct F' as (g1' & g2' & E' & A' & B' & D1' & D2').
  assert (C1 : continuous g1' 0) by (apply (ex_derive_continuous (K := R_AbsRing) (V := R_NormedModule)); eexists; exact D1').
  assert (L1 : locally 0 (fun h => g1' h <> 0)) by (apply (C1 (fun a => a <> 0)); apply open_neq; rewrite A'; exact N).
  apply (filter_imp (fun h => (bind (f h) (fun u => bind (f' h) (fun v => Some (cdiv u v))) = Some (g1 h, g2 h) /\ f' h = Some (g1' h, g2' h)) /\ g1' h <> 0)).
  - intros h ((X & Y) & Z). rewrite <- X. rewrite Y. cbn [bind]. assert (Cz : czero (g1' h, g2' h) = false) by (unfold czero; cbn [fst]; destruct (Req_EM_T (g1' h) 0); [contradiction|reflexivity]). rewrite Cz. reflexivity.
  - apply filter_and; [apply filter_and|]; assumption.
Qed.
End Rules.
