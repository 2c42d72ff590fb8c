From Coq Require Import Arith Bool String Ascii List Lia.
From Verif Require Import Cache_M Cache_S.
Import ListNotations.
Open Scope list_scope.
Open Scope nat_scope.
Lemma sub_all s k : String.length s <= k -> substring 0 k s = s.
Proof. revert k. induction s as [|c s IH]; intros [|k] H; cbn in *; try lia; try reflexivity. rewrite IH by lia. reflexivity. Qed.
Lemma sub_sub s : forall a b, substring 0 a (substring 0 b s) = substring 0 (min a b) s.
Proof. induction s as [|c s IH]; intros [|a] [|b]; cbn; try reflexivity. rewrite IH. reflexivity. Qed.
Lemma append_length (s t : string) : String.length (s ++ t) = String.length s + String.length t.
Proof. induction s as [|c s IH]; cbn; [reflexivity|]. rewrite IH. reflexivity. Qed.
Lemma app_tail (s s' t t' : string) : (s ++ t = s' ++ t')%string -> String.length t = String.length t' -> t = t'.
Proof.
  revert s'. induction s as [|c s IH]; intros [|c' s'] H L; cbn in H.
  - exact H.
  - exfalso. apply (f_equal String.length) in H. cbn in H. rewrite append_length in H. lia.
  - exfalso. apply (f_equal String.length) in H. cbn in H. rewrite append_length in H. lia.
  - injection H as _ H. apply (IH s' H L).
Qed.
Lemma app_head (s s' t t' : string) : (s ++ t = s' ++ t')%string -> String.length s = String.length s' -> s = s'.
Proof.
  revert s'. induction s as [|c s IH]; intros [|c' s'] H L; cbn in *; try discriminate; [reflexivity|]. injection H as -> H. f_equal. apply IH; [exact H|lia].
Qed.
Section P.
Variables (B V P E : Type) (dumps_self : B -> option string) (md5 : string -> string) (dumps : dict V -> string) (loads : string -> option (dict V)) (cl : B -> client V E).
Hypotheses (PC : pickle_contract V dumps loads) (NC : no_collision B V E dumps_self md5 cl) (ML : md5_length md5).
Notation train := (train B V P E dumps_self md5 dumps loads cl).
Notation reach := (reach B V P E dumps_self md5 dumps loads cl).
Notation compute := (compute V E). Notation store := (store V E). Notation load := (load V E).
Lemma filename_inj dir dir' p p' : filename dir (md5 p) = filename dir' (md5 p') -> md5 p = md5 p'.
Proof.
  clear - ML. unfold filename. intros H. set (a := match dir with Some d => d | None => "None"%string end) in *. set (b := match dir' with Some d => d | None => "None"%string end) in *.
  apply app_tail in H; [|cbn; rewrite !append_length, !ML; reflexivity]. cbn in H. injection H as H. apply app_head in H; [exact H|]. rewrite !ML. reflexivity.
Qed.
Definition inv (f : fs) : Prop := forall dir b p s, dumps_self b = Some p -> f (filename dir (md5 p)) = Some s ->
  exists a st k, compute (cl b) = inr a /\ select V a (store (cl b)) = Some st /\ s = substring 0 k (dumps st).
Lemma body_nil c : train_body V E c [] = match compute c with inl e => inl e | inr a => match select V a (store c) with Some s => inr (s, (a, true)) | None => inl (key_error V E c) end end.
Proof. reflexivity. Qed.
Lemma load_prefix st k d : loads (substring 0 k (dumps st)) = Some d -> d = st /\ String.length (dumps st) <= k.
Proof.
  clear NC ML. destruct PC as [P1 P2]. intros H. destruct (Nat.lt_ge_cases k (String.length (dumps st))) as [L|L].
  - rewrite (P2 st k L) in H. discriminate.
  - rewrite sub_all in H by exact L. rewrite P1 in H. injection H as <-. split; [reflexivity|exact L].
Qed.
Lemma write_inv f dir o p st k a : inv f -> dumps_self (body B P o) = Some p -> compute (cl (body B P o)) = inr a -> select V a (store (cl (body B P o))) = Some st ->
  inv (write f (filename dir (md5 p)) (substring 0 k (dumps st))).
Proof.
  intros I D C S dir' b' p' s D' H. unfold write in H. destruct (String.eqb_spec (filename dir' (md5 p')) (filename dir (md5 p))) as [Q|Q]; [|apply (I dir' b' p' s D' H)].
  apply filename_inj in Q. rewrite (NC b' (body B P o) p' p D' D Q). injection H as <-. exists a, st, k. tauto.
Qed.
Lemma inv_train f o dir w r o' f' : inv f -> train o dir w f = (r, o', f') -> inv f'.
Proof.
  intros I. unfold Cache_M.train, cached_operation, checksum. destruct (dumps_self (body B P o)) as [p|] eqn:D; [|intros [= <- <- <-]; exact I]. cbv zeta.
  destruct (match f (filename dir (md5 p)) with Some s => loads s | None => None end) as [d|] eqn:L.
  - destruct (train_body V E (cl (body B P o)) d) as [e|[d' t]]; intros [= <- <- <-]; exact I.
  - rewrite body_nil. destruct (compute (cl (body B P o))) as [e|a] eqn:C; [intros [= <- <- <-]; exact I|]. destruct (select V a (store (cl (body B P o)))) as [st|] eqn:S; [|intros [= <- <- <-]; exact I].
    destruct (truthy dir); [|intros [= <- <- <-]; exact I]. destruct w as [| |k]; intros [= <- <- <-]; [|exact I|].
    + rewrite <- (sub_all (dumps st) (String.length (dumps st))) by lia. apply (write_inv f dir o p st _ a); assumption.
    + apply (write_inv f dir o p st _ a); assumption.
Qed.
Lemma reach_inv f : reach f -> inv f.
Proof.
  induction 1 as [f H|f o dir w r o' f' H IH T|f n H IH|f n k s H IH Hn].
  - intros dir b p s D F. rewrite (H dir b p D) in F. discriminate.
  - apply (inv_train f o dir w r o' f' IH T).
  - intros dir b p s D F. cbv beta in F. destruct (String.eqb (filename dir (md5 p)) n); [discriminate|]. apply (IH dir b p s D F).
  - intros dir b p s' D F. cbv beta in F. destruct (String.eqb_spec (filename dir (md5 p)) n) as [Q|Q]; [|apply (IH dir b p s' D F)].
    injection F as <-. subst n. destruct (IH dir b p s D Hn) as (a & st & k' & C & S & ->). exists a, st, (min k k'). rewrite sub_sub. tauto.
Qed.
Lemma get_select a ks s : select V a ks = Some s -> forall k, In k ks -> get V s k = get V a k.
Proof.
  revert s. induction ks as [|k0 ks IH]; intros s H k Hk; [destruct Hk|]. cbn in H. destruct (get V a k0) as [v|] eqn:G; [|discriminate]. destruct (select V a ks) as [l|]; [|discriminate]. injection H as <-.
  unfold get at 1. cbn. destruct (String.eqb_spec k0 k) as [<- | N]; [cbn; symmetry; exact G|]. destruct Hk as [-> | Hk]; [contradiction|]. specialize (IH l eq_refl k Hk). unfold get in IH at 1. exact IH.
Qed.
Lemma select_some a s ks : (forall k, In k ks -> get V s k = get V a k) -> (forall k, In k ks -> get V a k <> None) -> exists l, select V s ks = Some l.
Proof.
  induction ks as [|k ks IH]; intros H N; [exists []; reflexivity|]. cbn. rewrite H by (left; reflexivity). destruct (get V a k) eqn:G; [|exfalso; apply (N k); [left; reflexivity|exact G]].
  destruct IH as [l ->]; [intros; apply H; right; assumption|intros; apply N; right; assumption|]. eexists. reflexivity.
Qed.
Lemma select_all a ks s : select V a ks = Some s -> forall k, In k ks -> get V a k <> None.
Proof.
  revert s. induction ks as [|k0 ks IH]; intros s H k Hk; [destruct Hk|]. cbn in H. destruct (get V a k0) as [v|] eqn:G; [|discriminate]. destruct (select V a ks) as [l|]; [|discriminate].
  destruct Hk as [<- | Hk]; [congruence|]. apply (IH l eq_refl k Hk).
Qed.
(** what every call does *)
Lemma train_cases f o dir w : reach f -> client_ok V E (cl (body B P o)) ->
  match dumps_self (body B P o) with
  | None => train o dir w f = (PickleError, {| body := body B P o; printer := None |}, f)
  | Some p => match compute (cl (body B P o)) with
    | inl e => train o dir w f = (BodyRaise e, o, f)
    | inr a => exists st, select V a (store (cl (body B P o))) = Some st /\
        (train o dir w f = (Done (a, true), o, f) /\ (store (cl (body B P o)) = [] \/ truthy dir = false)
         \/ (exists l, train o dir w f = (Done (l, false), o, f) /\ select V st (load (cl (body B P o))) = Some l /\ (forall k, In k (load (cl (body B P o))) -> get V l k = get V a k)
               /\ match f (filename dir (md5 p)) with Some s => loads s = Some st | None => False end /\ st <> [])
         \/ truthy dir = true /\ train o dir w f = match w with WOk => (Done (a, true), o, write f (filename dir (md5 p)) (dumps st)) | WFail => (WriteError, o, f)
                                                   | WPart k => (WriteError, o, write f (filename dir (md5 p)) (substring 0 k (dumps st))) end)
    end
  end.
Proof.
  intros R OK. pose proof (reach_inv f R) as I. unfold Cache_M.train, cached_operation, checksum. destruct (dumps_self (body B P o)) as [p|] eqn:D; [|reflexivity]. cbv zeta.
  destruct (f (filename dir (md5 p))) as [s|] eqn:F.
  - destruct (I dir (body B P o) p s D F) as (a & st & k & C & S & ->). rewrite C. destruct (loads (substring 0 k (dumps st))) as [d|] eqn:L.
    + destruct (load_prefix st k d L) as [-> Hk]. exists st. split; [exact S|]. destruct st as [|x st'].
      * left. rewrite body_nil, C, S. split; [reflexivity|]. left. destruct (store (cl (body B P o))) as [|k0 ks]; [reflexivity|]. cbn in S. destruct (get V a k0); [|discriminate]. destruct (select V a ks); discriminate.
      * right. left. destruct (OK a C) as (s' & S' & [Z|Sub]); [rewrite Z in S; discriminate|].
        destruct (select_some a (x :: st') (load (cl (body B P o)))) as [l Hl]; [intros k0 H0; apply (get_select a _ _ S k0), Sub, H0|intros k0 H0; apply (select_all a _ _ S k0), Sub, H0|].
        exists l. unfold train_body. rewrite Hl. split; [reflexivity|]. split; [reflexivity|]. split; [|split; [reflexivity|discriminate]].
        intros k0 H0. rewrite (get_select _ _ _ Hl k0 H0). apply (get_select a _ _ S k0), Sub, H0.
    + exists st. split; [exact S|]. rewrite body_nil, C, S. destruct (truthy dir); [right; right; split; [reflexivity|destruct w; reflexivity]|left; split; [reflexivity|right; reflexivity]].
  - rewrite body_nil. destruct (compute (cl (body B P o))) as [e|a] eqn:C; [reflexivity|]. destruct (OK a C) as (st & S & _). exists st. rewrite S. split; [reflexivity|].
    destruct (truthy dir); [right; right; split; [reflexivity|destruct w; reflexivity]|left; split; [reflexivity|right; reflexivity]].
Qed.
End P.
