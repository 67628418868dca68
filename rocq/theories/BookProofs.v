(** Proofs about shared dictionaries and weights arrays. *)
From Verif Require Import RBase QpBase OptModel OptProofs3 MomModel NiwModel RiskModel BlModel EpModel EpProofs FvSpec FvProofs FvProofs4 FvProofs6 BookModel BookSpec.
Open Scope R_scope.
Open Scope list_scope.

Lemma dmem_in {B} (d : list (vkey * B)) k : dmem d k = true <-> exists v, In (k, v) d.
Proof.
  unfold dmem. rewrite existsb_exists. split.
  - intros ([k' v] & I & E). cbn in E. destruct (vkey_dec k' k); [subst; eauto|discriminate].
  - intros [v I]. exists (k, v). split; auto. cbn. destruct (vkey_dec k k); congruence.
Qed.
Lemma dmem_out {B} (d : list (vkey * B)) k : dmem d k = false -> forall v, ~ In (k, v) d.
Proof. intros E v I. assert (dmem d k = true) by (apply dmem_in; eauto). congruence. Qed.

(** A dictionary that extends [d] by default views for ranked pairs. *)
Definition extends (P : label -> label -> Prop) (d d' : list (vkey * vspec)) : Prop :=
  exists added, d' = d ++ added /\ NoDup (map fst added) /\
    forall k v, In (k, v) added -> v = at_least 0 /\ (forall u, ~ In (k, u) d) /\ exists x y, k = KTup [x; y] /\ P x y.
Lemma extends_refl P d : extends P d d.
Proof. exists []. rewrite app_nil_r. split; auto. split; [constructor|]. intros k v []. Qed.
Lemma extends_trans (P Q U : label -> label -> Prop) a b c : (forall x y, P x y -> U x y) -> (forall x y, Q x y -> U x y) ->
  extends P a b -> extends Q b c -> extends U a c.
Proof.
  intros HP HQ (p & -> & Np & Ip) (q & -> & Nq & Iq). exists (p ++ q). rewrite app_assoc. split; auto. split.
  - rewrite map_app. induction p as [|[k v] p IH]; [exact Nq|]. cbn [map fst app] in *. inversion Np; subst. constructor.
    + intros I. apply in_app_or in I as [I|I]; [auto|]. apply in_map_iff in I as ([k' u] & E & I). cbn in E. subst k'.
      destruct (Iq _ _ I) as (_ & F & _). apply (F v). apply in_or_app. right. left. reflexivity.
    + apply IH; auto.
      * intros k' u I. apply Ip. right. auto.
      * intros k' u I. destruct (Iq _ _ I) as (A & F & G). split; auto. split; auto. intros u' J. apply (F u'). apply in_app_or in J as [J|J]; apply in_or_app; [auto|right; right; auto].
  - intros k v I. apply in_app_or in I as [I|I].
    + destruct (Ip _ _ I) as (A & F & x & y & E & G). split; auto. split; auto. exists x, y. auto.
    + destruct (Iq _ _ I) as (A & F & x & y & E & G). split; auto. split; [|exists x, y; auto]. intros u J. apply (F u). apply in_or_app. auto.
Qed.
Lemma adjacent_cons a l x y : adjacent l x y -> adjacent (a :: l) x y.
Proof. intros (k & A & B). exists (S k). auto. Qed.
Lemma rank_extends l : forall d, extends (adjacent l) d (rank_views d l).
Proof.
  induction l as [|a t IH]; intros d; [apply extends_refl|]. destruct t as [|b t]; [apply extends_refl|].
  cbn [rank_views]. set (d' := if dmem d (KTup [a; b]) then d else d ++ [(KTup [a; b], SOp Ge 0)]).
  apply (extends_trans (adjacent (a :: b :: t)) (adjacent (b :: t)) (adjacent (a :: b :: t)) d d'); auto; [intros x y; apply adjacent_cons| |apply (IH d')].
  unfold d'. destruct (dmem d (KTup [a; b])) eqn:E; [apply extends_refl|].
  exists [(KTup [a; b], SOp Ge 0)]. split; auto. split; [constructor; [intros []|constructor]|]. intros k v [I|[]]. injection I as <- <-. split; auto. split; [apply dmem_out; auto|].
  exists a, b. split; auto. exists 0%nat. auto.
Qed.

(** Ranking again changes nothing. *)
Lemma rank_all_there l : forall d, (forall x y, adjacent l x y -> exists v, In (KTup [x; y], v) d) -> rank_views d l = d.
Proof.
  induction l as [|a t IH]; intros d H; [reflexivity|]. destruct t as [|b t]; [reflexivity|].
  cbn [rank_views]. assert (E : dmem d (KTup [a; b]) = true) by (apply dmem_in; apply H; exists 0%nat; auto). rewrite E.
  apply (IH d). intros x y A. apply H. apply adjacent_cons. exact A.
Qed.
Lemma rank_idem l d : rank_views (rank_views d l) l = rank_views d l.
Proof. apply rank_all_there. intros x y A. destruct (rank_views_spec l d) as (_ & R & _). destruct (R x y A) as (v & I & _). eauto. Qed.

(** What a call does to the dictionary. *)
Lemma book_after_cases chol normals d c :
  book_after chol normals d c = d \/ exists l, bc_rank c = Some l /\ book_after chol normals d c = rank_views d l.
Proof.
  unfold book_after. destruct (fv_setup chol normals (bc_prior c)) as [[[[[[pa as_] T] N] X] p0]|e]; cbn [bind]; auto.
  destruct (negb (N =? 1)%nat); cbn [guard bind]; auto.
  destruct (to_dict SNum as_ (bc_vol c)); cbn [bind]; auto. destruct (to_dict SNum as_ (bc_var c)); cbn [bind]; auto.
  destruct (to_dict SNum as_ (bc_skew c)); cbn [bind]; auto. destruct (to_dict CvNum as_ (bc_cvar c)); cbn [bind]; auto.
  unfold apply_rank. destruct (bc_rank c) as [l|]; auto. destruct (negb (List.length l <? 2)%nat); cbn [guard]; eauto.
Qed.
Lemma book_after_extends chol normals d c : extends (ranked_by [c]) d (book_after chol normals d c).
Proof.
  destruct (book_after_cases chol normals d c) as [->|(l & El & ->)]; [apply extends_refl|].
  eapply extends_trans; [| |apply extends_refl|apply (rank_extends l)]; [intros x y A; exact A|]. intros x y A. exists c, l. cbn. auto.
Qed.
Lemma book_after_ok minimize argsort chol normals d c r :
  flexible_views minimize argsort chol normals (bc_prior c) (with_book d c) = Ok r ->
  book_after chol normals d c = f_mean_views r /\ apply_rank d (bc_rank c) = Ok (f_mean_views r).
Proof.
  intros H. destruct (fv_inv _ _ _ _ _ _ _ H) as (E & HN & mean & vol & var & skew & cvar & E1 & E2 & E3 & E4 & E5 & E6 & _).
  cbn [with_book vs_mean vs_vol vs_var vs_skew vs_cvar vs_rank to_dict] in *. injection E1 as <-.
  unfold book_after. rewrite E. cbn [bind]. assert (Z : (f_N r =? 1)%nat = false) by (apply Nat.eqb_neq; auto). rewrite Z. cbn [negb guard].
  rewrite E2, E3, E4, E5. cbn [bind]. rewrite E6. auto.
Qed.

(** Sessions. *)
Lemma book_session_extends minimize argsort chol normals calls : forall d, extends (ranked_by calls) d (snd (book_session minimize argsort chol normals d calls)).
Proof.
  induction calls as [|c t IH]; intros d; [apply extends_refl|]. cbn [book_session snd].
  eapply extends_trans; [| |apply book_after_extends|apply IH].
  - intros x y (c' & l & [<-|[]] & A). exists c, l. cbn. auto.
  - intros x y (c' & l & I & A). exists c', l. cbn. auto.
Qed.
Lemma extends_in P d d' e : extends P d d' -> In e d -> In e d'.
Proof. intros (a & -> & _) I. apply in_or_app. auto. Qed.
(** The dictionary as the [k]-th call finds it. *)
Fixpoint book_at chol normals d (calls : list book_call) (k : nat) : list (vkey * vspec) :=
  match k, calls with
  | O, _ | _, [] => d
  | Datatypes.S k, c :: t => book_at chol normals (book_after chol normals d c) t k
  end.
Lemma session_nth minimize argsort chol normals calls : forall d k c, nth_error calls k = Some c ->
  nth_error (fst (book_session minimize argsort chol normals d calls)) k =
    Some (flexible_views minimize argsort chol normals (bc_prior c) (with_book (book_at chol normals d calls k) c)).
Proof.
  induction calls as [|c t IH]; intros d [|k] c' E; try discriminate.
  - cbn in E. injection E as <-. reflexivity.
  - cbn [nth_error] in E. cbn [book_session fst nth_error book_at]. apply IH. exact E.
Qed.
Lemma session_length minimize argsort chol normals calls : forall d, List.length (fst (book_session minimize argsort chol normals d calls)) = List.length calls.
Proof. induction calls as [|c t IH]; intros d; [reflexivity|]. cbn. rewrite IH. reflexivity. Qed.
Lemma book_at_extends chol normals calls : forall d k, extends (ranked_by calls) d (book_at chol normals d calls k).
Proof.
  induction calls as [|c t IH]; intros d [|k]; try apply extends_refl. cbn [book_at].
  eapply extends_trans; [| |apply book_after_extends|apply IH].
  - intros x y (c' & l & [<-|[]] & A). exists c, l. cbn. auto.
  - intros x y (c' & l & I & A). exists c', l. cbn. auto.
Qed.
Lemma book_at_step chol normals calls : forall d k c, nth_error calls k = Some c ->
  book_at chol normals d calls (Datatypes.S k) = book_after chol normals (book_at chol normals d calls k) c.
Proof.
  induction calls as [|c t IH]; intros d [|k] c' E; try discriminate.
  - cbn in E. injection E as <-. cbn. destruct t; reflexivity.
  - cbn [nth_error] in E. cbn [book_at]. apply (IH (book_after chol normals d c) k c' E).
Qed.
Lemma book_at_later chol normals calls d k1 : forall k2 e, (k1 <= k2)%nat -> (k2 <= List.length calls)%nat ->
  In e (book_at chol normals d calls k1) -> In e (book_at chol normals d calls k2).
Proof.
  induction k2 as [|k2 IH]; intros e H L I; [replace k1 with 0%nat in I by lia; exact I|].
  destruct (Nat.eq_dec k1 (Datatypes.S k2)) as [->|Hne]; auto. assert (I2 : In e (book_at chol normals d calls k2)) by (apply IH; auto; lia).
  destruct (nth_error calls k2) as [c|] eqn:E; [|apply nth_error_None in E; lia]. rewrite (book_at_step _ _ _ _ _ _ E). eapply extends_in; [apply book_after_extends|exact I2].
Qed.
Lemma book_end minimize argsort chol normals calls : forall d, snd (book_session minimize argsort chol normals d calls) = book_at chol normals d calls (List.length calls).
Proof. induction calls as [|c t IH]; intros d; [reflexivity|]. cbn [book_session snd List.length book_at]. apply IH. Qed.

(** Any successful call, as one with dictionaries. *)
Lemma fv_as_dicts minimize argsort chol normals pr v r : flexible_views minimize argsort chol normals pr v = Ok r ->
  exists vol var skew cvar, flexible_views minimize argsort chol normals pr (dicts (f_mean_views r) vol var skew (vs_corr v) cvar (vs_quantile v) (vs_sequential v)) = Ok r /\
    to_dict SNum (f_assets r) (vs_vol v) = Ok vol /\ to_dict SNum (f_assets r) (vs_var v) = Ok var /\ to_dict SNum (f_assets r) (vs_skew v) = Ok skew /\ to_dict CvNum (f_assets r) (vs_cvar v) = Ok cvar.
Proof.
  intros H. destruct (fv_inv _ _ _ _ _ _ _ H) as (E & HN & mean & vol & var & skew & cvar & E1 & E2 & E3 & E4 & E5 & E6 & E7 & E8 & E9).
  exists vol, var, skew, cvar. split; auto. rewrite (fv_build _ _ _ _ _ _ _ _ _ _ _ _ _ _ _ _ _ _ _ _ E HN E7). f_equal. destruct r. cbn in *. congruence.
Qed.

(** Weights arrays. *)
Lemma rsum_scaled c (l : list R) : rsum (map (fun x => x / c) l) = rsum l / c.
Proof. induction l as [|x l IH]; [unfold Rdiv; cbn; ring|]. cbn [map]. rewrite !rsum_cons, IH. unfold Rdiv. ring. Qed.
Lemma normalised_again (l : list R) : rsum l <> 0 ->
  map (fun x => x / rsum (map (fun x => x / rsum l) l)) (map (fun x => x / rsum l) l) = map (fun x => x / rsum l) l.
Proof.
  intros H. rewrite rsum_scaled. replace (rsum l / rsum l) with 1 by (field; auto). rewrite map_map. apply map_ext. intros x. field. auto.
Qed.
