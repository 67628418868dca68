(** Proofs about building a distribution from a table of returns. *)
From Coq Require Import String Permutation.
From Verif Require Import RBase QpBase SortLib RiskModel ConsModel ConsSpec MomModel MomSpec MomProofs DistModel DistSpec DistProofs DistProofs2 DistProperties OptProofs ConvModel EpModel StModel StSpec StProofs OptModel EnsModel EnsSpec EnsProofs AsmModel FrModel FrSpec WrModel WrSpec WrProofs7 SpecModel SpecSpec SpecProofs.
Open Scope R_scope.
Open Scope list_scope.

Lemma finite_all_in l rs : finite_all l = Some rs -> forall x, In x l -> exists r, x = Fin r.
Proof. intros E x I. apply finite_all_spec in E. subst l. apply in_map_iff in I as (r & <- & _). eauto. Qed.
Lemma finite_all_nn l : (forall x, In x l -> exists r, x = Fin r /\ 0 <= r) -> exists rs, finite_all l = Some rs /\ forall r, In r rs -> 0 <= r.
Proof.
  induction l as [|x l IH]; intros H; [exists []; split; [reflexivity|intros ? []]|].
  destruct (H x (or_introl eq_refl)) as (r & -> & Hr). destruct IH as (rs & E & Hrs); [intros y I; apply H; right; exact I|].
  exists (r :: rs). cbn. rewrite E. split; [reflexivity|]. intros r' [<-|I]; auto.
Qed.
Lemma value_nth rs k : value_of (nth k (map Fin rs) NaN) = nth k rs 0.
Proof. revert k. induction rs as [|r rs IH]; intros [|k]; cbn; auto. Qed.

(** Resolved probabilities are proportional to what was given. *)
Lemma resolve_pyf_ok l T q : resolve_pyf l T = Ok q ->
  List.length l = T /\ (forall x, In x l -> exists r, x = Fin r /\ 0 <= r) /\ List.length q = T /\ 0 < sumn T (fun k => value_of (nth k l NaN)) /\
  exists s, 0 < s /\ forall k, nth k q 0 = value_of (nth k l NaN) / s.
Proof.
  unfold resolve_pyf. destruct (finite_all l) as [rs|] eqn:E; [|discriminate]. intros H. apply finite_all_spec in E. subst l.
  unfold resolve_probs in H. apply bind_ok in H as (q' & E & H). apply guard_ok in H as [Hl H]. injection H as ->. apply Nat.eqb_eq in Hl.
  apply normalize_ok in E as (Hne & Hn & Hp & E).
  assert (L : List.length q = List.length rs) by (rewrite E; destruct (risclose _ _); [|rewrite map_length]; reflexivity).
  rewrite map_length. split; [lia|]. split; [intros x I; apply in_map_iff in I as (r & <- & I); eauto|]. split; [exact Hl|]. split.
  - rewrite (sumn_ext _ _ (fun k => nth k rs 0)) by (intros; apply value_nth). rewrite <- Hl, L, <- rsum_sumn. exact Hp.
  - destruct (risclose (rsum rs) 1).
    + exists 1. split; [lra|]. intros k. rewrite value_nth, E. field.
    + exists (rsum rs). split; [exact Hp|]. intros k. rewrite value_nth, E.
      destruct (Nat.lt_ge_cases k (List.length rs)) as [H|H]; [rewrite (nth_map_lt _ rs k 0 0 H); reflexivity|].
      rewrite !nth_overflow by (rewrite ?map_length; lia). unfold Rdiv. ring.
Qed.
Lemma resolve_pyf_total l T : List.length l = T -> (forall x, In x l -> exists r, x = Fin r /\ 0 <= r) ->
  0 < sumn T (fun k => value_of (nth k l NaN)) -> exists q, resolve_pyf l T = Ok q.
Proof.
  intros HL HX HS. unfold resolve_pyf. destruct (finite_all_nn l HX) as (rs & E & Hrs). rewrite E. apply finite_all_spec in E. subst l.
  apply resolve_iff. cbn. rewrite map_length in HL. split; [exact HL|]. split; [exact Hrs|].
  rewrite (sumn_ext _ _ (fun k => nth k rs 0)) in HS by (intros; apply value_nth). rewrite <- HL, <- rsum_sumn in HS. exact HS.
Qed.
Lemma resolve_pyf_err l T e : resolve_pyf l T = Err e -> e = ValueError.
Proof. unfold resolve_pyf. destruct (finite_all l); [apply resolve_err|congruence]. Qed.

(** ** Labelled probabilities *)
Lemma distinct_iff l : distinct l = true <-> NoDup l.
Proof.
  induction l as [|x l IH]; cbn; [split; [constructor|reflexivity]|]. rewrite andb_true_iff, negb_true_iff, one_of_not, IH. split.
  - intros [A B]. constructor; auto.
  - intros H. inversion H; auto.
Qed.
Lemma assoc_at {A} (l : list (string * A)) k d : NoDup (map fst l) -> (k < List.length l)%nat ->
  assoc (nth k (map fst l) EmptyString) l = Some (nth k (map snd l) d).
Proof.
  intros ND H. apply assoc_nodup; auto. revert k H. clear ND. induction l as [|[a b] l IH]; intros [|k] H; cbn in *; try lia; [left; reflexivity|].
  right. apply IH. lia.
Qed.

Lemma align_ok l idx v : NoDup (map fst l) -> align_probs l idx = Ok v ->
  List.length v = List.length idx /\ forall k, (k < List.length idx)%nat -> assoc (nth k idx EmptyString) l = Some (nth k v NaN).
Proof.
  intros ND. unfold align_probs. destruct (names_eqb (map fst l) idx) eqn:E.
  - intros H. injection H as <-. apply names_eqb_iff in E. subst idx. rewrite !map_length. split; [reflexivity|]. intros k Hk. apply assoc_at; auto.
  - rewrite (proj2 (distinct_iff _) ND). apply reindex_spec.
Qed.
Lemma align_err l idx e : align_probs l idx = Err e -> e = ValueError.
Proof.
  unfold align_probs. destruct (names_eqb _ _); [discriminate|]. destruct (distinct _); [|congruence].
  induction idx as [|k idx IH]; cbn; [discriminate|]. destruct (assoc k l) as [[x| | | ]|]; try congruence; (destruct (reindex l idx); cbn; [discriminate|exact IH]).
Qed.
Lemma reindex_total l idx : (forall k, (k < List.length idx)%nat -> exists r, assoc (nth k idx EmptyString) l = Some (Fin r)) -> exists v, reindex l idx = Ok v.
Proof.
  induction idx as [|k idx IH]; intros H; cbn; [eauto|]. destruct (H 0%nat) as (r & E); [cbn; lia|]. cbn in E. rewrite E.
  destruct IH as (v & Ev); [intros j Hj; apply (H (S j)); cbn; lia|]. rewrite Ev. cbn. eauto.
Qed.

(** ** Probabilities of the rows *)
Lemma raw_prob_len p t q : unique_labels p -> table_probs p t = Ok q -> usable_weights p t /\
  match q with
  | None => p = PNone
  | Some q => List.length q = rows t /\ p <> PNone /\ exists s, 0 < s /\ forall k, (k < rows t)%nat -> nth k q 0 = raw_prob p t k / s
  end \/ (p = PNone /\ q = None).
Proof.
  intros U. unfold table_probs. destruct p as [|l|l]; cbn [bind].
  - intros H. injection H as <-. right. auto.
  - intros H. apply bind_ok in H as (v & Ev & H). apply bind_ok in H as (q' & Eq & H). injection H as <-. left.
    destruct (align_ok _ _ _ (U l eq_refl) Ev) as [Lv Av]. apply resolve_pyf_ok in Eq as (L1 & X1 & L2 & S1 & s & Hs & E).
    assert (RP : forall k, (k < rows t)%nat -> raw_prob (PSeries l) t k = value_of (nth k v NaN)) by (intros k Hk; cbn; rewrite (Av k Hk); reflexivity).
    split.
    + split.
      * intros k Hk. rewrite (Av k Hk). destruct (X1 (nth k v NaN)) as (r & Er & Hr); [apply nth_In; unfold rows in Hk; rewrite Lv; exact Hk|]. exists r. rewrite Er. auto.
      * rewrite (sumn_ext _ _ (fun k => value_of (nth k v NaN))) by exact RP. exact S1.
    + split; [exact L2|]. split; [discriminate|]. exists s. split; [exact Hs|]. intros k Hk. rewrite E, RP by exact Hk. reflexivity.
  - intros H. apply bind_ok in H as (q' & Eq & H). injection H as <-. left. apply resolve_pyf_ok in Eq as (L1 & X1 & L2 & S1 & s & Hs & E).
    split; [split; [split; [exact L1|exact X1]|exact S1]|]. split; [exact L2|]. split; [discriminate|]. exists s. split; [exact Hs|]. intros k _. apply E.
Qed.
Lemma table_probs_total p t : unique_labels p -> usable_weights p t -> exists q, table_probs p t = Ok q.
Proof.
  intros U [HU HS]. unfold table_probs. destruct p as [|l|l]; cbn [bind].
  - eauto.
  - assert (Ev : exists v, align_probs l (tb_index t) = Ok v).
    { unfold align_probs. destruct (names_eqb _ _); [eauto|]. rewrite (proj2 (distinct_iff _) (U l eq_refl)). apply reindex_total.
      intros k Hk. destruct (HU k Hk) as (r & E & _). eauto. }
    destruct Ev as (v & Ev). rewrite Ev. cbn [bind]. destruct (align_ok _ _ _ (U l eq_refl) Ev) as [Lv Av].
    destruct (resolve_pyf_total v (List.length (tb_index t))) as (q & Eq); [exact Lv| | |rewrite Eq; cbn [bind]; eauto].
    + intros x I. apply (In_nth _ _ NaN) in I as (k & Hk & Ex). rewrite Lv in Hk. destruct (HU k Hk) as (r & E & Hr). rewrite (Av k Hk) in E. injection E as E. exists r. split; [congruence|exact Hr].
    + rewrite (sumn_ext _ _ (raw_prob (PSeries l) t)); [exact HS|]. intros k Hk. cbn. rewrite (Av k Hk). reflexivity.
  - destruct HU as [L X]. destruct (resolve_pyf_total l (List.length (tb_index t))) as (q & Eq); [exact L|exact X|exact HS|rewrite Eq; cbn [bind]; eauto].
Qed.
Lemma table_probs_err p t e : table_probs p t = Err e -> e = ValueError.
Proof.
  unfold table_probs. destruct p as [|l|l]; [discriminate| |].
  - destruct (align_probs _ _) eqn:E; cbn [bind]; [|intros H; injection H as ->; eapply align_err; eauto].
    destruct (resolve_pyf _ _) eqn:E'; cbn [bind]; [discriminate|]. intros H. injection H as ->. eapply resolve_pyf_err; eauto.
  - destruct (resolve_pyf _ _) eqn:E'; cbn [bind]; [discriminate|]. intros H. injection H as ->. eapply resolve_pyf_err; eauto.
Qed.

(** Reordering a labelled series changes nothing. *)
Lemma table_probs_perm l l' t : NoDup (map fst l) -> Permutation l l' -> table_probs (PSeries l) t = table_probs (PSeries l') t.
Proof.
  intros ND HP. unfold table_probs. assert (ND' : NoDup (map fst l')) by (eapply Permutation_NoDup; [apply Permutation_map, HP|exact ND]).
  assert (A : forall m, NoDup (map fst m) -> align_probs m (tb_index t) = reindex m (tb_index t) \/
     (map fst m = tb_index t /\ align_probs m (tb_index t) = Ok (map snd m) /\
      forall q, reindex m (tb_index t) = Ok q -> q = map snd m)).
  { intros m NDm. unfold align_probs. destruct (names_eqb _ _) eqn:E; [|rewrite (proj2 (distinct_iff _) NDm); left; reflexivity].
    right. apply names_eqb_iff in E. split; [exact E|]. split; [reflexivity|]. intros q Eq. destruct (reindex_spec _ _ _ Eq) as [L X].
    apply (nth_ext _ _ NaN NaN); [rewrite L, <- E, !map_length; reflexivity|]. intros k Hk. rewrite L in Hk. specialize (X k Hk).
    rewrite <- E in X, Hk. rewrite map_length in Hk. rewrite (assoc_at m k NaN NDm Hk) in X. congruence. }
  assert (F : forall m, NoDup (map fst m) -> (let* v := align_probs m (tb_index t) in resolve_pyf v (List.length (tb_index t))) =
                                             (let* v := reindex m (tb_index t) in resolve_pyf v (List.length (tb_index t)))).
  { intros m NDm. destruct (A m NDm) as [-> | (E1 & E2 & E3)]; [reflexivity|]. rewrite E2. cbn [bind].
    destruct (reindex m (tb_index t)) as [q|e] eqn:Eq; cbn [bind]; [rewrite (E3 q eq_refl); reflexivity|].
    destruct (resolve_pyf (map snd m) (List.length (tb_index t))) as [q|e'] eqn:Er.
    - apply resolve_pyf_ok in Er as (_ & X & _). exfalso. destruct (reindex_total m (tb_index t)) as (v & Ev); [|congruence].
      intros k Hk. rewrite <- E1 in Hk |- *. rewrite map_length in Hk. rewrite (assoc_at m k NaN NDm Hk).
      destruct (X (nth k (map snd m) NaN)) as (r & Er & _); [apply nth_In; rewrite map_length; exact Hk|]. exists r. congruence.
    - apply resolve_pyf_err in Er. subst e'. f_equal. clear - Eq. revert Eq. generalize (tb_index t). induction l as [|k idx IH]; cbn; [discriminate|].
      destruct (assoc k m) as [[x| | | ]|]; try congruence; (destruct (reindex m idx); cbn; [discriminate|intros H; apply IH; exact H]). }
  transitivity (let* q := (let* v := align_probs l (tb_index t) in resolve_pyf v (List.length (tb_index t))) in Ok (Some q)).
  { destruct (align_probs l (tb_index t)); reflexivity. }
  transitivity (let* q := (let* v := align_probs l' (tb_index t) in resolve_pyf v (List.length (tb_index t))) in Ok (Some q)).
  { rewrite (F l ND), (F l' ND'), (reindex_perm l l' _ ND HP). reflexivity. }
  destruct (align_probs l' (tb_index t)); reflexivity.
Qed.
