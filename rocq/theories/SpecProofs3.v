(** Proofs about the distribution of a spec. *)
From Coq Require Import String Permutation.
From Verif Require Import RBase QpBase SortLib RiskModel ConsModel ConsSpec MomModel MomSpec MomProofs DistModel DistSpec DistProofs DistProofs2 DistProperties OptProofs ConvModel EpModel StModel StSpec StProofs OptModel EnsModel EnsSpec EnsProofs AsmModel FrModel FrSpec WrModel WrSpec WrProofs7 SpecModel SpecSpec SpecProofs SpecProofs2.
Open Scope R_scope.
Open Scope list_scope.

Lemma build_returns eig est s t : from_returns s -> prepared s t ->
  build_distribution eig est s =
    (let* p := table_probs (s_probs s) t in
     if s_scen s then make_dist (mkIn None None (Some (Some (tb_cols t), tb_vals t)) (option_map list_nd p) None)
     else moments_dist eig est t p (s_proj s)).
Proof.
  intros [F D] (t0 & R & P). unfold build_distribution. rewrite F, D, R. destruct (s_pre s) as [f|]; [rewrite P|subst t]; reflexivity.
Qed.

Lemma list_nd_usable q T : List.length q = T -> (forall k, (k < T)%nat -> 0 <= nth k q 0) -> 0 < sumn T (fun k => nth k q 0) -> usable_probs T (Some (list_nd q)).
Proof.
  intros L N S. cbn. unfold nd_size; cbn. split; [lia|]. exists (fun k => nth k q 0). split; [|exact S]. intros k Hk. split; [reflexivity|auto].
Qed.
Lemma ratio_same T f g s : s <> 0 -> (forall k, (k < T)%nat -> g k = f k / s) -> sumn T f <> 0 -> forall k, (k < T)%nat -> g k / sumn T g = f k / sumn T f.
Proof.
  intros Hs H Hf k Hk. assert (E : sumn T g = sumn T f / s).
  { rewrite (sumn_ext _ _ (fun i => / s * f i)); [rewrite sumn_scale; field; exact Hs|]. intros i Hi. rewrite H by exact Hi. unfold Rdiv. ring. }
  rewrite E, H by exact Hk. field. auto.
Qed.

Section Scenario.
Variables (eig : eig_oracle) (est : table -> option (list R) -> res (vec * mat)) (s : data_src) (t : table).
Hypotheses (HF : from_returns s) (HP : prepared s t) (HT : table_ok t) (HU : unique_labels (s_probs s)) (HS : s_scen s = true).
Let T := rows t.
Let N := List.length (tb_cols t).
Let inp (p : option (list R)) := mkIn None None (Some (Some (tb_cols t), tb_vals t)) (option_map list_nd p) None.

Lemma scen_pandas p : pandas_ok (inp p).
Proof. repeat split; cbn; auto. exists T. exact HT. Qed.

Lemma scen_values d : build_distribution eig est s = Ok d ->
  numeric_table t /\ usable_weights (s_probs s) t /\ d_N d = N /\ d_names d = Some (tb_cols t) /\ d_scen d = Some (tb_vals t) /\ d_T d = Some T /\
  exists pr, d_probs d = Some pr /\ real_array pr [T] (row_prob (s_probs s) t).
Proof.
  rewrite (build_returns eig est s t HF HP), HS. intros H. apply bind_ok in H as (q & Eq & H). fold (inp q) in H.
  pose proof (distribution_is_valid _ _ H) as V. destruct (distribution_values _ _ H) as (D1 & _ & _ & _ & D5).
  cbn in D1. destruct (D5 _ _ eq_refl) as (T' & pr & f & ET & Esh & Ep & Rp & Nf & _). red in HT. rewrite HT in Esh. injection Esh as E1 E2.
  assert (ET' : T' = T) by (symmetry; exact E1). subst T'. assert (EN : d_N d = N) by (symmetry; exact E2).
  destruct V as [VN Vn _ _ _ Vs]. rewrite D1, Ep, ET in Vs. destruct Vs as (HT0 & HX & _).
  assert (NT : numeric_table t). { split; [exact HT0|]. fold N. rewrite <- EN. split; [exact VN|exact HX]. }
  assert (UW : usable_weights (s_probs s) t /\ forall k, (k < T)%nat -> f k = row_prob (s_probs s) t k).
  { destruct (raw_prob_len _ _ _ HU Eq) as [[A B]|[A ->]].
    - split; [exact A|]. destruct q as [q|].
      + destruct B as (L & _ & u & Hu & E). cbn in Nf. intros k Hk. unfold row_prob.
        rewrite Nf by exact Hk. apply (ratio_same T (raw_prob (s_probs s) t) (fun i => nth i q 0) u); [lra|exact E| |exact Hk].
        destruct A as [_ A]. fold T in A. lra.
      + rewrite B. intros k Hk. cbn in Nf. rewrite Nf by exact Hk. unfold row_prob. fold T.
        rewrite (sumn_ext T (raw_prob PNone t) (fun _ => 1)) by reflexivity. rewrite sumn_const, Rmult_1_r. reflexivity.
    - rewrite A. assert (Hs : sumn T (raw_prob PNone t) = INR T) by (rewrite (sumn_ext _ _ (fun _ => 1)) by reflexivity; rewrite sumn_const; ring).
      split; [split; [exact I|]|].
      + fold T. rewrite Hs. apply lt_0_INR. exact HT0.
      + intros k Hk. cbn in Nf. rewrite Nf by exact Hk. unfold row_prob. fold T. rewrite Hs. reflexivity. }
  destruct UW as [UW E]. split; [exact NT|]. split; [exact UW|]. split; [exact EN|]. split.
  { apply (distribution_names (inp q) d); [apply scen_pandas|exact H|]. cbn. left. reflexivity. }
  split; [exact D1|]. split; [exact ET|]. exists pr. split; [exact Ep|]. destruct Rp as [R1 R2]. split; [exact R1|].
  intros k Hk. rewrite R2 by exact Hk. rewrite E; [reflexivity|]. unfold nd_size in Hk. rewrite R1 in Hk. cbn in Hk. lia.
Qed.
Lemma scen_accepts : (exists d, build_distribution eig est s = Ok d) <-> numeric_table t /\ usable_weights (s_probs s) t.
Proof.
  split; [intros (d & E); destruct (scen_values d E) as (A & B & _); auto|].
  intros [(NT & NN & NX) UW]. rewrite (build_returns eig est s t HF HP), HS. destruct (table_probs_total _ _ HU UW) as (q & Eq). rewrite Eq. cbn [bind]. fold (inp q).
  destruct (distribution_accepts_iff_consistent (inp q) (scen_pandas q)) as [A _]. destruct (proj1 (A N)) as (d & Ed & _); [|eauto].
  split; [exact NN|]. split.
  { exists (tb_cols t). split; [reflexivity|]. cbn. intros l [<-|[]]. reflexivity. }
  split; [exact I|]. split; [exact I|]. cbn. exists T. split; [exact NT|]. split; [exact NX|].
  destruct (raw_prob_len _ _ _ HU Eq) as [[_ B]|[A' ->]]; [|exact I]. destruct q as [q|]; [|exact I].
  destruct B as (L & Hne & u & Hu & E). destruct UW as [UW US]. apply list_nd_usable; [exact L| |].
  - intros k Hk. rewrite E by exact Hk. apply Rmult_le_pos; [|left; apply Rinv_0_lt_compat; exact Hu].
    destruct (s_probs s) as [|l|l]; [congruence| |]; cbn.
    + destruct (UW k Hk) as (r & Er & Hr). rewrite Er. exact Hr.
    + destruct UW as [L' X]. destruct (X (nth k l NaN)) as (r & Er & Hr); [apply nth_In; rewrite L'; exact Hk|]. rewrite Er. exact Hr.
  - rewrite (sumn_ext _ _ (fun k => / u * raw_prob (s_probs s) t k)) by (intros k Hk; rewrite E by exact Hk; unfold Rdiv; ring).
    rewrite sumn_scale. apply Rmult_lt_0_compat; [apply Rinv_0_lt_compat; exact Hu|exact US].
Qed.
Lemma scen_err e : build_distribution eig est s = Err e -> e = ValueError.
Proof.
  rewrite (build_returns eig est s t HF HP), HS. destruct (table_probs (s_probs s) t) as [q|e'] eqn:Eq; cbn [bind].
  - apply (distribution_accepts_iff_consistent (inp q) (scen_pandas q)).
  - intros H. injection H as ->. eapply table_probs_err; eauto.
Qed.
End Scenario.

(** ** Estimated moments *)
Section Moments.
Variables (eig : eig_oracle) (est : table -> option (list R) -> res (vec * mat)) (s : data_src) (t : table).
Hypotheses (HE : correct_eig eig) (HF : from_returns s) (HP : prepared s t) (HS : s_scen s = false).
Let N := List.length (tb_cols t).

Lemma label_clash_iff q : label_clash t q = Ok tt <-> (q = None \/ ~ labels_clash t).
Proof.
  unfold label_clash, labels_clash. destruct q as [q|]; [|split; auto]. unfold labels; cbn [labels_from].
  destruct (list_eq_dec string_dec (tb_index t) (tb_cols t)) as [E|E].
  - rewrite andb_false_r. cbn. split; [|reflexivity]. intros _. right. intros [_ H]. auto.
  - cbn [negb]. rewrite andb_true_r. destruct (Nat.eqb_spec (List.length (tb_index t)) (List.length (tb_cols t))) as [El|El]; cbn.
    + split; [discriminate|]. intros [H|H]; [discriminate|]. exfalso. apply H. split; auto.
    + split; [|reflexivity]. intros _. right. intros [H _]. auto.
Qed.
Lemma label_clash_err q e : label_clash t q = Err e -> e = ValueError.
Proof.
  unfold label_clash. destruct q as [q|]; [|discriminate]. unfold labels; cbn [labels_from].
  destruct (andb _ _); cbn; congruence.
Qed.

Lemma mom_dist n labs mu P : (0 < n)%nat -> List.length labs = n -> exists d,
  make_dist (mkIn (Some (Some labs, nd_vec n mu)) (Some (Some (labs, labs), nd_mat n P)) None None None) = Ok d /\
  d_N d = n /\ d_names d = Some labs /\ d_scen d = None /\ d_probs d = None /\ d_mu d = Some (flat (nd_vec n mu)) /\ d_cov d = Some (nd_mat n P).
Proof.
  intros Hn Hl. set (i := mkIn _ _ _ _ _).
  assert (PO : pandas_ok i) by (repeat split; cbn; rewrite Hl; reflexivity).
  destruct (distribution_accepts_iff_consistent i PO) as [A _]. destruct (proj1 (A n)) as (d & Ed & EN).
  { split; [exact Hn|]. split; [exists labs; split; [exact Hl|]; cbn; intros l [<-|[<-|[<-|[]]]]; reflexivity|].
    split; [cbn; split; [unfold nd_size; cbn; lia|]; exists mu; intros; reflexivity|]. split; [cbn; apply real_mat|]. cbn. left. discriminate. }
  exists d. split; [exact Ed|]. split; [exact EN|]. destruct (distribution_values _ _ Ed) as (D1 & D2 & D3 & D4 & _).
  split; [apply (distribution_names i d labs PO Ed); cbn; left; reflexivity|]. split; [exact D1|]. split; [apply D4; reflexivity|]. split; [apply (D2 _ _ eq_refl)|apply (D3 _ _ eq_refl)].
Qed.

Lemma moments_iff d : (0 < N)%nat -> (build_distribution eig est s = Ok d <->
  exists q ms ms' k P, table_probs (s_probs s) t = Ok q /\ (q = None \/ ~ labels_clash t) /\ est t q = Ok ms /\ projected s ms = Ok ms' /\
    ensure_psd eig N (snd ms') jit = Ok P /\ 0 <= k /\ (forall i j, P i j = MomModel.symmetrise (snd ms') i j + k * eye i j) /\
    make_dist (mkIn (Some (Some (tb_cols t), nd_vec N (fst ms'))) (Some (Some (tb_cols t, tb_cols t), nd_mat N (fun i j => P i j + eye i j * ridge))) None None None) = Ok d).
Proof.
  intros HN. rewrite (build_returns eig est s t HF HP), HS. unfold moments_dist. split.
  - intros H. apply bind_ok in H as (q & Eq & H). apply bind_ok in H as ([] & Ec & H). apply bind_ok in H as (ms & Em & H). apply bind_ok in H as (ms' & Ep & H).
    apply bind_ok in H as (P & EP & H). fold N in EP, H.
    destruct (ensure_psd_ok eig N (snd ms') jit HE HN) as (P' & k & EP' & Hk & HPk & _); [unfold jit; lra|]. rewrite EP in EP'. injection EP' as <-.
    exists q, ms, ms', k, P. split; [exact Eq|]. split; [apply label_clash_iff; exact Ec|]. split; [exact Em|]. split; [exact Ep|].
    split; [exact EP|]. split; [exact Hk|]. split; [exact HPk|]. exact H.
  - intros (q & ms & ms' & k & P & Eq & Ec & Em & Ep & EP & Hk & HPk & H). rewrite Eq. cbn [bind]. rewrite (proj2 (label_clash_iff q) Ec). cbn [bind]. rewrite Em. cbn [bind].
    unfold projected in Ep. rewrite Ep. cbn [bind]. fold N. rewrite EP. cbn [bind]. exact H.
Qed.
End Moments.
