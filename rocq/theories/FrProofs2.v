(** Percentiles, tabular export, and the post-processing of the CVaR frontier. *)
From Coq Require Import String.
From Verif Require Import RBase SortLib FrModel FrSpec FrProofs.
Open Scope R_scope.

(** * Percentile ranks *)
Lemma index_of_spec i o : In i o -> (index_of i o < List.length o)%nat /\ nth (index_of i o) o 0%nat = i.
Proof.
  induction o as [|j o IH]; simpl; [tauto|]. intros H. destruct (Nat.eqb_spec i j) as [->|Hne]; [split; [lia|reflexivity]|].
  destruct H as [->|H]; [congruence|]. destruct (IH H). split; [lia|assumption].
Qed.

Lemma sorted_nth l : StronglySorted Rle l -> nondecreasing l.
Proof.
  induction 1 as [|a l H IH F]; intros i j [Hij Hj]; [simpl in Hj; lia|].
  destruct j as [|j]; [assert (i = 0%nat) as -> by lia; lra|]. destruct i as [|i]; simpl in *.
  - rewrite Forall_forall in F. apply F. apply nth_In. lia.
  - apply IH. lia.
Qed.

Lemma take_nth {A} (d : A) l o i : (i < List.length o)%nat -> nth i (take d l o) d = nth (nth i o 0%nat) l d.
Proof. intros H. unfold take. rewrite (nth_map_lt (fun i => nth i l d) o i 0%nat d) by exact H. reflexivity. Qed.

Section Ranks.
Variables (risks : list R) (o : list nat).
Hypothesis Ho : is_argsort Rle 0 risks o.
Let M := List.length risks.
Let rank (i : nat) := index_of i o.

Lemma ord_len : List.length o = M.
Proof. exact (argsort_length _ _ _ _ Ho). Qed.
Lemma ord_in i : (i < M)%nat -> In i o.
Proof. intros H. apply (Permutation_in _ (Permutation_sym (proj1 Ho))). apply in_seq. unfold M in H. lia. Qed.
Lemma rank_lt i : (i < M)%nat -> (rank i < M)%nat.
Proof. intros H. rewrite <- ord_len. apply index_of_spec. apply ord_in. exact H. Qed.
Lemma rank_nth i : (i < M)%nat -> nth (rank i) o 0%nat = i.
Proof. intros H. apply index_of_spec. apply ord_in. exact H. Qed.
Lemma rank_inj i j : (i < M)%nat -> (j < M)%nat -> rank i = rank j -> i = j.
Proof. intros Hi Hj E. rewrite <- (rank_nth i Hi), <- (rank_nth j Hj), E. reflexivity. Qed.
Lemma rank_risk i j : (i < M)%nat -> (j < M)%nat -> (rank i <= rank j)%nat -> nth i risks 0 <= nth j risks 0.
Proof.
  intros Hi Hj Hr. pose proof (sorted_nth _ (proj2 Ho) (rank i) (rank j)) as K.
  rewrite take_length, !take_nth, !rank_nth in K; auto; try (rewrite ord_len; apply rank_lt; assumption).
  apply K. split; [exact Hr|]. rewrite ord_len. apply rank_lt; assumption.
Qed.
Lemma rank_surj k : (k < M)%nat -> exists i, (i < M)%nat /\ rank i = k.
Proof.
  intros Hk. exists (nth k o 0%nat). assert (Hin : In (nth k o 0%nat) o) by (apply nth_In; rewrite ord_len; exact Hk).
  split; [exact (argsort_in _ _ _ _ _ Ho Hin)|].
  assert (ND : NoDup o). { apply (Permutation_NoDup (Permutation_sym (proj1 Ho))). apply seq_NoDup. }
  destruct (index_of_spec _ _ Hin) as [H1 H2]. apply (proj1 (NoDup_nth o 0%nat) ND); auto. rewrite ord_len. exact Hk.
Qed.
End Ranks.

Lemma percentiles_nth argsort risks i : (2 <= List.length risks)%nat -> (i < List.length risks)%nat ->
  nth i (percentiles_of argsort risks) 0 = INR (index_of i (argsort risks)) / (INR (List.length risks) - 1).
Proof.
  intros H Hi. destruct risks as [|a [|b l]]; [simpl in H; lia|simpl in H; lia|].
  unfold percentiles_of. rewrite nth_map_seq by exact Hi. reflexivity.
Qed.
Lemma percentiles_length argsort risks : List.length (percentiles_of argsort risks) = List.length risks.
Proof. destruct risks as [|a [|b l]]; try reflexivity. unfold percentiles_of. rewrite map_length, seq_length. reflexivity. Qed.

Lemma normalize_ok p q : normalize_percentile p = Ok q <->
  (0 <= p <= 1 /\ q = p) \/ (1 < p <= 100 /\ q = p / 100).
Proof.
  unfold normalize_percentile. destruct (Rltb_spec 1 p) as [H1|H1].
  - destruct (Rltb_spec 100 p) as [H2|H2]; [split; [discriminate|lra]|].
    destruct (Rltb_spec (p / 100) 0) as [H3|H3]; [lra|]. destruct (Rltb_spec 1 (p / 100)) as [H4|H4]; [lra|].
    simpl. split; [intros [= <-]; right; split; [lra|reflexivity]|intros [[? ?]|[? ->]]; [lra|reflexivity]].
  - destruct (Rltb_spec p 0) as [H3|H3]; [simpl; split; [discriminate|lra]|].
    simpl. split; [intros [= <-]; left; split; [lra|reflexivity]|intros [[? ->]|[? ?]]; [reflexivity|lra]].
Qed.
Lemma normalize_err p e : normalize_percentile p = Err e <-> e = ValueError /\ (p < 0 \/ 100 < p).
Proof.
  destruct (normalize_percentile p) as [q|e'] eqn:E.
  - apply normalize_ok in E. split; [discriminate|]. lra.
  - assert (e' = ValueError) as ->.
    { unfold normalize_percentile in E. repeat match type of E with context[if ?b then _ else _] => destruct b end; congruence. }
    split; [|intros [-> _]; reflexivity]. intros [= <-]. split; [reflexivity|].
    destruct (Rlt_dec p 0); [auto|]. destruct (Rlt_dec 100 p); [auto|]. exfalso.
    destruct (Rle_dec p 1).
    + rewrite (proj2 (normalize_ok p p)) in E; [discriminate|]. left; lra.
    + rewrite (proj2 (normalize_ok p (p/100))) in E; [discriminate|]. right; lra.
Qed.
Lemma normalize_range p q : normalize_percentile p = Ok q -> 0 <= q <= 1.
Proof. rewrite normalize_ok. lra. Qed.
Lemma normalize_idem q : 0 <= q <= 1 -> normalize_percentile q = Ok q.
Proof. intros. apply normalize_ok. auto. Qed.

Lemma at_percentile_ok argsort f p l s : well_formed f -> at_percentile argsort f p l = Ok s ->
  exists q risks i, normalize_percentile p = Ok q /\ risks_for f l risks /\ is_portfolio f risks i s /\
    first_best (size f) anyp (fun j => Rabs (nthr (percentiles_of argsort risks) j - q)) i.
Proof.
  intros Hw H. unfold at_percentile in H. apply bind_ok in H as (q & Hq & H). apply bind_ok in H as (i & Hi & H).
  apply bind_ok in H as (risks & Hr & H). injection H as <-. unfold index_at_risk_percentile in Hi.
  rewrite (normalize_idem q (normalize_range p q Hq)) in Hi. cbn [bind] in Hi. unfold risk_percentiles in Hi. rewrite Hr in Hi. cbn [bind] in Hi.
  apply risk_vector_ok in Hr. apply argmin_spec in Hi. rewrite map_length, percentiles_length, (risks_for_length f l risks Hw Hr) in Hi.
  exists q, risks, i. split; [exact Hq|]. split; [exact Hr|]. split; [apply pick_is; apply Hi|].
  eapply first_best_ext; [|exact Hi]. intros j Hj. unfold nthr.
  rewrite (nth_map_lt (fun x => Rabs (x - q)) _ j 0 0); [reflexivity|].
  rewrite percentiles_length, (risks_for_length f l risks Hw Hr). exact Hj.
Qed.

(** For rational grids the nearest rank is monotone in the percentile. *)
Lemma nearest_mono a b q q' : q < q' -> Rabs (a - q) <= Rabs (b - q) -> Rabs (b - q') <= Rabs (a - q') -> a <= b.
Proof. intros. unfold Rabs in *. repeat destruct (Rcase_abs _); lra. Qed.

Lemma rank_div_le r r' M : (2 <= M)%nat -> INR r / (INR M - 1) <= INR r' / (INR M - 1) -> (r <= r')%nat.
Proof.
  intros HM H. assert (0 < INR M - 1). { apply le_INR in HM. simpl in HM. lra. }
  apply INR_le. apply (Rmult_le_reg_r (/ (INR M - 1))); [apply Rinv_0_lt_compat; lra|exact H].
Qed.

Lemma percentile_le_risk argsort f l risks i j : sorts Rle 0 argsort -> well_formed f -> risks_for f l risks ->
  (i < size f)%nat -> (j < size f)%nat ->
  nthr (percentiles_of argsort risks) i <= nthr (percentiles_of argsort risks) j -> nthr risks i <= nthr risks j.
Proof.
  intros Hs Hw Hr Hi Hj H. rewrite <- (risks_for_length f l risks Hw Hr) in Hi, Hj.
  destruct (le_lt_dec 2 (List.length risks)) as [H2|H2].
  - unfold nthr in H. rewrite !percentiles_nth in H by assumption. apply rank_div_le in H; [|exact H2].
    exact (rank_risk risks _ (Hs risks) i j Hi Hj H).
  - assert (i = 0 /\ j = 0)%nat as [-> ->] by lia. lra.
Qed.

Lemma at_percentile_mono argsort f l p p' s s' q q' : sorts Rle 0 argsort -> well_formed f ->
  normalize_percentile p = Ok q -> normalize_percentile p' = Ok q' -> q <= q' ->
  at_percentile argsort f p l = Ok s -> at_percentile argsort f p' l = Ok s' -> s_risk s <= s_risk s'.
Proof.
  intros Hs Hw Hq Hq' Hle H H'.
  destruct (at_percentile_ok _ _ _ _ _ Hw H) as (q0 & risks & i & E & Hr & Hp & Hb).
  destruct (at_percentile_ok _ _ _ _ _ Hw H') as (q0' & risks' & i' & E' & Hr' & Hp' & Hb').
  rewrite Hq in E. rewrite Hq' in E'. injection E as <-. injection E' as <-.
  assert (risks' = risks) as ->. { apply risk_vector_ok in Hr, Hr'. congruence. }
  destruct Hp as (Li & _ & _ & _ & ->). destruct Hp' as (Li' & _ & _ & _ & ->).
  destruct (Req_dec q q') as [<-|Hne].
  - assert (i = i') as ->; [|lra]. destruct Hb as (_ & _ & B1 & B2), Hb' as (_ & _ & C1 & C2).
    destruct (Nat.lt_trichotomy i i') as [K|[K|K]]; [|exact K|].
    + specialize (C2 i K I). specialize (B1 i' Li' I). lra.
    + specialize (B2 i' K I). specialize (C1 i Li I). lra.
  - apply (percentile_le_risk argsort f l risks i i' Hs Hw Hr Li Li').
    destruct Hb as (_ & _ & B1 & _), Hb' as (_ & _ & C1 & _).
    apply (nearest_mono _ _ q q'); [lra|apply (B1 i' Li' I)|apply (C1 i Li I)].
Qed.

Lemma ranks_bounds argsort risks i : sorts Rle 0 argsort -> (i < List.length risks)%nat ->
  0 <= nthr (percentiles_of argsort risks) i <= 1.
Proof.
  intros Hs Hi. destruct (le_lt_dec 2 (List.length risks)) as [H2|H2].
  - unfold nthr. rewrite percentiles_nth by assumption.
    pose proof (rank_lt risks _ (Hs risks) i Hi) as K. apply le_INR in H2. simpl in H2.
    assert (INR (index_of i (argsort risks)) + 1 <= INR (List.length risks)) as K2. { rewrite <- S_INR. apply le_INR. exact K. }
    pose proof (pos_INR (index_of i (argsort risks))) as K3.
    split; [apply Rmult_le_pos; [exact K3|apply Rlt_le, Rinv_0_lt_compat; lra]|].
    apply (Rmult_le_reg_r (INR (List.length risks) - 1)); [lra|]. unfold Rdiv. rewrite Rmult_assoc, Rinv_l by lra. lra.
  - destruct risks as [|a [|b l]]; simpl in *; try lia. assert (i = 0%nat) as -> by lia. unfold nthr; simpl. lra.
Qed.

Lemma at_percentile_ends argsort f l s risks : sorts Rle 0 argsort -> well_formed f -> risks_for f l risks ->
  (at_percentile argsort f 0 l = Ok s -> forall j, (j < size f)%nat -> s_risk s <= nthr risks j) /\
  (at_percentile argsort f 1 l = Ok s -> forall j, (j < size f)%nat -> nthr risks j <= s_risk s).
Proof.
  intros Hs Hw Hr. split; intros H j Hj.
  all: destruct (at_percentile_ok _ _ _ _ _ Hw H) as (q & risks' & i & E & Hr' & Hp & Hb).
  all: assert (risks' = risks) as -> by (apply risk_vector_ok in Hr, Hr'; congruence).
  all: destruct Hp as (Li & _ & _ & _ & ->); destruct Hb as (_ & _ & B1 & _).
  all: pose proof (risks_for_length f l risks Hw Hr) as HL.
  all: apply normalize_ok in E; assert (q = 0 \/ q = 1) as Hq by lra.
  - assert (q = 0) as -> by lra. apply (percentile_le_risk argsort f l risks i j Hs Hw Hr Li Hj).
    specialize (B1 j Hj I). rewrite !Rminus_0_r in B1.
    rewrite !Rabs_pos_eq in B1 by (apply ranks_bounds; [exact Hs|rewrite HL; assumption]). exact B1.
  - assert (q = 1) as -> by lra. apply (percentile_le_risk argsort f l risks j i Hs Hw Hr Hj Li).
    specialize (B1 j Hj I).
    rewrite !Rabs_left1 in B1 by (match goal with |- nthr ?P ?k - 1 <= 0 => pose proof (ranks_bounds argsort risks k Hs) as K; rewrite HL in K; assert (0 <= nthr P k <= 1) by auto; lra end). lra.
Qed.

Lemma at_percentile_total argsort f p l e : sorts Rle 0 argsort -> well_formed f -> (0 < size f)%nat ->
  at_percentile argsort f p l = Err e <->
  (e = ValueError /\ (p < 0 \/ 100 < p)) \/ (e = KeyError /\ 0 <= p <= 100 /\ unknown_label f l).
Proof.
  intros Hs Hw Hn. unfold at_percentile. destruct (normalize_percentile p) as [q|e'] eqn:Eq; cbn [bind].
  - pose proof (proj1 (normalize_ok p q) Eq) as Hq. unfold index_at_risk_percentile, risk_percentiles.
    rewrite (normalize_idem q) by lra. cbn [bind]. destruct (risk_vector f l) as [risks|e'] eqn:Er; cbn [bind].
    + apply risk_vector_ok in Er. assert (map (fun x => Rabs (x - q)) (percentiles_of argsort risks) <> []) as Hne.
      { intros E. apply (f_equal (@List.length _)) in E. rewrite map_length, percentiles_length, (risks_for_length f l risks Hw Er) in E. simpl in E. lia. }
      destruct (argbest_total Rltb _ Hne) as [k Hk]. unfold argmin. rewrite Hk. cbn [bind]. split; [discriminate|].
      intros [[_ K]|(_ & _ & K)]; [lra|]. assert (risk_vector f l = Err KeyError) as F by (apply risk_vector_err; auto).
      apply risk_vector_ok in Er. congruence.
    + apply risk_vector_err in Er as [-> Hu]. split; [intros [= <-]; right; repeat split; auto; lra|].
      intros [[_ K]|(-> & _)]; [lra|reflexivity].
  - apply normalize_err in Eq as [-> Hp]. split; [intros [= <-]; auto|]. intros [[-> _]|(_ & K & _)]; [reflexivity|lra].
Qed.

(** * Export *)
Lemma np_index_ok M z i : np_index M z = Ok i <->
  (i < M)%nat /\ (z = Z.of_nat i \/ z = Z.of_nat i - Z.of_nat M)%Z.
Proof.
  unfold np_index. destruct (Z.ltb_spec z (- Z.of_nat M)); simpl; [split; [discriminate|lia]|].
  destruct (Z.leb_spec (Z.of_nat M) z); [split; [discriminate|lia]|]. destruct (Z.ltb_spec z 0).
  - split; [intros [= <-]; split; [lia|right; lia]|]. intros [K1 [K2|K2]]; f_equal; lia.
  - split; [intros [= <-]; split; [lia|left; lia]|]. intros [K1 [K2|K2]]; f_equal; lia.
Qed.
Lemma np_index_err M z e : np_index M z = Err e <-> e = IndexError /\ (z < - Z.of_nat M \/ Z.of_nat M <= z)%Z.
Proof.
  unfold np_index. destruct (Z.ltb_spec z (- Z.of_nat M)); simpl; [split; [intros [= <-]; auto|intros [-> _]; reflexivity]|].
  destruct (Z.leb_spec (Z.of_nat M) z); [split; [intros [= <-]; auto|intros [-> _]; reflexivity]|]. split; [discriminate|lia].
Qed.

(** * Running maximum *)
Lemma cummax_from_length m l : List.length (cummax_from m l) = List.length l.
Proof. revert m; induction l as [|x l IH]; intros m; simpl; auto. Qed.
Lemma cummax_length l : List.length (cummax l) = List.length l.
Proof. destruct l as [|x l]; simpl; [reflexivity|]. rewrite cummax_from_length. reflexivity. Qed.
Lemma Rmax_dec a b : Rmax a b = a \/ Rmax a b = b.
Proof. unfold Rmax. destruct (Rle_dec a b); auto. Qed.
Lemma cummax_from_nth l : forall m i, (i < List.length l)%nat ->
  (nth i (cummax_from m l) 0 = m \/ exists j, (j <= i)%nat /\ nth i (cummax_from m l) 0 = nth j l 0) /\
  m <= nth i (cummax_from m l) 0 /\ forall j, (j <= i)%nat -> nth j l 0 <= nth i (cummax_from m l) 0.
Proof.
  induction l as [|x l IH]; intros m i Hi; [simpl in Hi; lia|]. pose proof (Rmax_l m x). pose proof (Rmax_r m x). destruct i as [|i].
  - cbn [cummax_from nth]. split; [|split; [auto|]].
    + destruct (Rmax_dec m x) as [E|E]; [left; exact E|right; exists 0%nat; auto].
    + intros j Hj. assert (j = 0%nat) as -> by lia. simpl. auto.
  - cbn [cummax_from nth]. simpl in Hi. destruct (IH (Rmax m x) i) as (A & B & C); [lia|]. split; [|split].
    + destruct A as [A|(j & Hj & A)]; [|right; exists (S j); split; [lia|exact A]].
      destruct (Rmax_dec m x) as [E|E]; [left; congruence|right; exists 0%nat; split; [lia|cbn [nth]; congruence]].
    + lra.
    + intros [|j] Hj; cbn [nth]; [lra|apply C; lia].
Qed.
Lemma cummax_running l i : (i < List.length l)%nat -> is_running_max l i (nth i (cummax l) 0).
Proof.
  destruct l as [|x l]; simpl; intros Hi; [lia|]. destruct i as [|i].
  - split; [exists 0%nat; auto|]. intros j Hj. assert (j = 0%nat) as -> by lia. simpl; lra.
  - destruct (cummax_from_nth l x i) as (A & B & C); [lia|]. split.
    + destruct A as [A|(j & Hj & A)]; [exists 0%nat|exists (S j)]; split; try lia; exact A.
    + intros [|j] Hj; [exact B|apply C; lia].
Qed.
Lemma running_max_mono l i j m m' : (i <= j)%nat -> is_running_max l i m -> is_running_max l j m' -> m <= m'.
Proof. intros H ((k & Hk & ->) & _) (_ & H2). apply H2. lia. Qed.
Lemma cummax_nondec l : nondecreasing (cummax l).
Proof.
  intros i j [Hij Hj]. rewrite cummax_length in Hj. apply (running_max_mono l i j); [exact Hij| |]; apply cummax_running; lia.
Qed.
Lemma cummax_id l : nondecreasing l -> cummax l = l.
Proof.
  intros H. apply nth_ext with (d := 0) (d' := 0); [apply cummax_length|]. intros i Hi. rewrite cummax_length in Hi.
  destruct (cummax_running l i Hi) as [(j & Hj & E) H2]. apply Rle_antisym; [|apply H2; lia]. rewrite E. apply H. lia.
Qed.

Lemma Forall2_len {A B} (P : A -> B -> Prop) l m : Forall2 P l m -> List.length l = List.length m.
Proof. induction 1; simpl; lia. Qed.
Lemma Forall2_imp {A B} (P Q : A -> B -> Prop) l m : (forall a b, P a b -> Q a b) -> Forall2 P l m -> Forall2 Q l m.
Proof. induction 2; constructor; auto. Qed.
