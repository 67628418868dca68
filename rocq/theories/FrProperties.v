(** Theorems for the frontier container, its selectors and the CVaR frontier's post-processing
    (C27, C28, C29, C59, C60). *)
From Coq Require Import String.
From Verif Require Import RBase SortLib FrModel FrSpec FrProofs FrProofs2 FrProofs3 FrProofs4.
Open Scope R_scope.

Ltac rdec := repeat match goal with
  | |- context[Rltb ?a ?b] => first
      [ replace (Rltb a b) with true by (symmetry; apply Rltb_true; lra)
      | replace (Rltb a b) with false by (symmetry; apply Rltb_false; lra) ]
  | |- context[Rleb ?a ?b] => first
      [ replace (Rleb a b) with true by (symmetry; apply Rleb_true; lra)
      | replace (Rleb a b) with false by (symmetry; apply Rleb_false; lra) ]
  | |- context[Reqb ?a ?b] => first
      [ replace (Reqb a b) with true by (symmetry; apply Reqb_true; lra)
      | replace (Reqb a b) with false by (symmetry; apply Reqb_false; lra) ]
  end.

(** A frontier used by the examples: three portfolios of two assets. *)
Definition ex_fr : frontier_t :=
  mkFr 2 [[1; 0]; [1/2; 1/2]; [0; 1]] [1; 2; 3] [1; 1; 2] "CVaR" (Some ["A"; "B"]%string)
    [("Volatility"%string, [3; 2; 1])].
Example ex_fr_wf : well_formed ex_fr /\ (0 < size ex_fr)%nat.
Proof.
  unfold well_formed, size, ex_fr; simpl. repeat split; auto; [intros l [= <-]; reflexivity|].
  intros k v [E|[]]. injection E as <- <-. reflexivity.
Qed.

(** * C27 *)
(** The constructor accepts exactly the consistent shapes, stores its arguments, and otherwise raises
    ValueError. *)
Theorem frontier_shapes : forall n cols ret risk m names alt,
  let f := mkFr n cols ret risk m names alt in
  (forall f', make_frontier n cols ret risk m names alt = Ok f' <-> f' = f /\ well_formed f) /\
  (forall e, make_frontier n cols ret risk m names alt = Err e -> e = ValueError).
Proof.
  intros n cols ret risk m names alt f. split; [|apply make_frontier_err]. intros f'. split.
  - intros H. apply make_frontier_ok in H as [Hw ->]. auto.
  - intros [-> Hw]. apply make_frontier_total. exact Hw.
Qed.
Print Assumptions frontier_shapes.

(** min_risk: the first column of least risk under the requested measure; the only error is an
    unknown label. *)
Theorem min_risk_selects : forall f l, well_formed f -> (0 < size f)%nat ->
  (forall s, min_risk f l = Ok s ->
     exists risks i, risks_for f l risks /\ is_portfolio f risks i s /\ first_best (size f) anyp (nthr risks) i) /\
  (forall e, min_risk f l = Err e <-> e = KeyError /\ unknown_label f l).
Proof. intros f l Hw Hn. split; [intros s; apply min_risk_ok; exact Hw|intros e; apply min_risk_total; assumption]. Qed.
Print Assumptions min_risk_selects.

(** max_return: the first column of greatest return, with its primary risk; never raises. *)
Theorem max_return_selects : forall f, (0 < size f)%nat ->
  exists s i, max_return f = Ok s /\ is_portfolio f (f_risk f) i s /\ first_best (size f) anyp (fun j => - ret_of f j) i.
Proof.
  intros f Hn. destruct (max_return_total f Hn) as [s Hs]. destruct (max_return_ok f s Hs) as (i & H). exists s, i. auto.
Qed.
Print Assumptions max_return_selects.

(** tangency: the first column of greatest Sharpe ratio among the columns whose risk is not zero; it
    raises exactly when every risk is within 1e-8 of zero. *)
Theorem tangency_selects : forall f rf, well_formed f -> (0 < size f)%nat ->
  (forall s, tangency f rf = Ok s -> exists i, is_portfolio f (f_risk f) i s /\
     first_best (size f) (fun j => nthr (f_risk f) j <> 0) (fun j => - ((ret_of f j - rf) / nthr (f_risk f) j)) i) /\
  (forall e, tangency f rf = Err e <-> e = InfeasibleError /\ forall r, In r (f_risk f) -> Rabs r <= 1 / 100000000).
Proof.
  intros f rf Hw Hn. split; [intros s; apply tangency_ok; exact Hw|].
  destruct (tangency_raises f rf Hw Hn) as [H1 H2]. intros e. split; [apply H1|]. intros [-> H]. apply H2. exact H.
Qed.
Print Assumptions tangency_selects.

(** at_risk: among the columns within the limit, the first of greatest return; it raises
    InfeasibleOptimizationError exactly when no column is within the limit. *)
Theorem at_risk_selects : forall f m l, well_formed f ->
  (forall s, at_risk f m l = Ok s -> exists risks i, risks_for f l risks /\ is_portfolio f risks i s /\
     first_best (size f) (fun j => nthr risks j <= m) (fun j => - ret_of f j) i) /\
  (forall e, at_risk f m l = Err e <->
     (e = KeyError /\ unknown_label f l) \/
     (e = InfeasibleError /\ exists risks, risks_for f l risks /\ forall i, (i < size f)%nat -> m < nthr risks i)).
Proof. intros f m l Hw. split; [intros s; apply at_risk_ok; exact Hw|apply at_risk_total; exact Hw]. Qed.
Print Assumptions at_risk_selects.

(** at_return: among the columns reaching the return, the first of least risk; it raises
    InfeasibleOptimizationError exactly when none does. *)
Theorem at_return_selects : forall f m l, well_formed f ->
  (forall s, at_return f m l = Ok s -> exists risks i, risks_for f l risks /\ is_portfolio f risks i s /\
     first_best (size f) (fun j => m <= ret_of f j) (nthr risks) i) /\
  (forall e, at_return f m l = Err e <->
     (e = InfeasibleError /\ forall i, (i < size f)%nat -> ret_of f i < m) \/
     (e = KeyError /\ unknown_label f l /\ exists i, (i < size f)%nat /\ m <= ret_of f i)).
Proof. intros f m l Hw. split; [intros s; apply at_return_ok; exact Hw|apply at_return_total; exact Hw]. Qed.
Print Assumptions at_return_selects.

(** closest_risk: the first column whose risk is nearest to the target. *)
Theorem closest_risk_selects : forall f t l, well_formed f -> (0 < size f)%nat ->
  (forall s, closest_risk f t l = Ok s -> exists risks i, risks_for f l risks /\ is_portfolio f risks i s /\
     first_best (size f) anyp (fun j => Rabs (nthr risks j - t)) i) /\
  (forall e, closest_risk f t l = Err e <-> e = KeyError /\ unknown_label f l).
Proof. intros f t l Hw Hn. split; [intros s; apply closest_risk_ok; exact Hw|intros e; apply closest_risk_total; assumption]. Qed.
Print Assumptions closest_risk_selects.

(** Concrete runs: ties go to the first column; the label changes the answer. *)
Example selectors_run :
  min_risk ex_fr None = Ok (mkSel (Some ["A"; "B"]%string) [1; 0] 1 1) /\
  min_risk ex_fr (Some "Volatility"%string) = Ok (mkSel (Some ["A"; "B"]%string) [0; 1] 3 1) /\
  min_risk ex_fr (Some "Other"%string) = Err KeyError /\
  at_risk ex_fr 1 None = Ok (mkSel (Some ["A"; "B"]%string) [1/2; 1/2] 2 1) /\
  at_risk ex_fr (1/2) None = Err InfeasibleError /\
  at_return ex_fr 2 None = Ok (mkSel (Some ["A"; "B"]%string) [1/2; 1/2] 2 1) /\
  at_return ex_fr 4 None = Err InfeasibleError /\
  tangency ex_fr 0 = Ok (mkSel (Some ["A"; "B"]%string) [1/2; 1/2] 2 1).
Proof.
  unfold min_risk, at_risk, at_return, tangency, argmin, argmax, argbest, where_idx, pick, ex_fr, risclose. simpl.
  repeat split; rdec; simpl; rdec; simpl; rdec; try reflexivity.
  rewrite !Rabs_R0. replace (1 - 0) with 1 by lra. replace (Rabs 1) with 1 by (symmetry; apply Rabs_R1).
  rdec. simpl. rdec. simpl. reflexivity.
Qed.

(** Labels are honest: the label-to-risks relation is a function. *)
Theorem risk_label_unique : forall f l v v', risks_for f l v -> risks_for f l v' -> v = v'.
Proof. intros f l v v' H H'. apply risk_vector_ok in H, H'. congruence. Qed.
Print Assumptions risk_label_unique.

(** * C28 *)
(** Percentiles are ranks: a bijection onto {0, 1/(M-1), ..., 1} that respects the risk order,
    whatever argsort does with ties. *)
Theorem percentiles_are_ranks : forall argsort f l risks ps, sorts Rle 0 argsort -> well_formed f ->
  (2 <= size f)%nat -> risks_for f l risks -> risk_percentiles argsort f l = Ok ps ->
  List.length ps = size f /\
  exists rank : nat -> nat,
    (forall i, (i < size f)%nat -> (rank i < size f)%nat /\ nthr ps i = INR (rank i) / (INR (size f) - 1)) /\
    (forall i j, (i < size f)%nat -> (j < size f)%nat -> rank i = rank j -> i = j) /\
    (forall k, (k < size f)%nat -> exists i, (i < size f)%nat /\ rank i = k) /\
    (forall i j, (i < size f)%nat -> (j < size f)%nat -> nthr risks i < nthr risks j -> (rank i < rank j)%nat).
Proof.
  intros argsort f l risks ps Hs Hw H2 Hr H. unfold risk_percentiles in H.
  rewrite (proj2 (risk_vector_ok f l risks) Hr) in H. injection H as <-.
  pose proof (risks_for_length f l risks Hw Hr) as HL. rewrite percentiles_length. split; [exact HL|].
  exists (fun i => index_of i (argsort risks)). rewrite <- HL in *. repeat split.
  - apply (rank_lt risks _ (Hs risks)); assumption.
  - apply percentiles_nth; assumption.
  - apply (rank_inj risks _ (Hs risks)).
  - apply (rank_surj risks _ (Hs risks)).
  - intros i j Hi Hj Hlt. destruct (le_lt_dec (index_of j (argsort risks)) (index_of i (argsort risks))) as [K|K]; [|exact K].
    pose proof (rank_risk risks _ (Hs risks) j i Hj Hi K). unfold nthr in Hlt. lra.
Qed.
Print Assumptions percentiles_are_ranks.

(** A single-portfolio frontier has percentile 0. *)
Theorem percentile_single : forall argsort f l risks, well_formed f -> size f = 1%nat -> risks_for f l risks ->
  risk_percentiles argsort f l = Ok [0].
Proof.
  intros argsort f l risks Hw H1 Hr. unfold risk_percentiles. rewrite (proj2 (risk_vector_ok f l risks) Hr).
  pose proof (risks_for_length f l risks Hw Hr) as HL. rewrite H1 in HL. destruct risks as [|a [|b r]]; try discriminate HL. reflexivity.
Qed.
Print Assumptions percentile_single.

(** at_percentile: the first column whose percentile is nearest; the outcome for [p] in (1, 100] is the
    outcome for [p/100]; outside [0, 100] it raises ValueError. *)
Theorem at_percentile_selects : forall argsort f p l, sorts Rle 0 argsort -> well_formed f -> (0 < size f)%nat ->
  (forall s, at_percentile argsort f p l = Ok s ->
     exists q risks ps i, (q = p /\ 0 <= p <= 1 \/ q = p / 100 /\ 1 < p <= 100) /\ risks_for f l risks /\
       risk_percentiles argsort f l = Ok ps /\ is_portfolio f risks i s /\
       first_best (size f) anyp (fun j => Rabs (nthr ps j - q)) i) /\
  (forall e, at_percentile argsort f p l = Err e <->
     (e = ValueError /\ (p < 0 \/ 100 < p)) \/ (e = KeyError /\ 0 <= p <= 100 /\ unknown_label f l)) /\
  (1 < p <= 100 -> at_percentile argsort f p l = at_percentile argsort f (p / 100) l).
Proof.
  intros argsort f p l Hs Hw Hn. split; [|split].
  - intros s H. destruct (at_percentile_ok _ _ _ _ _ Hw H) as (q & risks & i & E & Hr & Hp & Hb).
    exists q, risks, (percentiles_of argsort risks), i. apply normalize_ok in E. split; [tauto|]. split; [exact Hr|].
    split; [unfold risk_percentiles; rewrite (proj2 (risk_vector_ok f l risks) Hr); reflexivity|]. auto.
  - intros e. apply at_percentile_total; assumption.
  - intros Hp. unfold at_percentile. rewrite (proj2 (normalize_ok p (p / 100))) by (right; lra).
    rewrite (proj2 (normalize_ok (p / 100) (p / 100))) by (left; lra). reflexivity.
Qed.
Print Assumptions at_percentile_selects.

(** A higher percentile (on the same scale) never selects a less risky column; 0 is a minimum-risk and 1
    (or 100) a maximum-risk column. *)
Theorem at_percentile_monotone : forall argsort f l p p' s s', sorts Rle 0 argsort -> well_formed f ->
  (0 <= p <= p' /\ p' <= 1 \/ 1 < p <= p' /\ p' <= 100) ->
  at_percentile argsort f p l = Ok s -> at_percentile argsort f p' l = Ok s' -> s_risk s <= s_risk s'.
Proof.
  intros argsort f l p p' s s' Hs Hw Hp. destruct Hp as [Hp|Hp].
  - apply (at_percentile_mono argsort f l p p' s s' p p' Hs Hw); [apply normalize_ok; left; lra|apply normalize_ok; left; lra|lra].
  - apply (at_percentile_mono argsort f l p p' s s' (p/100) (p'/100) Hs Hw); [apply normalize_ok; right; lra|apply normalize_ok; right; lra|lra].
Qed.
Print Assumptions at_percentile_monotone.
Theorem at_percentile_extremes : forall argsort f l s risks, sorts Rle 0 argsort -> well_formed f -> risks_for f l risks ->
  (at_percentile argsort f 0 l = Ok s -> forall j, (j < size f)%nat -> s_risk s <= nthr risks j) /\
  (at_percentile argsort f 1 l = Ok s \/ at_percentile argsort f 100 l = Ok s -> forall j, (j < size f)%nat -> nthr risks j <= s_risk s).
Proof.
  intros argsort f l s risks Hs Hw Hr. destruct (at_percentile_ends argsort f l s risks Hs Hw Hr) as [H1 H2].
  split; [exact H1|]. intros [H|H]; [exact (H2 H)|]. apply H2. rewrite <- H. unfold at_percentile.
  rewrite (proj2 (normalize_ok 1 1)) by (left; lra). rewrite (proj2 (normalize_ok 100 1)) by (right; lra). reflexivity.
Qed.
Print Assumptions at_percentile_extremes.

(** The two scales meet badly: on the 0-100 scale one per cent cannot be asked for; 1 selects a riskier
    column than any percentage between 1 and 50 does. *)
Lemma rsort_sorts : sorts Rle 0 (argsort_by Rleb 0).
Proof.
  intros l. apply isort_argsort.
  - intros a b. apply Rleb_true.
  - intros a b H. apply Rleb_false in H. lra.
  - intros a b c. apply Rle_trans.
Qed.
Theorem percentile_scale_refuted : exists f s s', well_formed f /\
  at_percentile (argsort_by Rleb 0) f 1 None = Ok s /\ at_percentile (argsort_by Rleb 0) f 2 None = Ok s' /\ s_risk s' < s_risk s.
Proof.
  exists (mkFr 1 [[1]; [1]] [0; 0] [1; 2] "r" None []), (mkSel None [1] 0 2), (mkSel None [1] 0 1).
  split; [|split; [|split; [|cbn; lra]]].
  - unfold well_formed, size; simpl. repeat split; auto; [discriminate|tauto].
  - unfold at_percentile, index_at_risk_percentile, normalize_percentile, risk_percentiles, percentiles_of, argsort_by. simpl. rdec. simpl. rdec. simpl. rdec. simpl.
    unfold argmin, argbest. simpl. replace (Rabs (0 / (1 + 1 - 1) - 1)) with 1 by (rewrite Rabs_left; lra).
    replace (Rabs (1 / (1 + 1 - 1) - 1)) with 0 by (rewrite Rabs_pos_eq; lra). rdec. simpl. reflexivity.
  - unfold at_percentile, index_at_risk_percentile, normalize_percentile, risk_percentiles, percentiles_of, argsort_by. simpl. rdec. simpl. rdec. simpl. rdec. simpl.
    unfold argmin, argbest. simpl. replace (Rabs (0 / (1 + 1 - 1) - 2 / 100)) with (2/100) by (rewrite Rabs_left; lra).
    replace (Rabs (1 / (1 + 1 - 1) - 2 / 100)) with (98/100) by (rewrite Rabs_pos_eq; lra). rdec. simpl. reflexivity.
Qed.
Print Assumptions percentile_scale_refuted.

(** * C29 *)
(** The post-processing permutes the portfolios: every output column keeps its own return, raw risk and
    volatility, and returns are non-decreasing.  Without the correction the reported risk is |CVaR|. *)
Theorem cvar_post_permutes : forall argsort enforce cols ret cvar vols, sorts Rle 0 argsort ->
  List.length cols = List.length ret -> List.length cvar = List.length ret -> List.length vols = List.length ret ->
  let '(cols', ret', risk', vols', raw') := cvar_post argsort enforce cols ret cvar vols in
  exists o, Permutation o (seq 0 (List.length ret)) /\ nondecreasing ret' /\
    List.length cols' = List.length ret /\ List.length ret' = List.length ret /\ List.length risk' = List.length ret /\
    List.length vols' = List.length ret /\ List.length raw' = List.length ret /\
    (forall k, (k < List.length ret)%nat -> exists i, (i < List.length ret)%nat /\ nth k o 0%nat = i /\ nth k cols' [] = nth i cols [] /\ nth k ret' 0 = nth i ret 0 /\
       nth k vols' 0 = nth i vols 0 /\ nth k raw' 0 = Rabs (nth i cvar 0) /\ (enforce = false -> nth k risk' 0 = Rabs (nth i cvar 0))).
Proof.
  intros argsort enforce cols ret cvar vols Hs L1 L2 L3. unfold cvar_post. exists (argsort ret). pose proof (Hs ret) as [Hp Ho].
  pose proof (argsort_length _ _ _ _ (Hs ret)) as Hl.
  split; [exact Hp|]. split; [apply sorted_nth; exact Ho|]. rewrite !take_length.
  split; [exact Hl|]. split; [exact Hl|]. split; [|split; [exact Hl|split; [exact Hl|]]].
  - destruct enforce; [|rewrite take_length; exact Hl]. rewrite out_length; rewrite !take_length; [exact Hl|reflexivity].
  - intros k Hk. exists (nth k (argsort ret) 0%nat). assert (Hi : (nth k (argsort ret) 0 < List.length ret)%nat).
    { apply (argsort_in _ _ _ _ _ (Hs ret)). apply nth_In. rewrite Hl. exact Hk. }
    rewrite <- Hl in Hk. rewrite !take_nth by exact Hk.
    rewrite (nth_map_lt Rabs cvar _ 0 0) by (rewrite L2; exact Hi).
    repeat split; auto. intros ->. rewrite take_nth by exact Hk. rewrite (nth_map_lt Rabs cvar _ 0 0) by (rewrite L2; exact Hi). reflexivity.
Qed.
Print Assumptions cvar_post_permutes.

(** With the correction the reported risks never decrease along the frontier, even with tied returns. *)
Theorem cvar_post_monotone : forall argsort cols ret cvar vols, sorts Rle 0 argsort -> List.length cvar = List.length ret ->
  let '(_, _, risk', _, _) := cvar_post argsort true cols ret cvar vols in nondecreasing risk'.
Proof.
  intros argsort cols ret cvar vols Hs L. unfold cvar_post. apply out_nondecreasing.
  - rewrite !take_length. reflexivity.
  - apply sorted_nth. apply (proj2 (Hs ret)).
Qed.
Print Assumptions cvar_post_monotone.

(** With distinct returns the reported risks are convex in the return, keep the running maximum of the raw
    risks at both ends, and dominate every convex sequence below that running maximum; they exceed it
    by at most [M * 1e-12 / g], where [g] is the smallest gap between returns. *)
Theorem convexity_correction : forall ret raw, List.length raw = List.length ret -> increasing ret -> (2 <= List.length ret)%nat ->
  let out := enforce_convex ret raw in let M := List.length ret in
  List.length out = M /\ convex_points ret out /\
  is_running_max raw 0 (nth 0 out 0) /\ is_running_max raw (M - 1) (nth (M - 1) out 0) /\
  (forall g, List.length g = M -> convex_points ret g ->
     (forall i m, (i < M)%nat -> is_running_max raw i m -> nth i g 0 <= m) -> forall j, (j < M)%nat -> nth j g 0 <= nth j out 0) /\
  (forall g, 0 < g -> (forall i j, (i < j < M)%nat -> g <= nth j ret 0 - nth i ret 0) ->
     forall j m, (j < M)%nat -> is_running_max raw j m -> nth j out 0 <= m + INR M * (1 / 1000000000000 / g)).
Proof.
  intros ret raw HL Hi H2 out M.
  split; [apply out_length; exact HL|]. split; [apply out_convex; assumption|].
  assert (U : forall i m, (i < M)%nat -> is_running_max raw i m -> nth i (cummax raw) 0 = m).
  { intros i m Hm Hr. pose proof (cummax_running raw i ltac:(rewrite HL; exact Hm)) as Hc. apply Rle_antisym; apply (running_max_mono raw i i _ _ (le_n i)); assumption. }
  split; [|split; [|split]].
  - unfold out. rewrite (out_first ret raw HL Hi H2). apply cummax_running. rewrite HL. lia.
  - unfold out, M. rewrite (out_last ret raw HL Hi H2). apply cummax_running. rewrite HL. lia.
  - intros g Hg Hc Hle j Hj. apply out_above_minorants; auto. intros i Hm. apply (Hle i); [exact Hm|]. apply cummax_running. rewrite HL. exact Hm.
  - intros g Hg Hgap j m Hj Hr. rewrite <- (U j m Hj Hr). apply out_upper; assumption.
Qed.
Print Assumptions convexity_correction.

(** A frontier that is already increasing and convex by more than 1e-12 (in the code's cross product) is
    reported unchanged. *)
Theorem convexity_correction_identity : forall ret raw, List.length raw = List.length ret -> nondecreasing raw ->
  (forall i, (S (S i) < List.length ret)%nat ->
     1 / 1000000000000 < (nth (S i) ret 0 - nth i ret 0) * (nth (S (S i)) raw 0 - nth i raw 0)
                       - (nth (S i) raw 0 - nth i raw 0) * (nth (S (S i)) ret 0 - nth i ret 0)) ->
  enforce_convex ret raw = raw.
Proof. intros ret raw HL Hm Hc. apply out_identity; assumption. Qed.
Print Assumptions convexity_correction_identity.

Lemma enforce_three : enforce_convex [0; 1; 2] [0; 3; 4] = [0; 2; 4].
Proof.
  unfold enforce_convex, envelope, cummax, cross, env_eps. simpl. rewrite (Rmax_right 0 3), (Rmax_right 3 4) by lra. unfold cross. simpl. rdec. simpl. rdec.
  repeat f_equal; lra.
Qed.
Example convexity_case : increasing [0; 1; 2] /\ enforce_convex [0; 1; 2] [0; 3; 4] = [0; 2; 4] /\ convex_points [0;1;2] [0;0;2] /\
  enforce_convex [0; 1; 2] [0; 1; 3] = [0; 1; 3].
Proof.
  split; [|split; [exact enforce_three|split]].
  - intros i j [H1 H2]. simpl in H2. destruct i as [|[|i]]; destruct j as [|[|[|j]]]; simpl; try lia; lra.
  - intros i j k H1 H2 H3. simpl in H3. assert (i = 0 /\ j = 1 /\ k = 2)%nat as (-> & -> & ->) by lia. simpl. lra.
  - apply convexity_correction_identity; [reflexivity| |].
    + intros i j [H1 H2]. simpl in H2. destruct i as [|[|[|i]]]; destruct j as [|[|[|j]]]; simpl; try lia; lra.
    + intros i Hi. simpl in Hi. assert (i = 0%nat) as -> by lia. simpl. lra.
Qed.

(** The correction is not an upper bound on the raw risk: a limit respected by the reported risk need not
    hold for the portfolio that is returned. *)
Theorem reported_risk_may_understate_refuted : exists cols ret cvar s,
  let '(cols', ret', risk', vols', raw') := cvar_post (argsort_by Rleb 0) true cols ret cvar [0; 0; 0] in
  at_risk (mkFr 1 cols' ret' risk' "CVaR" None [("raw"%string, raw')]) 2 None = Ok s /\
  s_weights s = [2] /\ nth 1 cols' [] = [2] /\ nth 1 raw' 0 = 3.
Proof.
  exists [[1]; [2]; [3]], [0; 1; 2], [0; 3; 4], (mkSel None [2] 1 2). unfold cvar_post, argsort_by. simpl. rdec. simpl. rdec. simpl. rdec. simpl.
  unfold take; simpl. rewrite !Rabs_pos_eq by lra. rewrite enforce_three.
  unfold at_risk, where_idx; simpl. rdec. simpl. unfold argmax, argbest; simpl. rdec. simpl. auto.
Qed.
Print Assumptions reported_risk_may_understate_refuted.

(** Nor a lower bound at small scales: the absolute 1e-12 tolerance pops genuinely convex points. *)
Theorem reported_risk_may_overstate_refuted : exists ret raw, increasing ret /\ nondecreasing raw /\ convex_points ret raw /\
  List.length raw = List.length ret /\ nth 1 raw 0 = 0 /\ nth 1 (enforce_convex ret raw) 0 = 5 / 10000000.
Proof.
  exists [0; 1/10000000; 2/10000000], [0; 0; 1/1000000]. repeat split.
  - intros i j [H1 H2]. simpl in H2. destruct i as [|[|i]]; destruct j as [|[|[|j]]]; simpl; try lia; lra.
  - intros i j [H1 H2]. simpl in H2. destruct i as [|[|[|i]]]; destruct j as [|[|[|j]]]; simpl; try lia; lra.
  - intros i j k H1 H2 H3. simpl in H3. assert (i = 0 /\ j = 1 /\ k = 2)%nat as (-> & -> & ->) by lia. simpl. lra.
  - unfold enforce_convex, envelope, cummax, cross, env_eps. simpl. rewrite (Rmax_right 0 0), (Rmax_right 0 (1/1000000)) by lra. unfold cross. simpl. rdec. simpl. rdec. lra.
Qed.
Print Assumptions reported_risk_may_overstate_refuted.

(** The absolute value turns a certain gain (negative CVaR) into a large risk: a portfolio that always
    gains more is reported as riskier. *)
Theorem certain_gain_reported_as_risk_refuted : exists cols ret cvar,
  let '(_, ret', risk', _, _) := cvar_post (argsort_by Rleb 0) false cols ret cvar [0; 0] in
  nth 0 cvar 0 = -1 /\ nth 1 cvar 0 = -2 /\ nth 0 risk' 0 < nth 1 risk' 0 /\ nth 0 ret' 0 = 1 /\ nth 1 ret' 0 = 2.
Proof.
  exists [[1]; [2]], [1; 2], [-1; -2]. unfold cvar_post, argsort_by. simpl. rdec. simpl. rewrite !Rabs_left by lra. repeat split; lra.
Qed.
Print Assumptions certain_gain_reported_as_risk_refuted.

(** * C59 *)
(** Every string selector is a pure function of the frontier except "min_risk": applying it twice to the
    same frontier gives the same weights (and applying it to another frontier is unaffected). *)
Theorem selectors_stateless : forall argsort sel, (forall l, sel <> SelMinRisk (Some l)) ->
  forall f, fst (run_selector argsort sel f) = sel.
Proof. intros argsort [rf|[l|]| | | | |] H f; try reflexivity. exfalso. apply (H l). reflexivity. Qed.
Print Assumptions selectors_stateless.

(** "min_risk" with a risk label forgets the label after its first use: the second frontier processed by
    the same selector (as in make_portfolio_ensemble with several frontiers) is judged by its primary risk. *)
Theorem min_risk_selector_forgets_label_refuted : exists f l w w', well_formed f /\
  let (sel', r) := run_selector (argsort_by Rleb 0) (SelMinRisk (Some l)) f in
  r = Ok w /\ snd (run_selector (argsort_by Rleb 0) sel' f) = Ok w' /\ w <> w'.
Proof.
  exists ex_fr, "Volatility"%string, [0; 1], [1; 0]. split; [apply ex_fr_wf|]. simpl.
  unfold min_risk, argmin, argbest, pick, ex_fr; simpl. rdec; simpl. rdec. simpl. rdec. simpl.
  split; [reflexivity|]. split; [reflexivity|]. intros E. injection E. intros. lra.
Qed.
Print Assumptions min_risk_selector_forgets_label_refuted.

(** Risk-based selectors use the explicit label when given; otherwise the primary risk, except that a
    frontier whose measure mentions "Estimation Risk" and which carries a "Volatility" overlay is judged
    by that overlay. *)
Theorem selector_default_label : forall argsort f m t p,
  (forall l, snd (run_selector argsort (SelRiskTarget m (Some l)) f) = let* r := at_risk f m (Some l) in Ok (s_weights r)) /\
  (contains "Estimation Risk" (f_measure f) = false \/ (forall v, ~ In ("Volatility"%string, v) (f_alt f)) ->
     snd (run_selector argsort (SelRiskTarget m None) f) = (let* r := at_risk f m None in Ok (s_weights r)) /\
     snd (run_selector argsort (SelRiskMatch t None) f) = (let* r := closest_risk f t None in Ok (s_weights r)) /\
     snd (run_selector argsort (SelPercentile p None) f) = (let* r := at_percentile argsort f p None in Ok (s_weights r))) /\
  (forall v, contains "Estimation Risk" (f_measure f) = true -> In ("Volatility"%string, v) (f_alt f) ->
     snd (run_selector argsort (SelRiskTarget m None) f) = (let* r := at_risk f m (Some "Volatility"%string) in Ok (s_weights r)) /\
     snd (run_selector argsort (SelRiskMatch t None) f) = (let* r := closest_risk f t (Some "Volatility"%string) in Ok (s_weights r)) /\
     snd (run_selector argsort (SelPercentile p None) f) = (let* r := at_percentile argsort f p (Some "Volatility"%string) in Ok (s_weights r))).
Proof.
  intros argsort f m t p. split; [reflexivity|]. split.
  - intros H. assert (resolve_label f None = None) as E.
    { unfold resolve_label. destruct (lookup "Volatility" (f_alt f)) as [v|] eqn:E; [|reflexivity].
      destruct H as [-> | H]; [reflexivity|]. apply lookup_in in E as (pre & post & E & _). exfalso. apply (H v). rewrite E. apply in_elt. }
    unfold run_selector; cbn [snd]. rewrite E. auto.
  - intros v Hc Hin. assert (resolve_label f None = Some "Volatility"%string) as E.
    { unfold resolve_label. destruct (lookup "Volatility" (f_alt f)) as [v'|] eqn:E; [rewrite Hc; reflexivity|].
      exfalso. exact (lookup_none _ _ E v Hin). }
    unfold run_selector; cbn [snd]. rewrite E. auto.
Qed.
Print Assumptions selector_default_label.
Example robust_label_case : contains "Estimation Risk" "Estimation Risk (t)" = true /\ contains "Estimation Risk" "Volatility" = false.
Proof. split; reflexivity. Qed.

(** * C60 *)
(** to_frame: column [k] of the table is the frontier column that the k-th requested index denotes
    (negative indices count from the end), under the caller's label or the index as given; it raises
    IndexError iff some index is out of range and ValueError iff the labels do not match in number. *)
Theorem to_frame_columns : forall f columns labels t, to_frame f columns labels = Ok t ->
  fst t = f_names f /\
  match columns with
  | None => map snd (snd t) = f_cols f /\
            map fst (snd t) = match labels with Some l => map LStr l | None => map (fun i => LInt (Z.of_nat i)) (seq 0 (List.length (f_cols f))) end
  | Some zs => Forall2 (fun z c => exists i, (i < List.length (f_cols f))%nat /\
                 (z = Z.of_nat i \/ z = Z.of_nat i - Z.of_nat (List.length (f_cols f)))%Z /\ c = nth i (f_cols f) []) zs (map snd (snd t)) /\
               map fst (snd t) = match labels with Some l => map LStr l | None => map LInt zs end
  end.
Proof.
  intros f columns labels t H. unfold to_frame in H. apply bind_ok in H as (m & Hm & H). apply bind_ok in H as (ls & Hl & H). injection H as <-.
  cbn [fst snd]. split; [reflexivity|].
  assert (CM : forall (a : list col_label) (b : list (list R)), List.length a = List.length b -> map fst (combine a b) = a /\ map snd (combine a b) = b).
  { induction a as [|x a IH]; intros [|y b] E; simpl in *; try discriminate; auto. destruct (IH b) as [-> ->]; [lia|auto]. }
  unfold select_weights in Hm. destruct columns as [zs|].
  - apply mapM_ok_forall2 in Hm. assert (Lm : List.length zs = List.length m) by (apply Forall2_len in Hm; exact Hm).
    assert (List.length ls = List.length m /\ ls = match labels with Some l => map LStr l | None => map LInt zs end) as [E1 E2].
    { destruct labels as [l|]; [apply guard_ok in Hl as [Hl1 Hl2]; injection Hl2 as <-; rewrite map_length; apply Nat.eqb_eq in Hl1; auto|].
      injection Hl as <-. rewrite map_length. auto. }
    destruct (CM ls m E1) as [-> ->]. split; [|exact E2].
    eapply Forall2_imp; [|exact Hm]. intros z c Hz. apply bind_ok in Hz as (i & Hi & Hz). injection Hz as <-.
    apply np_index_ok in Hi as [Hi1 Hi2]. exists i. auto.
  - injection Hm as <-. assert (List.length ls = List.length (f_cols f) /\ ls = match labels with Some l => map LStr l | None => map (fun i => LInt (Z.of_nat i)) (seq 0 (List.length (f_cols f))) end) as [E1 E2].
    { destruct labels as [l|]; [apply guard_ok in Hl as [Hl1 Hl2]; injection Hl2 as <-; rewrite map_length; apply Nat.eqb_eq in Hl1; auto|].
      injection Hl as <-. rewrite map_length, seq_length. auto. }
    destruct (CM ls (f_cols f) E1) as [-> ->]. auto.
Qed.
Print Assumptions to_frame_columns.

Theorem to_frame_raises : forall f columns labels e, to_frame f columns labels = Err e <->
  (e = IndexError /\ exists zs z, columns = Some zs /\ In z zs /\
     (z < - Z.of_nat (List.length (f_cols f)) \/ Z.of_nat (List.length (f_cols f)) <= z)%Z) \/
  (e = ValueError /\ (forall zs z, columns = Some zs -> In z zs ->
     (- Z.of_nat (List.length (f_cols f)) <= z < Z.of_nat (List.length (f_cols f)))%Z) /\
   exists l, labels = Some l /\ List.length l <> match columns with Some zs => List.length zs | None => List.length (f_cols f) end).
Proof.
  intros f columns labels e. set (M := List.length (f_cols f)).
  assert (S1 : forall zs, (exists m, select_weights f (Some zs) = Ok m /\ List.length m = List.length zs /\ forall z, In z zs -> (- Z.of_nat M <= z < Z.of_nat M)%Z) \/
               (select_weights f (Some zs) = Err IndexError /\ exists z, In z zs /\ (z < - Z.of_nat M \/ Z.of_nat M <= z)%Z)).
  { unfold select_weights. fold M. induction zs as [|z zs IH]; [left; exists []; simpl; repeat split; auto; tauto|]. cbn [mapM].
    destruct (np_index M z) as [i|e'] eqn:E; cbn [bind].
    - apply np_index_ok in E as [Ei Ez]. destruct IH as [(m & -> & Hl & Hm)|(-> & w & Hw1 & Hw2)]; cbn [bind].
      + left. exists (nth i (f_cols f) [] :: m). split; [reflexivity|]. split; [simpl; lia|]. intros w [<-|Hw]; [lia|auto].
      + right. split; [reflexivity|]. exists w. simpl; auto.
    - apply np_index_err in E as [-> Ez]. right. split; [reflexivity|]. exists z. simpl; auto. }
  unfold to_frame. destruct columns as [zs|].
  - destruct (S1 zs) as [(m & Em & Hl & Hm)|(Em & w & Hw1 & Hw2)]; rewrite Em; cbn [bind].
    + destruct labels as [l|]; cbn [bind].
      * rewrite Hl. destruct (Nat.eqb_spec (List.length l) (List.length zs)) as [E|E]; cbn [guard bind].
        -- split; [discriminate|]. intros [(_ & zs' & z & [= <-] & Hz & Hb)|(_ & _ & l' & [= <-] & K)]; [specialize (Hm z Hz); lia|congruence].
        -- split; [intros [= <-]; right; split; [reflexivity|]; split; [intros zs' z [= <-]; apply Hm|exists l; auto]|].
           intros [(-> & zs' & z & [= <-] & Hz & Hb)|(-> & _)]; [specialize (Hm z Hz); lia|reflexivity].
      * split; [discriminate|]. intros [(_ & zs' & z & [= <-] & Hz & Hb)|(_ & _ & l' & [=] & K)]. specialize (Hm z Hz); lia.
    + split; [intros [= <-]; left; split; [reflexivity|]; exists zs, w; auto|]. intros [(-> & _)|(_ & K & _)]; [reflexivity|]. specialize (K zs w eq_refl Hw1). lia.
  - cbn [select_weights bind]. destruct labels as [l|]; cbn [bind].
    + fold M. destruct (Nat.eqb_spec (List.length l) M) as [E|E]; cbn [guard bind].
      * split; [discriminate|]. intros [(_ & zs' & z & [=] & _)|(_ & _ & l' & [= <-] & K)]. congruence.
      * split; [intros [= <-]; right; split; [reflexivity|]; split; [intros ? ? [=]|exists l; auto]|]. intros [(_ & zs' & z & [=] & _)|(-> & _)]. reflexivity.
    + split; [discriminate|]. intros [(_ & zs' & z & [=] & _)|(_ & _ & l' & [=] & K)].
Qed.
Print Assumptions to_frame_raises.

(** as_discrete_allocation works on the requested column, labelled by the frontier's asset names; unlike
    to_frame it rejects negative indices. *)
Theorem discrete_column_ok : forall asset_i f z,
  (forall r, discrete_column asset_i f z = Ok r -> (0 <= z < Z.of_nat (List.length (f_cols f)))%Z /\
     forall l, f_names f = Some l -> List.length (nth (Z.to_nat z) (f_cols f) []) = List.length l ->
       map fst r = l /\ map snd r = nth (Z.to_nat z) (f_cols f) []) /\
  (forall e, discrete_column asset_i f z = Err e <-> e = IndexError /\ ((z < 0)%Z \/ (Z.of_nat (List.length (f_cols f)) <= z)%Z)).
Proof.
  intros asset_i f z. unfold discrete_column. destruct (Z.ltb_spec z 0) as [H|H]; cbn [orb].
  - split; [discriminate|]. intros e. split; [intros [= <-]; auto|intros [-> _]; reflexivity].
  - destruct (Z.leb_spec (Z.of_nat (List.length (f_cols f))) z) as [H2|H2].
    + split; [discriminate|]. intros e. split; [intros [= <-]; auto|intros [-> _]; reflexivity].
    + split; [|intros e; split; [discriminate|lia]]. intros r [= <-]. split; [lia|]. intros l Hl E. rewrite Hl.
      generalize dependent (nth (Z.to_nat z) (f_cols f) []). clear. induction l as [|a l IH]; intros [|b w] E; simpl in *; try discriminate; auto.
      destruct (IH w) as [-> ->]; [lia|auto].
Qed.
Print Assumptions discrete_column_ok.
Example discrete_column_case : discrete_column (fun _ => "x"%string) ex_fr 1 = Ok [("A"%string, 1/2); ("B"%string, 1/2)] /\
  discrete_column (fun _ => "x"%string) ex_fr (-1) = Err IndexError.
Proof. split; reflexivity. Qed.
