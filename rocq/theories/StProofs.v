(** Proofs about stress tests: every number depends on scenarios and weights through the P&L only. *)
From Verif Require Import RBase QpBase SortLib OptModel ConsModel DistModel ProbRModel RiskModel RiskSpec RiskProofs MomSpec MomProofs BlModel EpModel StModel FvSpec FvProofs FvProofs5 StSpec.
From Verif Require MomModel.
Open Scope R_scope.
Open Scope list_scope.

(** ** Probabilities *)
Record valid (p : list R) (T : nat) : Prop := {
  v_len : List.length p = T; v_nn : forall x, In x p -> 0 <= x; v_T : (0 < T)%nat; v_close : risclose (rsum p) 1 = true }.

Lemma normalize_ok p q : normalize_probs p = Ok q -> p <> [] /\ (forall x, In x p -> 0 <= x) /\ 0 < rsum p /\
  q = if risclose (rsum p) 1 then p else map (fun x => x / rsum p) p.
Proof.
  unfold normalize_probs. destruct p as [|a t]; [discriminate|]. set (l := a :: t). intros H.
  apply guard_ok in H as [H1 H]. apply guard_ok in H as [H2 H]. apply Rltb_true in H2.
  apply negb_true_iff in H1. repeat split; auto.
  - unfold l; discriminate.
  - intros x Hx. destruct (Rle_dec 0 x) as [|n]; auto. exfalso.
    assert (E : existsb (fun x => Rltb x 0) l = true) by (apply existsb_exists; exists x; split; auto; apply Rltb_true; lra). congruence.
  - destruct (risclose (rsum l) 1); apply (f_equal (fun r => match r with Ok y => y | Err _ => [] end)) in H; cbv beta iota in H; congruence.
Qed.
Lemma normalize_total p : p <> [] -> (forall x, In x p -> 0 <= x) -> 0 < rsum p ->
  normalize_probs p = Ok (if risclose (rsum p) 1 then p else map (fun x => x / rsum p) p).
Proof.
  intros H0 H1 H2. unfold normalize_probs. destruct p as [|a t]; [congruence|]. set (l := a :: t) in *.
  replace (existsb (fun x => Rltb x 0) l) with false.
  - rewrite (proj2 (Rltb_true 0 (rsum l))) by auto. cbn [negb guard]. destruct (risclose _ _); reflexivity.
  - symmetry. apply not_true_is_false. intros E. apply existsb_exists in E as (x & Hx & Hlt). apply Rltb_true in Hlt.
    specialize (H1 x Hx). lra.
Qed.
Lemma resolve_valid p T q : resolve_probs p T = Ok q -> valid q T.
Proof.
  unfold resolve_probs. destruct p as [l|].
  - intros H. apply bind_ok in H as (q' & E & H). apply guard_ok in H as [Hl H]. injection H as ->. apply Nat.eqb_eq in Hl.
    apply normalize_ok in E as (Hne & Hn & Hp & E). split; auto.
    + subst q. destruct (risclose (rsum l) 1); auto. intros x Hx. apply in_map_iff in Hx as (y & <- & Hy).
      apply Rmult_le_pos; [auto|]. left. apply Rinv_0_lt_compat; auto.
    + rewrite <- Hl, E. destruct l; [congruence|]. destruct (risclose _ _); simpl; lia.
    + rewrite E. destruct (risclose (rsum l) 1) eqn:C; [exact C|]. apply risclose_one.
      rewrite (rsum_div (rsum l) (fun x => x)), map_id. field. lra.
  - destruct (Nat.eqb_spec T 0); [discriminate|]. intros H. injection H as <-.
    destruct (uniform_prob_vector T n) as (A & B & C). split; auto; [lia|]. apply risclose_one. exact C.
Qed.
Lemma resolve_in_force p T q : clean p -> resolve_probs p T = Ok q -> in_force p T q /\ prob_vector q T.
Proof.
  intros Hc H. pose proof (resolve_valid p T q H) as V. unfold resolve_probs in H. destruct p as [l|]; simpl.
  - apply bind_ok in H as (q' & E & H). apply guard_ok in H as [Hl H]. injection H as ->.
    apply normalize_ok in E as (Hne & Hn & Hp & E).
    assert (Q : q = map (fun x => x / rsum l) l).
    { rewrite E. destruct (risclose (rsum l) 1) eqn:C; [|reflexivity]. destruct (Hc l eq_refl) as [E1|E1].
      - rewrite <- (map_id l) at 1. apply map_ext. intros x. rewrite E1. field.
      - unfold risclose in C. apply Rleb_true in C. rewrite Rabs_R1 in C. lra. }
    split; [exact Q|]. split; [apply V|]. split; [apply V|]. rewrite Q, (rsum_div (rsum l) (fun x => x)), map_id. field. lra.
  - destruct (Nat.eqb_spec T 0); [discriminate|]. injection H as <-. split; [reflexivity|]. apply uniform_prob_vector; auto.
Qed.
Lemma resolve_iff p T : (exists q, resolve_probs p T = Ok q) <-> usable p T.
Proof.
  unfold resolve_probs, usable. destruct p as [l|].
  - split.
    + intros (q & H). apply bind_ok in H as (q' & E & H). apply guard_ok in H as [Hl _]. apply Nat.eqb_eq in Hl.
      apply normalize_ok in E as (Hne & Hn & Hp & E). repeat split; auto. rewrite <- Hl, E. destruct (risclose _ _); [|rewrite map_length]; reflexivity.
    + intros (Hl & Hn & Hp). rewrite normalize_total; auto.
      * cbn [bind]. eexists. rewrite (proj2 (Nat.eqb_eq _ T)); [reflexivity|]. destruct (risclose _ _); [|rewrite map_length]; exact Hl.
      * intros ->. cbn in Hp. lra.
  - destruct (Nat.eqb_spec T 0); split; intros; [destruct H; discriminate|congruence|auto|eauto].
Qed.
Lemma resolve_err p T e : resolve_probs p T = Err e -> e = ValueError.
Proof.
  unfold resolve_probs, normalize_probs. destruct p as [[|a t]|]; cbn [bind]; [congruence| |destruct (Nat.eqb T 0); congruence].
  set (l := a :: t). unfold guard. destruct (negb _); [|cbn [bind]; congruence]. destruct (Rltb _ _); [|cbn [bind]; congruence].
  destruct (risclose _ _); cbn [bind]; destruct (Nat.eqb _ _); congruence.
Qed.

(** ** Metrics as a function of the P&L *)
Definition col (T : nat) (F : mat) (m : nat) : list R := map (fun t => F t m) (seq 0 T).
Definition metrics_core (argsort : list R -> list nat) (T M : nat) (F : mat) (p : list R) (conf : R) (dm : demean_arg) : metrics :=
  Metrics (map (fun m => expect p (col T F m) (fun y => y)) (seq 0 M))
          (map (fun m => sqrt (expect p (col T F m) (fun y => (y - expect p (col T F m) (fun z => z)) ^ 2))) (seq 0 M))
          (map (fun m => - var_pnl argsort (1 - conf) (net_of dm p (col T F m)) p) (seq 0 M))
          (map (fun m => - cvar_pnl argsort (1 - conf) (net_of dm p (col T F m)) p) (seq 0 M))
          (compute_effective_number_scenarios p).

Lemma col_length T F m : List.length (col T F m) = T.
Proof. unfold col. rewrite map_length, seq_length. reflexivity. Qed.
Lemma col_ext T F G m : (forall t, (t < T)%nat -> F t m = G t m) -> col T F m = col T G m.
Proof. intros H. apply map_ext_in. intros t Ht. apply in_seq in Ht. apply H. lia. Qed.
Lemma metrics_core_ext argsort T M F G p conf dm : (forall t m, (t < T)%nat -> (m < M)%nat -> F t m = G t m) ->
  metrics_core argsort T M F p conf dm = metrics_core argsort T M G p conf dm.
Proof.
  intros H. assert (E : forall m, In m (seq 0 M) -> col T F m = col T G m).
  { intros m Hm. apply in_seq in Hm. apply col_ext. intros t Ht. apply H; lia. }
  unfold metrics_core. f_equal; apply map_ext_in; intros m Hm; rewrite (E m Hm); reflexivity.
Qed.

Lemma scen_pnl_rows T N X w : (forall i, (i < N)%nat -> True) ->
  scenario_pnl (rows_of T N X) (map w (seq 0 N)) = map (fun t => dot N (X t) w) (seq 0 T).
Proof.
  intros _. unfold scenario_pnl, rows_of. rewrite map_map. apply map_ext. intros t.
  rewrite (rdot_sumn _ _ N) by (rewrite map_length, seq_length; reflexivity). apply sumn_ext. intros i Hi.
  rewrite !nth_map_seq by auto. reflexivity.
Qed.

Lemma portfolio_risk_core column T N M X W p conf dm : List.length p = T -> (0 < T)%nat -> 0 < conf < 1 ->
  portfolio_risk column (cols_of N M W) (rows_of T N X) (Some p) (Some conf) dm =
  match dm with DOther => Err ValueError | _ =>
    Ok (map (fun m => - column (1 - conf) (net_of dm p (col T (fun t j => dot N (X t) (fun i => W i j)) m)) p) (seq 0 M)) end.
Proof.
  intros Hl HT Hc. unfold portfolio_risk. cbn [default_p].
  rewrite (proj2 (Rltb_true 0 conf)), (proj2 (Rltb_true conf 1)) by lra. cbn [andb negb].
  assert (HR : List.length (rows_of T N X) = T) by (unfold rows_of; rewrite map_length, seq_length; reflexivity).
  assert (HT0 : Nat.eqb T 0 = false) by (apply Nat.eqb_neq; lia).
  assert (HW : forall (L : list (list R)), (forall row, In row L -> List.length row = N) ->
     forallb (fun row => forallb (fun w => Nat.eqb (List.length row) (List.length w)) (cols_of N M W)) L = true).
  { intros L H. apply forallb_forall. intros row Hr. apply forallb_forall. intros w Hw. apply Nat.eqb_eq. rewrite (H row Hr).
    unfold cols_of in Hw. apply in_map_iff in Hw as (m & <- & _). rewrite map_length, seq_length. reflexivity. }
  assert (HRow : forall row, In row (rows_of T N X) -> List.length row = N).
  { intros row Hr. unfold rows_of in Hr. apply in_map_iff in Hr as (t & <- & _). rewrite map_length, seq_length. reflexivity. }
  assert (PN : forall w, pnl (rows_of T N X) (map w (seq 0 N)) = map (fun t => dot N (X t) w) (seq 0 T)).
  { intros w. apply scen_pnl_rows. auto. }
  destruct dm as [|[|]|]; cbn [bind]; try reflexivity.
  - rewrite HR, HW by auto. cbn [negb]. unfold broadcast_p. rewrite Hl, Nat.eqb_refl. cbn [bind]. rewrite HT0. f_equal.
    unfold cols_of. rewrite map_map. apply map_ext. intros m. rewrite PN. reflexivity.
  - rewrite HR, Hl, Nat.eqb_refl. cbn [bind]. rewrite HW.
    + cbn [negb]. unfold broadcast_p. rewrite Hl, Nat.eqb_refl. cbn [bind]. rewrite HT0. f_equal.
      unfold cols_of. rewrite map_map. apply map_ext. intros m. rewrite demean_pnl.
      * f_equal. f_equal. unfold net_of. change (scenario_pnl (rows_of T N X) (map (fun i => W i m) (seq 0 N))) with (pnl (rows_of T N X) (map (fun i => W i m) (seq 0 N))).
        rewrite PN. reflexivity.
      * congruence.
      * intros row Hr. rewrite (HRow row Hr), map_length, seq_length. reflexivity.
    + intros row Hr. apply demean_rows_row_length in Hr as (r & Hr & E). rewrite E. auto.
  - rewrite HR, HW by auto. cbn [negb]. unfold broadcast_p. rewrite Hl, Nat.eqb_refl. cbn [bind]. rewrite HT0. f_equal.
    unfold cols_of. rewrite map_map. apply map_ext. intros m. rewrite PN. reflexivity.
Qed.

Lemma expect_expectation T F m p f : List.length p = T -> expect p (col T F m) f = expectation T (of_list p) (fun t => f (F t m)).
Proof.
  intros Hl. unfold expect, expectation. rewrite (rsum_map2_sumn _ p (col T F m) 0 0 T); [|auto|apply col_length].
  apply sumn_ext. intros t Ht. unfold col. rewrite nth_map_seq by auto. reflexivity.
Qed.

Lemma metrics_of_core argsort T N M X W p conf dm : valid p T -> 0 < conf < 1 ->
  metrics_of argsort T N M X W p conf dm =
  match dm with DOther => Err ValueError | _ =>
    Ok (metrics_core argsort T M (fun t j => dot N (X t) (fun i => W i j)) p conf dm) end.
Proof.
  intros [Hl Hn HT Hc] Hconf. unfold metrics_of, MomModel.estimate_sample_moments. rewrite Hl, Nat.eqb_refl. cbn [negb].
  replace (MomModel.check_non_negativity T (of_list p)) with true.
  2:{ symmetry. apply forallb_forall. intros t Ht. apply in_seq in Ht. apply Rleb_true. pose proof (Hn (nth t p 0)) as H.
      assert (0 <= nth t p 0) by (apply H, nth_In; lia). unfold of_list. lra. }
  replace (MomModel.check_weights_sum_to_one T (of_list p)) with true.
  2:{ symmetry. apply Rleb_true. unfold risclose in Hc. apply Rleb_true in Hc. rewrite rsum_sumn, Hl in Hc. unfold of_list. rewrite Rabs_R1 in *. lra. }
  cbn [andb negb]. change (MomModel.labels [MomModel.Arr; MomModel.Arr]) with (@Ok (option (list string)) None). cbn [bind MomModel.wrap_labels].
  unfold portfolio_var, portfolio_cvar. rewrite !portfolio_risk_core by auto.
  assert (E1 : map (fun m => sumn N (fun i => W i m * MomModel.wmean T (of_list p) X i)) (seq 0 M) =
               map (fun m => expect p (col T (fun t j => dot N (X t) (fun i => W i j)) m) (fun y => y)) (seq 0 M)).
  { apply map_ext. intros m. rewrite expect_expectation by auto. cbv beta.
    change (fun t => dot N (X t) (fun i => W i m)) with (port N X (fun i => W i m)). rewrite port_mean. apply dot_comm. }
  assert (E2 : map (fun m => sqrt (sumn N (fun k => sumn N (fun l => W k m * MomModel.wcov T (of_list p) X k l * W l m)))) (seq 0 M) =
               map (fun m => sqrt (expect p (col T (fun t j => dot N (X t) (fun i => W i j)) m) (fun y => (y - expect p (col T (fun t j => dot N (X t) (fun i => W i j)) m) (fun z => z)) ^ 2))) (seq 0 M)).
  { apply map_ext. intros m. f_equal.
    transitivity (quad N (MomModel.wcov T (of_list p) X) (fun i => W i m)).
    - unfold quad. apply sumn_ext. intros i Hi. apply sumn_ext. intros j Hj. ring.
    - rewrite quad_wcov, expect_expectation by auto. unfold variance. rewrite (expect_expectation T _ m p (fun z => z)) by auto. reflexivity. }
  destruct dm as [|[|]|]; cbn [bind]; try reflexivity; rewrite E1, E2; reflexivity.
Qed.

Lemma ens_spec p : compute_effective_number_scenarios p = exp (- rsum (map (fun q => if Rlt_dec 0 q then q * ln q else 0) p)).
Proof.
  unfold compute_effective_number_scenarios. do 2 f_equal. induction p as [|a t IH]; [reflexivity|]. cbn [filter map]. unfold Rltb at 1.
  rewrite rsum_cons. destruct (Rlt_dec 0 a); cbn [map]; rewrite ?rsum_cons; rewrite IH; lra.
Qed.

Lemma net_length dm p x : List.length (net_of dm p x) = List.length x.
Proof. destruct dm as [|[|]|]; simpl; rewrite ?map_length; reflexivity. Qed.

Lemma core_reports argsort T M F p conf dm : sorts Rle 0 argsort -> prob_vector p T -> 0 < conf < 1 ->
  reports (metrics_core argsort T M F p conf dm) M p (col T F) conf dm.
Proof.
  intros Hs Hp Hc. unfold reports, metrics_core. cbn [m_mean m_sd m_var m_cvar m_ens].
  rewrite !map_length, !seq_length. do 4 (split; [reflexivity|]). split; [|apply ens_spec].
  intros j Hj. rewrite !nth_map_seq by auto.
  assert (HV : prob_vector p (List.length (net_of dm p (col T F j)))) by (rewrite net_length, col_length; auto).
  unfold measured. split; [reflexivity|]. split; [apply sqrt_pos|]. split.
  - rewrite pow2_sqrt; [reflexivity|]. rewrite expect_expectation by apply Hp. unfold expectation. apply sumn_nonneg. intros t Ht.
    apply Rmult_le_pos; [|apply pow2_ge_0]. apply Hp. apply nth_In. destruct Hp as (-> & _). exact Ht.
  - rewrite Ropp_involutive. split; [apply var_is_quantile; auto; lra|]. apply cvar_pnl_is_cvar; auto; lra.
Qed.

(** ** Alignment *)
Lemma mem_in l ls : mem l ls = true <-> In l ls.
Proof.
  unfold mem. rewrite existsb_exists. split.
  - intros (x & Hx & E). unfold label_eqb in E. destruct (label_dec l x); [subst; auto|discriminate].
  - intros H. exists l. split; auto. unfold label_eqb. destruct (label_dec l l); congruence.
Qed.
Lemma subset_in a b : subset a b = true <-> forall l, In l a -> In l b.
Proof. unfold subset. rewrite forallb_forall. split; intros H l Hl; [apply mem_in|apply mem_in]; auto. Qed.

Lemma raw_ok w n m W idx names : raw_weights w = Ok (n, m, W, idx, names) ->
  n = rows_in w /\ m = List.length (names_of w) /\ names = names_of w /\ idx = labels_of w /\ (forall k j, W k j = wentry w k j).
Proof.
  destruct w; cbn [raw_weights]; intros H; try discriminate; injection H as <- <- <- <- <-; cbn [rows_in names_of labels_of wentry]; repeat split; auto.
  rewrite map_length, seq_length. reflexivity.
Qed.
Lemma raw_total w : w <> WtOther -> raw_weights w = Ok (rows_in w, List.length (names_of w), wentry w, labels_of w, names_of w).
Proof. destruct w; intros H; cbn [raw_weights rows_in names_of labels_of wentry]; try reflexivity; [|congruence]. rewrite map_length, seq_length. reflexivity. Qed.
Lemma labels_rows w idx : labels_of w = Some idx -> rows_in w = List.length idx.
Proof. destruct w; simpl; intros H; try discriminate; injection H as <-; rewrite ?map_length; reflexivity. Qed.

(** Number of columns the weights must match, resolved labels and aligned matrix. *)
Definition aligned_matrix (w : weights) (cols : option (list label)) : mat :=
  match cols, labels_of w with
  | Some c, Some idx => fun i j => wentry w (nth i (map (fun l => match index_of l idx with Some k => k | None => 0%nat end) c) 0%nat) j
  | _, _ => wentry w
  end.
Definition is_some {A} (o : option A) : bool := match o with Some _ => true | None => false end.
Lemma align_ok w cols n m W idx names : align_weights w cols = Ok (n, m, W, idx, names) ->
  w <> WtOther /\ m = List.length (names_of w) /\ names = names_of w /\ W = aligned_matrix w cols /\
  is_some idx = is_some (labels_of w) /\ labels_match w cols /\
  n = match cols, labels_of w with Some c, Some _ => List.length c | _, _ => rows_in w end /\
  (forall c, cols = Some c -> n = List.length c).
Proof.
  intros H. assert (Hw : w <> WtOther) by (intros ->; discriminate).
  unfold align_weights in H. rewrite raw_total in H by auto. cbn [bind] in H. unfold aligned_matrix, labels_match.
  destruct cols as [c|]; [destruct (labels_of w) as [ix|] eqn:E|].
  - destruct (subset ix c && subset c ix) eqn:S.
    + injection H as <- <- <- <- <-. apply andb_true_iff in S as [S1 S2]. rewrite subset_in in S1, S2. repeat split; auto. intros c0 E0. injection E0 as <-. reflexivity.
    + destruct (mixed _ || mixed _); discriminate.
  - destruct (Nat.eqb_spec (rows_in w) (List.length c)) as [e|]; [|discriminate]. injection H as <- <- <- <- <-. repeat split; auto. intros c0 E0. injection E0 as <-. exact e.
  - injection H as <- <- <- <- <-. destruct (labels_of w); repeat split; auto; discriminate.
Qed.

Lemma aligned_holding w cols i m : labels_match w cols -> (forall c, cols = Some c -> (i < List.length c)%nat) -> holding w cols i m (aligned_matrix w cols i m).
Proof.
  unfold labels_match, holding, aligned_matrix. intros Hm Hi. destruct cols as [c|]; [destruct (labels_of w) as [idx|]|]; try reflexivity.
  specialize (Hi c eq_refl). destruct (nth_error c i) as [l|] eqn:E; [|apply nth_error_None in E; lia].
  assert (In l idx) as Hl by (apply Hm; eapply nth_error_In; eauto).
  destruct (index_of l idx) as [k|] eqn:K; [|apply index_none in K; tauto].
  exists l, k. split; [reflexivity|]. split; [apply index_first; exact K|].
  rewrite (nth_map_lt _ c i (LInt 0)) by auto. rewrite (nth_error_nth c i (LInt 0) E), K. reflexivity.
Qed.
Lemma holding_unique w cols i m x y : holding w cols i m x -> holding w cols i m y -> x = y.
Proof.
  unfold holding. destruct cols as [c|]; [destruct (labels_of w)|]; try congruence.
  intros (l1 & k1 & A1 & B1 & ->) (l2 & k2 & A2 & B2 & ->). assert (l1 = l2) by congruence. subst. apply index_first in B1. apply index_first in B2. congruence.
Qed.
