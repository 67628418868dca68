(** Bootstrapped P&L: horizon rows, drawdowns, stresses of invariants. *)
From Coq Require Import Permutation Sorted.
From Verif Require Import RBase QpBase SortLib OptModel ConsModel DistModel ProbRModel ProbRSpec RiskModel RiskSpec RiskProofs MomSpec MomProofs MomProofs2 BlModel EpModel ProjModel ProjSpec ProjProofs ProjProofs2 ProjProofs3 StModel FvSpec FvProofs StSpec StProofs StProofs2 StProofs3 StProofs4 StProofs5 StProofs6 StProofs7 StProofs8.
From Verif Require MomModel ProbRProofs.
Open Scope R_scope.
Open Scope list_scope.

(** ** Repricing to simple returns *)
Lemma wrap_exp kd ns a out : wrap kd ns (reprice_exp a) = Ok out -> exists o, wrap kd ns a = Ok o /\ out = reprice_exp o.
Proof.
  destruct kd as [| |cols]; cbn [wrap reprice_exp r_shape].
  - intros H. injection H as <-. eauto.
  - destruct (list_eq_dec Nat.eq_dec (r_shape a) [ns]); [|discriminate]. intros H. injection H as <-. eauto.
  - destruct (list_eq_dec Nat.eq_dec (r_shape a) [ns; List.length cols]); [intros H; injection H as <-; eauto|].
    destruct (list_eq_dec Nat.eq_dec (r_shape a) [ns]); [|discriminate]. destruct (Nat.eqb (List.length cols) 1); [|discriminate].
    intros H. injection H as <-. eexists. split; [reflexivity|]. reflexivity.
Qed.
Lemma project_exp kd X hz p ns u out : project_scenarios kd X hz p ns (Some (fun a => Ok (reprice_exp a))) u = Ok out ->
  exists o, project_scenarios kd X hz p ns None u = Ok o /\ out = reprice_exp o.
Proof.
  unfold project_scenarios. destruct (hor_int hz <=? 0)%Z; [discriminate|]. destruct (ns <=? 0)%Z; [discriminate|].
  destruct (r_shape X) as [|T [|n [|? ?]]]; try discriminate.
  - intros H. apply bind_ok in H as (w & -> & H). apply bind_ok in H as (idx & Ei & H). cbn [bind] in *. rewrite Ei. cbn [bind] in *. apply wrap_exp. exact H.
  - intros H. apply bind_ok in H as (w & -> & H). apply bind_ok in H as (idx & Ei & H). cbn [bind] in *. rewrite Ei. cbn [bind] in *. apply wrap_exp. exact H.
Qed.

(** Simple return of driver [j] over the [h] rows drawn for scenario [s]. *)
Lemma project_exp_means kd X h p ns u out T n : kind_ok kd X -> r_shape X = [T; n] -> uniform_draws u ->
  project_scenarios kd X (HInt h) p ns (Some (fun a => Ok (reprice_exp a))) u = Ok out ->
  (0 < h)%Z /\ (0 < ns)%Z /\ r_shape out = [Z.to_nat ns; n] /\
  exists idx, bootstrap T (raw_weight p) u (Z.to_nat ns) (Z.to_nat h) idx /\
    forall s j, (s < Z.to_nat ns)%nat -> (j < n)%nat -> entry n out s j = compound n X (idx s) (Z.to_nat h) j.
Proof.
  intros K S U H. apply project_exp in H as (o & H & ->).
  destruct (project_plain kd X (HInt h) p ns u o T n K (or_intror S) U H) as (H1 & H2 & H3 & idx & HB & HE).
  cbn [hor_int] in *. split; auto. split; auto. split; [cbn [reprice_exp r_shape]; rewrite H3, S; reflexivity|].
  exists idx. split; auto. intros s j Hs Hj. unfold entry, reprice_exp, compound. cbn [r_at]. rewrite <- HE by auto. reflexivity.
Qed.

(** ** A row of the horizon report *)
Lemma kind_cols_frame kd X T n : kind_ok kd X -> r_shape X = [T; n] -> forall c, kind_cols kd = Some c -> List.length c = n.
Proof.
  intros K S c E. destruct kd as [| |cols]; try discriminate. injection E as <-. destruct K as (T' & E). rewrite S in E. injection E as _ ->. apply map_length.
Qed.
Lemma horizon_row_l argsort rng fresh w kd X T n nsim p conf seed i h r : sorts Rle 0 argsort -> distinct_labels w ->
  kind_ok kd X -> r_shape X = [T; n] -> uniform_draws (draws_for rng fresh seed i nsim h) ->
  horizon_row argsort rng fresh w kd X nsim p None conf seed i h = Ok r ->
  (0 < h)%Z /\ (0 < nsim)%Z /\ exists idx hold,
    bootstrap T (raw_weight p) (draws_for rng fresh seed i nsim h) (Z.to_nat nsim) (Z.to_nat h) idx /\
    (forall j, (j < n)%nat -> holding w (kind_cols kd) j 0 (hold j)) /\
    measured (repeat (1 / INR (Z.to_nat nsim)) (Z.to_nat nsim))
      (map (fun s => sumn n (fun j => hold j * compound n X (idx s) (Z.to_nat h) j)) (seq 0 (Z.to_nat nsim)))
      conf (DBool false) (rp_mean r) (rp_sd r) (rp_var r) (rp_cvar r).
Proof.
  intros HS D K S U H. unfold horizon_row in H. cbv zeta in H. apply bind_ok in H as (out & E1 & H). apply bind_ok in H as (sc & E2 & H).
  destruct (project_exp_means _ _ _ _ _ _ _ T n K S U E1) as (H1 & H2 & H3 & idx & HB & HE). split; auto. split; auto.
  unfold scen_of in E2. rewrite H3 in E2. injection E2 as <-.
  assert (F : frame_ok (Scen (kind_cols kd) (Z.to_nat nsim) n (fun t k => r_at out (t * n + k)%nat))).
  { intros c Ec. cbn [sc_cols sc_N] in *. eapply kind_cols_frame; eauto. }
  assert (C : clean None) by (intros l E; discriminate E).
  destruct (performance_means_l _ _ _ _ _ _ _ HS F D C H) as (q & x & Hq & _ & Hx & HM & _ & _).
  cbn [in_force sc_T] in Hq. subst q. destruct Hx as (hold & Hh & ->). exists idx, hold. split; auto. split; [exact Hh|].
  cbn [sc_T sc_N sc_X] in HM. unfold book_pnl in HM. erewrite map_ext_in; [exact HM|]. intros s Hs. apply in_seq in Hs. apply sumn_ext. intros j Hj.
  cbn beta. change (r_at out (s * n + j)%nat) with (entry n out s j). rewrite HE by (auto; lia). ring.
Qed.

(** ** Drawdowns *)
Lemma mapM_pure {A B} (f : A -> res B) (g : A -> B) l : (forall a, In a l -> f a = Ok (g a)) -> mapM f l = Ok (map g l).
Proof.
  induction l as [|a t IH]; intros H; cbn [mapM map]; [reflexivity|]. rewrite (H a) by (left; auto). cbn [bind]. rewrite IH by (intros; apply H; right; auto). reflexivity.
Qed.
Lemma simulate_exp X h np p u out T n : scenarios_of X T n -> simulate_paths X h np p (Some (fun a => Ok (reprice_exp a))) u = Ok out ->
  exists o, simulate_paths X h np p None u = Ok o /\ r_shape out = r_shape o /\
  forall s t j, (s < Z.to_nat np)%nat -> (t < Z.to_nat h)%nat -> (j < n)%nat ->
    r_at out ((s * Z.to_nat h + t) * n + j)%nat = exp (r_at o ((s * Z.to_nat h + t) * n + j)%nat) - 1.
Proof.
  intros HS H. unfold simulate_paths in *. apply bind_ok in H as ([T' n'] & E & H).
  assert (T' = T /\ n' = n) as [-> ->]. { destruct HS as [[E' En]|E']; rewrite E' in E; injection E as <- <-; auto. }
  rewrite E. cbn [bind]. apply bind_ok in H as ([k w] & Ew & H). rewrite Ew. cbn [bind]. apply bind_ok in H as (idx & Ei & H). rewrite Ei. cbn [bind].
  cbv zeta in *. apply bind_ok in H as (outs & Eo & H).
  erewrite mapM_pure in Eo.
  2:{ intros t _. cbn [bind reprice_exp r_shape]. destruct (list_eq_dec Nat.eq_dec [Z.to_nat np; n] [Z.to_nat np; n]); [reflexivity|congruence]. }
  injection Eo as <-. injection H as <-. eexists. split; [reflexivity|]. split; [reflexivity|].
  intros s t j Hs Ht Hj. cbn [r_at].
  destruct (div_mod_pos n (s * Z.to_nat h + t) j Hj) as [-> ->]. destruct (div_mod_pos (Z.to_nat h) s t Ht) as [-> ->].
  rewrite !nth_map_seq by exact Ht. cbn [r_at]. reflexivity.
Qed.

Lemma quantile_linear l q : l <> [] -> 0 <= q <= 1 -> linear_quantile l q (np_quantile l q).
Proof.
  intros NE Hq. pose proof (q_lo_spec l q Hq) as [[L1 L2] L3]. assert (HL : (0 < List.length l)%nat) by (destruct l; [congruence|simpl; lia]).
  exists (MomModel.rsort l), (q_lo l q), (q_pos l q - INR (q_lo l q)).
  assert (EP : q_pos l q = q * (INR (List.length l) - 1)). { unfold q_pos. rewrite minus_INR by lia. simpl (INR 1). ring. }
  split; [apply Permutation_sym, rsort_perm|]. split; [apply rsort_sorted|]. split; [lra|]. split; [lra|]. split; [lia|].
  unfold np_quantile. fold (q_pos l q). fold (q_lo l q).
  destruct (Nat.eq_dec (q_lo l q) (List.length l - 1)) as [E|E].
  - assert (q_pos l q - INR (q_lo l q) = 0). { rewrite E in *. assert (q_pos l q <= INR (List.length l - 1)). { unfold q_pos. pose proof (pos_INR (List.length l - 1)). nra. } lra. }
    rewrite H. lra.
  - rewrite Nat.min_l by lia. ring.
Qed.
Lemma sorted_perm_unique : forall s s', StronglySorted Rle s -> StronglySorted Rle s' -> Permutation s s' -> s = s'.
Proof.
  induction s as [|a t IH]; intros s' S S' P.
  - apply Permutation_nil in P. auto.
  - destruct s' as [|b t']; [apply Permutation_sym, Permutation_nil in P; discriminate|].
    inversion S as [|? ? St Ha]; subst. inversion S' as [|? ? St' Hb]; subst. rewrite Forall_forall in Ha, Hb.
    assert (E : a = b).
    { apply Rle_antisym.
      - assert (H : In b (a :: t)) by (eapply Permutation_in; [apply Permutation_sym; exact P|left; auto]). destruct H as [->|H]; [lra|auto].
      - assert (H : In a (b :: t')) by (eapply Permutation_in; [exact P|left; auto]). destruct H as [->|H]; [lra|auto]. }
    subst b. f_equal. apply IH; auto. eapply Permutation_cons_inv; eauto.
Qed.
Lemma quantile_linear_unique l q x y : linear_quantile l q x -> linear_quantile l q y -> x = y.
Proof.
  intros (s & k & f & P & S & Hf & E & _ & ->) (s' & k' & f' & P' & S' & Hf' & E' & _ & ->).
  assert (s' = s). { apply (sorted_perm_unique s' s); auto. eapply Permutation_trans; [apply Permutation_sym; exact P'|exact P]. } subst s'.
  assert (K : k = k').
  { assert (INR k < INR k' + 1) by lra. assert (INR k' < INR k + 1) by lra. rewrite <- S_INR in *. apply INR_lt in H, H0. lia. }
  subst k'. assert (f = f') by lra. subst. reflexivity.
Qed.

Lemma ravel_single w l : single w -> ravel w = Ok l -> l = map (fun j => wentry w j 0) (seq 0 (rows_in w)).
Proof.
  intros Hs H. destruct w as [idx cols W|idx nm v|d|n v|n m W|]; cbn [single] in Hs; try contradiction; cbn [ravel] in H; injection H as <-; cbn [rows_in wentry].
  - rewrite Hs, Nat.mul_1_r. apply map_ext. intros k. rewrite Nat.div_1_r, Nat.mod_1_r. reflexivity.
  - reflexivity.
  - reflexivity.
  - subst m. rewrite Nat.mul_1_r. apply map_ext. intros k. rewrite Nat.div_1_r, Nat.mod_1_r. reflexivity.
Qed.

Lemma drawdown_l w X T n h conf np p u d : scenarios_of X T n -> uniform_draws u -> (forall a, p = Some a -> forall k, (k < T)%nat -> 0 <= as_vec a k) -> single w ->
  drawdown_quantile w X h conf np p None u = Ok d ->
  rows_in w = n /\ (0 < h)%Z /\ (0 < np)%Z /\ 0 <= conf <= 1 /\
  exists idx falls, bootstrap T (raw_weight p) u (Z.to_nat np) (Z.to_nat h) idx /\ List.length falls = Z.to_nat np /\
    (forall s, (s < Z.to_nat np)%nat -> let path := wealth_path n X (map (fun j => wentry w j 0) (seq 0 n)) (idx s) (Z.to_nat h) in
       0 < nth 0 path 0 -> is_max_drawdown path (nth s falls 0)) /\
    dd_mean d = rsum falls / INR (List.length falls) /\ linear_quantile falls (1 / 2) (dd_median d) /\
    linear_quantile falls conf (dd_q d) /\ linear_quantile falls 1 (dd_worst d) /\ dd_pct d = py_round (conf * 100).
Proof.
  intros HS U Hp Hw H. unfold drawdown_quantile in H. cbv zeta in H. apply bind_ok in H as (wv & Ew & H). apply bind_ok in H as (paths & Ep & H).
  apply (ravel_single w wv Hw) in Ew. destruct (simulate_exp _ _ _ _ _ _ _ _ HS Ep) as (o & Eo & Esh & EX).
  destruct (simulate_inv _ _ _ _ _ _ _ _ HS Eo) as (Hh & Hnp & k & q & idx & Eq & Ei & Hsh & HO).
  rewrite Esh, Hsh in H. apply guard_ok in H as [H1 H]. apply guard_ok in H as [H2 H]. apply guard_ok in H as [H3 H].
  apply Nat.eqb_eq in H1. apply andb_prop in H2 as [H2 H2']. apply andb_prop in H3 as [H3 H3']. apply Rleb_true in H3, H3'.
  apply negb_true_iff, Nat.eqb_neq in H2. apply negb_true_iff, Nat.eqb_neq in H2'.
  assert (En : rows_in w = n). { rewrite Ew, map_length, seq_length in H1. exact H1. }
  split; auto. split; [lia|]. split; [lia|]. split; auto.
  rewrite En in Ew.
  apply rng_choice_inv in Ei. destruct Ei as (HT & HkT & Hwt & HSum & ->).
  destruct (path_weights_scale T p k q Eq HT HkT) as (s0 & Hs0 & Hwq & Es0).
  assert (HR : forall i, (i < T)%nat -> 0 <= raw_weight p i) by (destruct p as [a|]; simpl; [apply (Hp a); reflexivity|intros; lra]).
  assert (Hs0p : 0 < s0). { assert (0 <= s0) by (rewrite Es0; apply sumn_nonneg; exact HR). lra. }
  assert (Hq1 : 0 < sumn T q). { pose proof choice_tol_small. unfold Rabs in HSum. destruct (Rcase_abs (sumn T q - 1)); lra. }
  set (falls := map (fun s => list_max (drawdowns (path_wealth paths (Z.to_nat h) n wv s))) (seq 0 (Z.to_nat np))) in *.
  assert (EL : List.length falls = Z.to_nat np) by (unfold falls; rewrite map_length, seq_length; reflexivity).
  assert (NE : falls <> []) by (intros E; rewrite E in EL; simpl in EL; lia).
  exists (fun s k => choice_index T q (u s k)), falls. split.
  { intros s t Hs Ht. apply (raw_draws T p q s0 _ _ Hs0p Hwq). apply choice_index_draws; auto. }
  split; auto. split.
  { intros s Hs path H0. unfold falls. rewrite nth_map_seq by auto.
    assert (EP : path_wealth paths (Z.to_nat h) n wv s = path).
    { unfold path_wealth, path, wealth_path. apply map_ext_in. intros t Ht. apply in_seq in Ht. unfold wealth_at. f_equal. apply sumn_ext. intros j Hj.
      rewrite EX by (auto; lia). rewrite HO by (auto; lia). rewrite Ew. unfold compound. ring. }
    rewrite EP. apply max_drawdown_spec; auto. unfold path, wealth_path. intros E. apply (f_equal (@List.length R)) in E. rewrite map_length, seq_length in E. simpl in E. lia. }
  injection H as <-. cbn [dd_mean dd_median dd_q dd_worst dd_pct]. rewrite EL. split; auto.
  split; [rewrite <- quantile_half by auto; apply quantile_linear; auto; lra|]. split; [apply quantile_linear; auto|]. split; auto.
  rewrite <- quantile_one by auto. apply quantile_linear; auto; lra.
Qed.

(** ** Long-only books *)
Lemma linear_quantile_in l q x a b : l <> [] -> 0 <= q <= 1 -> (forall y, In y l -> a <= y <= b) -> linear_quantile l q x -> a <= x <= b.
Proof.
  intros NE Hq H (s & k & f & P & _ & Hf & E & Hk & ->).
  assert (HL : List.length s = List.length l) by (apply Permutation_length, Permutation_sym, P).
  assert (I : forall i, (i < List.length l)%nat -> a <= nth i s 0 <= b).
  { intros i Hi. apply H. eapply Permutation_in; [apply Permutation_sym; exact P|]. apply nth_In. lia. }
  pose proof (I k Hk). destruct (Nat.eq_dec (S k) (List.length l)) as [e|ne].
  - assert (f = 0). { assert (E2 : INR (List.length l) - 1 = INR k) by (rewrite <- e, S_INR; lra). rewrite E2 in E. pose proof (pos_INR k). nra. }
    subst f. lra.
  - pose proof (I (Datatypes.S k)). assert (a <= nth (Datatypes.S k) s 0 <= b) by (apply H1; lia). nra.
Qed.
Lemma linear_quantile_le l q q' x x' : l <> [] -> 0 <= q -> q <= q' -> q' <= 1 -> linear_quantile l q x -> linear_quantile l q' x' -> x <= x'.
Proof.
  intros NE H0 H1 H2 L L'. rewrite (quantile_linear_unique l q x (np_quantile l q)), (quantile_linear_unique l q' x' (np_quantile l q')); auto; try (apply quantile_linear; auto; lra).
  apply quantile_mono; auto.
Qed.
Lemma rsum_between l a b : (forall y, In y l -> a <= y <= b) -> INR (List.length l) * a <= rsum l <= INR (List.length l) * b.
Proof.
  induction l as [|x t IH]; intros H; [simpl; lra|]. pose proof (H x (or_introl eq_refl)). destruct IH as [I1 I2]; [intros; apply H; right; auto|].
  cbn [List.length rsum]. rewrite S_INR. cbn [rsum fold_right]. unfold rsum in *. cbn [fold_right]. lra.
Qed.
Lemma wealth_positive n X w rows t : List.length w = n -> long_only w -> 0 < wealth_at n X w rows t.
Proof.
  intros L [H1 H2]. unfold wealth_at.
  assert (E : sumn n (fun j => nth j w 0 * compound n X rows (S t) j) = sumn n (fun j => nth j w 0 * exp (sumn (S t) (fun v => entry n X (rows v) j))) - sumn n (fun j => nth j w 0)).
  { rewrite <- sumn_minus. apply sumn_ext. intros j _. unfold compound. ring. }
  rewrite E. assert (E2 : sumn n (fun j => nth j w 0) = rsum w). { rewrite <- L. symmetry. apply rsum_sumn. }
  rewrite E2. assert (P : forall j, (j < n)%nat -> 0 <= nth j w 0) by (intros; apply H1, nth_In; lia).
  destruct (Rle_lt_dec (rsum w) 0) as [Z|Z].
  - assert (0 <= sumn n (fun j => nth j w 0 * exp (sumn (S t) (fun v => entry n X (rows v) j)))).
    { apply sumn_nonneg. intros j Hj. pose proof (exp_pos (sumn (S t) (fun v => entry n X (rows v) j))). pose proof (P j Hj). nra. }
    lra.
  - assert (0 < sumn n (fun j => nth j w 0 * exp (sumn (S t) (fun v => entry n X (rows v) j)))).
    { assert (HN : 0 <= sumn n (fun j => nth j w 0 * exp (sumn (S t) (fun v => entry n X (rows v) j)))).
      { apply sumn_nonneg. intros j Hj. pose proof (exp_pos (sumn (S t) (fun v => entry n X (rows v) j))). pose proof (P j Hj). nra. }
      destruct HN as [HN|HN]; auto. exfalso. rewrite <- E2 in Z.
      assert (Z0 : sumn n (fun j => nth j w 0) = 0); [|lra]. rewrite <- (sumn_zero n) at 1. apply sumn_ext. intros j Hj.
      assert (K : nth j w 0 * exp (sumn (S t) (fun v => entry n X (rows v) j)) = 0).
      { refine (sumn_nonneg_zero n _ _ (eq_sym HN) j Hj). intros i Hi. pose proof (exp_pos (sumn (S t) (fun v => entry n X (rows v) i))). pose proof (P i Hi). nra. }
      pose proof (exp_pos (sumn (S t) (fun v => entry n X (rows v) j))). nra. }
    lra.
Qed.
Lemma drawdown_range_l w X T n h conf np p u d : scenarios_of X T n -> uniform_draws u -> (forall a, p = Some a -> forall k, (k < T)%nat -> 0 <= as_vec a k) -> single w ->
  long_only (map (fun j => wentry w j 0) (seq 0 n)) ->
  drawdown_quantile w X h conf np p None u = Ok d ->
  0 <= dd_mean d <= dd_worst d /\ 0 <= dd_median d <= dd_worst d /\ 0 <= dd_q d <= dd_worst d /\ dd_worst d < 1 /\
  (1 / 2 <= conf -> dd_median d <= dd_q d) /\ (conf <= 1 / 2 -> dd_q d <= dd_median d).
Proof.
  intros HS U Hp Hw LO H. destruct (drawdown_l _ _ _ _ _ _ _ _ _ _ HS U Hp Hw H) as (En & Hh & Hnp & Hc & idx & falls & HB & EL & HF & M1 & M2 & M3 & M4 & _).
  assert (NE : falls <> []) by (intros E; rewrite E in EL; simpl in EL; lia).
  assert (PW : forall s x, In x (wealth_path n X (map (fun j => wentry w j 0) (seq 0 n)) (idx s) (Z.to_nat h)) -> 0 < x).
  { intros s x Hx. apply in_map_iff in Hx as (t & <- & _). apply wealth_positive; auto. rewrite map_length, seq_length. reflexivity. }
  assert (R : forall y, In y falls -> 0 <= y < 1).
  { intros y Hy. apply (In_nth _ _ 0) in Hy as (s & Hs & <-). apply (max_drawdown_range (wealth_path n X (map (fun j => wentry w j 0) (seq 0 n)) (idx s) (Z.to_nat h))); [apply PW|].
    apply HF; [lia|]. apply (PW s), nth_In. unfold wealth_path. rewrite map_length, seq_length. lia. }
  assert (EW : dd_worst d = list_max falls). { apply (quantile_linear_unique falls 1); auto. rewrite <- quantile_one by auto. apply quantile_linear; auto; lra. }
  destruct (list_max_spec falls NE) as [I MX].
  assert (B : forall y, In y falls -> 0 <= y <= dd_worst d). { intros y Hy. rewrite EW. split; [apply R; auto|auto]. }
  assert (B1 : dd_worst d < 1) by (rewrite EW; apply R; auto).
  split.
  { pose proof (rsum_between falls 0 (dd_worst d) B) as [S1 S2]. rewrite M1. assert (0 < INR (List.length falls)) by (apply lt_0_INR; lia).
    split; [apply Rmult_le_pos; [lra|left; apply Rinv_0_lt_compat; auto]|]. apply div_le_iff; auto. lra. }
  split; [apply (linear_quantile_in falls (1 / 2)); auto; lra|]. split; [apply (linear_quantile_in falls conf); auto|]. split; auto.
  split; intros; [apply (linear_quantile_le falls (1 / 2) conf)|apply (linear_quantile_le falls conf (1 / 2))]; auto; lra.
Qed.

(** ** Stresses of invariants *)
Lemma project_arr T K X h p ns f u out : uniform_draws u ->
  project_scenarios KArr (as_array T K X) (HInt h) p ns (Some f) u = Ok out ->
  (0 < h)%Z /\ (0 < ns)%Z /\ exists idx, bootstrap T (raw_weight p) u (Z.to_nat ns) (Z.to_nat h) idx /\
    f (horizon_sums K (as_array T K X) (Z.to_nat ns) (Z.to_nat h) idx) = Ok out.
Proof.
  intros U H.
  assert (H' : exists idx, f (scenario_sums K (Z.to_nat ns) (Z.to_nat h) [K] (as_array T K X) idx) = Ok out /\
     exists o, project_scenarios KArr (as_array T K X) (HInt h) p ns None u = Ok o /\ idx = match rng_choice T T (match proj_weights T p with Ok w => w | Err _ => fun _ => 0 end) u with Ok i => i | Err _ => fun _ _ => 0%nat end /\
       o = scenario_sums K (Z.to_nat ns) (Z.to_nat h) [K] (as_array T K X) idx).
  { unfold project_scenarios in *. cbn [hor_int as_array r_shape tl fold_right] in *. destruct (h <=? 0)%Z; [discriminate|]. destruct (ns <=? 0)%Z; [discriminate|].
    apply bind_ok in H as (w & Ew & H). rewrite Ew. cbn [bind] in *. apply bind_ok in H as (idx & Ei & H). rewrite Ei. cbn [bind] in *.
    apply bind_ok in H as (o & Eo & H). cbn [wrap] in *. injection H as <-. rewrite Nat.mul_1_r in *. exists idx. split; [exact Eo|]. eexists. split; [reflexivity|]. split; reflexivity. }
  destruct H' as (idx & E1 & o & E2 & Ei & Eo).
  destruct (project_inv _ _ _ _ _ _ _ _ H) as (T' & rest & idx' & o' & PF & Ho & _).
  destruct (project_plain KArr (as_array T K X) (HInt h) p ns u o T K I (or_intror eq_refl) U E2) as (H1 & H2 & _ & _).
  cbn [hor_int] in *. split; auto. split; auto. exists idx. split; [|exact E1].
  clear Ho PF.
  unfold project_scenarios in E2. cbn [hor_int as_array r_shape tl fold_right] in E2. destruct (h <=? 0)%Z; [discriminate|]. destruct (ns <=? 0)%Z; [discriminate|].
  apply bind_ok in E2 as (w & Ew & E2). rewrite Ew in Ei. apply bind_ok in E2 as (idx2 & Ei2 & _). rewrite Ei2 in Ei. subst idx2.
  apply rng_choice_inv in Ei2 as (HT & _ & Hw & HS & ->). destruct (proj_weights_inv T p w Ew (or_introl HT)) as (s & Hs & Hws & HR & HP & _).
  intros a b Ha Hb. apply (raw_draws T p w s _ _ Hs Hws). apply choice_index_draws; auto.
  pose proof choice_tol_small. unfold Rabs in HS. destruct (Rcase_abs (sumn T w - 1)); lra.
Qed.

Lemma scen_of_shape cols a sc : scen_of cols a = Ok sc -> exists T N, r_shape a = [T; N] /\ sc = pnl_scen cols T N a.
Proof. unfold scen_of. destruct (r_shape a) as [|T [|N [|? ?]]]; try discriminate. intros H. injection H as <-. exists T, N. split; reflexivity. Qed.

Lemma invariants_nominal_l minimize argsort chol normals cols T K X w rp f inst h ns rng fresh seed conf dm o : sorts Rle 0 argsort ->
  invariants_repricer rp cols = Ok (f, inst) -> uniform_draws (draws_for rng fresh seed 0 ns h) ->
  stress_invariants minimize argsort chol normals cols T K X w rp [] h ns rng fresh seed conf dm = Ok o ->
  (0 < h)%Z /\ (0 < ns)%Z /\ exists idx N a, bootstrap T (fun _ => 1) (draws_for rng fresh seed 0 ns h) (Z.to_nat ns) (Z.to_nat h) idx /\
    f (horizon_sums K (as_array T K X) (Z.to_nat ns) (Z.to_nat h) idx) = Ok a /\ 
    (pnl_labels inst cols <> None -> table_shape a (Z.to_nat ns) N) /\
    let sc := pnl_scen (pnl_labels inst cols) (hd 0%nat (r_shape a)) N a in
    so_names o = names_of w /\ so_stress o = None /\ so_kl o = None /\
    measures_book (so_nom o) w sc (sc_X sc) (repeat (1 / INR (sc_T sc)) (sc_T sc)) conf dm.
Proof.
  intros HS EF U H. unfold stress_invariants in H. rewrite EF in H. cbn [bind] in H. cbv zeta in H. fold (as_array T K X) in H.
  apply bind_ok in H as (a & Ea & H). destruct (project_arr _ _ _ _ _ _ _ _ _ U Ea) as (H1 & H2 & idx & HB & HA). cbn [bind] in H.
  split; auto. split; auto. apply bind_ok in H as (a' & Ew & H). apply bind_ok in H as (sc & Es & H).
  apply scen_of_shape in Es as (T' & N & Esh & ->).
  set (frame := match inst with Some names => KFrame names | None => match cols with Some c => KFrame c | None => KArr end end) in *.
  assert (EL : kind_cols frame = pnl_labels inst cols) by (unfold frame, pnl_labels; destruct inst; [reflexivity|destruct cols; reflexivity]).
  rewrite EL in H.
  assert (KEY : T' = hd 0%nat (r_shape a) /\ r_at a' = r_at a /\ (pnl_labels inst cols <> None -> table_shape a (Z.to_nat ns) N) /\ (forall c, pnl_labels inst cols = Some c -> List.length c = N)).
  { rewrite <- EL. destruct frame as [| |c]; cbn [wrap] in Ew.
    - injection Ew as <-. rewrite Esh. cbn. split; auto. split; auto. split; [intros E; congruence|intros c E; discriminate E].
    - destruct (list_eq_dec Nat.eq_dec (r_shape a) [Z.to_nat ns]); [|discriminate]. injection Ew as <-. rewrite Esh. cbn. split; auto. split; auto. split; [intros E; congruence|intros c E; discriminate E].
    - destruct (list_eq_dec Nat.eq_dec (r_shape a) [Z.to_nat ns; List.length c]) as [e|e].
      + injection Ew as <-. rewrite e in Esh. injection Esh as <- <-. rewrite e. split; auto. split; auto. split; [intros _; left; exact e|]. intros c' E. injection E as <-. apply map_length.
      + destruct (list_eq_dec Nat.eq_dec (r_shape a) [Z.to_nat ns]) as [e'|e']; [|discriminate]. destruct (Nat.eqb_spec (List.length c) 1) as [e1|e1]; [|discriminate].
        injection Ew as <-. cbn [r_shape] in Esh. injection Esh as <- <-. rewrite e'. split; auto. split; auto. split; [intros _; right; auto|]. intros c' E. injection E as <-. rewrite map_length. exact e1. }
  destruct KEY as (-> & ER & KS & KL).
  assert (ESC : pnl_scen (pnl_labels inst cols) (hd 0%nat (r_shape a)) N a' = pnl_scen (pnl_labels inst cols) (hd 0%nat (r_shape a)) N a).
  { unfold pnl_scen, entry. rewrite ER. reflexivity. }
  rewrite ESC in H. exists idx, N, a. split; [exact HB|]. split; auto. split; auto. intros sc.
  assert (F : frame_ok sc) by (intros c Ec; apply KL; exact Ec).
  assert (C : clean None) by (intros l E; discriminate E).
  destruct (stress_reports_l _ _ _ _ _ _ _ _ _ HS F C C H) as (N1 & q & Hq & _ & HM & HN & _). destruct (HN eq_refl eq_refl) as [E1 E2].
  cbn [in_force] in Hq. subst q. split; auto.
Qed.

Lemma uniform_prob T : T <> 0%nat -> prob_vector (repeat (1 / INR T) T) T.
Proof. intros HT. destruct (resolve_in_force None T (repeat (1 / INR T) T)) as [_ H]; auto; [intros l E; discriminate E|]. unfold resolve_probs. destruct (Nat.eqb_spec T 0); congruence. Qed.

Lemma one_portfolio argsort T N X wv q conf dm m : sorts Rle 0 argsort -> resolve_probs None T = Ok q -> 
  metrics_of argsort T N 1 X (fun i _ => nth i wv 0) q conf dm = Ok m -> 0 < conf < 1 ->
  reports m 1 (repeat (1 / INR T) T) (fun _ => book_pnl T N X (fun i => nth i wv 0)) conf dm.
Proof.
  intros HS Hq H Hc. assert (C : clean None) by (intros l E; discriminate E).
  destruct (resolve_in_force _ _ _ C Hq) as [E P]. cbn [in_force] in E. 
  rewrite metrics_of_core in H; [|eapply resolve_valid; eauto|auto]. 
  assert (R := core_reports argsort T 1 (fun t j => dot N (X t) (fun i => nth i wv 0)) q conf dm HS P Hc).
  assert (EM : m = metrics_core argsort T 1 (fun t j => dot N (X t) (fun i => nth i wv 0)) q conf dm) by (destruct dm; congruence).
  rewrite EM, <- E. exact R.
Qed.

Lemma invariants_views_l minimize argsort chol normals cols T K X w rp f inst views h ns rng fresh seed conf dm o : sorts Rle 0 argsort -> views <> [] -> single w -> 0 < conf < 1 ->
  invariants_repricer rp cols = Ok (f, inst) -> (forall i, uniform_draws (draws_for rng fresh seed i ns h)) ->
  stress_invariants minimize argsort chol normals cols T K X w rp views h ns rng fresh seed conf dm = Ok o ->
  exists r, flexible_views minimize argsort chol normals (PScen (option_map (map LStr) cols) T K X None) (Views (WDict views) WNone WNone WNone [] WNone [] None false) = Ok r /\
  exists idx idx' a b N S S' st,
    bootstrap T (fun _ => 1) (draws_for rng fresh seed 0 ns h) (Z.to_nat ns) (Z.to_nat h) idx /\
    f (horizon_sums K (as_array T K X) (Z.to_nat ns) (Z.to_nat h) idx) = Ok a /\ r_shape a = [S; N] /\
    bootstrap T (f_q r) (draws_for rng fresh seed 1 ns h) (Z.to_nat ns) (Z.to_nat h) idx' /\
    f (horizon_sums K (as_array T K X) (Z.to_nat ns) (Z.to_nat h) idx') = Ok b /\ r_shape b = [S'; N] /\
    rows_in w = N /\ so_stress o = Some st /\ so_kl o = None /\ so_suffix o = "stressed"%string /\
    reports (so_nom o) 1 (repeat (1 / INR S) S) (fun _ => book_pnl S N (entry N a) (fun i => wentry w i 0)) conf dm /\
    reports st 1 (repeat (1 / INR S') S') (fun _ => book_pnl S' N (entry N b) (fun i => wentry w i 0)) conf dm.
Proof.
  intros HS HV Hw Hc EF U H. unfold stress_invariants in H. rewrite EF in H. cbn [bind] in H. cbv zeta in H. fold (as_array T K X) in H.
  apply bind_ok in H as (a & Ea & H). destruct (project_arr _ _ _ _ _ _ _ _ _ (U 0%nat) Ea) as (H1 & H2 & idx & HB & HA).
  destruct views as [|v vs]; [congruence|]. apply bind_ok in H as (y & Ey & H). apply bind_ok in Ey as (r & Er & Ey). apply bind_ok in Ey as (b & Eb & Ey). injection Ey as <-.
  exists r. split; [exact Er|].
  destruct (project_arr _ _ _ _ _ _ _ _ _ (U 1%nat) Eb) as (_ & _ & idx' & HB' & HA').
  apply bind_ok in H as (? & _ & H). apply bind_ok in H as (sn & Esn & H). apply bind_ok in H as (ss & Ess & H). apply bind_ok in H as (pn & Epn & H). apply bind_ok in H as (ps & Eps & H).
  apply bind_ok in H as (wv & Ewv & H). apply guard_ok in H as [G H]. apply andb_prop in G as [G1 G2]. apply Nat.eqb_eq in G1, G2.
  apply bind_ok in H as (mn & Emn & H). apply bind_ok in H as (ms & Ems & H). injection H as <-.
  apply scen_of_shape in Esn as (S & N & Sa & ->). apply scen_of_shape in Ess as (S' & N' & Sb & ->). cbn [pnl_scen sc_T sc_N sc_X] in *.
  apply (ravel_single w wv Hw) in Ewv. assert (Lw : List.length wv = rows_in w) by (rewrite Ewv, map_length, seq_length; reflexivity).
  assert (EN : N' = N) by congruence. rewrite EN in Sb, Ems.
  exists idx, idx', a, b, N, S, S', ms. split; [exact HB|]. split; auto. split; auto.
  split. { intros s t Hs Ht. exact (HB' s t Hs Ht). }
  split; auto. split; auto. split; [congruence|]. split; [reflexivity|]. split; [reflexivity|]. split; [reflexivity|]. cbn [so_nom].
  assert (EB : forall T0 A, book_pnl T0 N A (fun i => nth i wv 0) = book_pnl T0 N A (fun i => wentry w i 0)).
  { intros T0 A. unfold book_pnl. apply map_ext. intros t. apply sumn_ext. intros i Hi. rewrite Ewv. rewrite nth_map_seq by lia. reflexivity. }
  split; rewrite <- EB; eapply one_portfolio; eauto.
Qed.

(** ** Totality *)
Lemma wrap_exp_total kd ns a o : wrap kd ns a = Ok o -> wrap kd ns (reprice_exp a) = Ok (reprice_exp o).
Proof.
  destruct kd as [| |cols]; cbn [wrap reprice_exp r_shape].
  - intros H. injection H as <-. reflexivity.
  - destruct (list_eq_dec Nat.eq_dec (r_shape a) [ns]); [|discriminate]. intros H. injection H as <-. reflexivity.
  - destruct (list_eq_dec Nat.eq_dec (r_shape a) [ns; List.length cols]); [intros H; injection H as <-; reflexivity|].
    destruct (list_eq_dec Nat.eq_dec (r_shape a) [ns]); [|discriminate]. destruct (Nat.eqb (List.length cols) 1); [|discriminate].
    intros H. injection H as <-. reflexivity.
Qed.
Lemma project_exp_total kd X hz p ns u o : project_scenarios kd X hz p ns None u = Ok o ->
  project_scenarios kd X hz p ns (Some (fun a => Ok (reprice_exp a))) u = Ok (reprice_exp o).
Proof.
  unfold project_scenarios. destruct (hor_int hz <=? 0)%Z; [discriminate|]. destruct (ns <=? 0)%Z; [discriminate|].
  destruct (r_shape X) as [|T [|n [|? ?]]]; try discriminate.
  - intros H. apply bind_ok in H as (w & -> & H). apply bind_ok in H as (idx & Ei & H). cbn [bind] in *. rewrite Ei. cbn [bind] in *. apply wrap_exp_total. exact H.
  - intros H. apply bind_ok in H as (w & -> & H). apply bind_ok in H as (idx & Ei & H). cbn [bind] in *. rewrite Ei. cbn [bind] in *. apply wrap_exp_total. exact H.
Qed.

(** A row exists exactly when the horizon, the number of simulations, the probabilities, the level and the weights are usable. *)
Lemma horizon_row_accepts_l argsort rng fresh w kd X T n nsim p conf seed i h : distinct_labels w ->
  kind_ok kd X -> r_shape X = [T; n] -> uniform_draws (draws_for rng fresh seed i nsim h) ->
  ((exists r, horizon_row argsort rng fresh w kd X nsim p None conf seed i h = Ok r) <->
   ((0 < h)%Z /\ (0 < nsim)%Z /\ (0 < T)%nat /\ drawable T p /\ 0 < conf < 1 /\ single w /\ covers w (Scen (kind_cols kd) 0 n (fun _ _ => 0)))).
Proof.
  intros D K S U. pose proof (project_accepts kd X (HInt h) p nsim (draws_for rng fresh seed i nsim h) T n K (or_intror S)) as PA. cbn [hor_int] in PA.
  unfold horizon_row. cbv zeta. split.
  - intros (r & H). apply bind_ok in H as (out & E1 & H). apply bind_ok in H as (sc & E2 & H).
    destruct (project_exp_means _ _ _ _ _ _ _ T n K S U E1) as (H1 & H2 & H3 & _). apply project_exp in E1 as (o & E1 & _).
    destruct (proj1 PA (ex_intro _ o E1)) as (_ & _ & H4 & H5). apply scen_of_shape in E2 as (T' & N & E2 & ->). rewrite H3 in E2. injection E2 as <- <-.
    assert (F : frame_ok (pnl_scen (kind_cols kd) (Z.to_nat nsim) n out)) by (intros c Ec; eapply kind_cols_frame; eauto).
    destruct (proj1 (performance_accepts_l argsort w _ None conf (DBool false) F D) (ex_intro _ r H)) as (C1 & _ & _ & C2 & C3). 
    do 4 (split; auto).
  - intros (H1 & H2 & H3 & H4 & C1 & C2 & C3). destruct (proj2 PA) as (o & Eo); auto. apply project_exp_total in Eo. rewrite Eo. cbn [bind].
    destruct (project_exp_means _ _ _ _ _ _ _ T n K S U Eo) as (_ & _ & Sh & _). unfold scen_of. rewrite Sh. cbn [bind].
    apply performance_accepts_l; auto.
    + intros c Ec; eapply kind_cols_frame; eauto.
    + split; auto. split; [discriminate|]. split; [cbn; lia|]. split; auto.
Qed.

Lemma usable_length p T : usable p T -> T <> 0%nat.
Proof. destruct p as [l|]; cbn; auto. intros (L & _ & S). destruct l; [cbn in S; unfold rsum in S; cbn in S; lra|]. cbn in L. lia. Qed.
Lemma positive_usable qs : qs <> [] -> positive_distribution qs -> usable (Some qs) (List.length qs).
Proof. intros NE [P S]. split; auto. split; [intros x Hx; left; apply P; auto|]. rewrite S. lra. Qed.
Lemma decay_accepts_l argsort w sc p hl conf dm : frame_ok sc ->
  ((exists o, exp_decay_stress argsort w sc p hl conf dm = Ok o) <-> (0 < hl /\ 0 < conf < 1 /\ dm <> DOther /\ fits w sc /\ usable p (sc_T sc))).
Proof.
  intros F. unfold exp_decay_stress. pose proof (ProbRProofs.exp_decay_l (Z.of_nat (sc_T sc)) hl) as L.
  destruct (generate_exp_decay_probabilities (Z.of_nat (sc_T sc)) hl) as [qs|e]; cbn [bind].
  - destruct L as (Hl & L & Q & _). rewrite Nat2Z.id in L. rewrite stress_accepts_l by auto. split; [intuition|].
    intros (_ & C & Dm & Ft & U). split; auto. split; auto. split; auto. split; auto. pose proof (usable_length _ _ U) as NZ. split; [|discriminate]. intros _. rewrite <- L.
    apply positive_usable; [destruct qs; [cbn in L; congruence|discriminate]|]. apply Q. lia.
  - destruct L as [L ->]. split; [intros (o & E); discriminate|]. intros (H & _). lra.
Qed.
