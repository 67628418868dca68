(** Wrappers that exist, and requests that are answered. *)
From Coq Require Import String.
From Verif Require Import RBase QpBase SortLib RiskModel RiskSpec RiskProofs RiskProperties ConsModel ConsSpec ConsProofs MomModel MomSpec MomProofs DistModel DistSpec DistProofs2 DistProofs3 ConvModel OptModel OptSpec OptProofs OptProofs2 OptProofs3 OptProofs6 FrModel FrSpec FrProofs FrProperties ExistLib ExistSpec OptProofs7 OptProofs8 ExistProperties WrModel WrSpec WrProofs WrProofs2 WrProofs3 WrProofs4 WrProofs5 WrProofs6.
Open Scope R_scope.
Open Scope list_scope.

Definition best_env : env := mkEnv best_qp best_cp best_cp best_chol (argsort_by Rleb 0).
Lemma best_env_exact : exact_env best_env.
Proof. exact (conj best_qp_exact (conj best_cp_exact (conj best_cp_exact (conj best_chol_exact rsort_sorts)))). Qed.

Lemma div_pos n i j : (j < n)%nat -> ((i * n + j) / n = i)%nat /\ ((i * n + j) mod n = j)%nat.
Proof.
  intros H. split.
  - rewrite Nat.div_add_l by lia. rewrite Nat.div_small by exact H. lia.
  - rewrite Nat.add_comm, Nat.mod_add by lia. apply Nat.mod_small. exact H.
Qed.
Lemma as_mat_nd n M i j : (j < n)%nat -> as_mat n (nd_mat n M) i j = M i j.
Proof. intros H. unfold as_mat, nd_mat; cbn. destruct (div_pos n i j H) as [-> ->]. reflexivity. Qed.

Lemma real_vec n v : real_array (nd_vec n v) [n] v.
Proof. split; [reflexivity|]. intros; reflexivity. Qed.
Lemma real_mat n M : has_shape (nd_mat n M) [n; n].
Proof. exists (fun k => M (k / n)%nat (k mod n)%nat). split; [reflexivity|]. intros; reflexivity. Qed.

Lemma apply_costs_ok n k : costs_fit n k -> exists r, apply_costs n k = Ok r.
Proof.
  intros H. unfold apply_costs. destruct k as [k|]; [|eauto]. destruct (H k eq_refl) as (H1 & H2 & H3).
  rewrite H1, Nat.eqb_refl. unfold has_len. destruct (k_mic k) as [l|]; [rewrite (H2 l eq_refl), Nat.eqb_refl|]; (destruct (k_pc k) as [l'|]; [rewrite (H3 l' eq_refl), Nat.eqb_refl|]); cbn; eauto.
Qed.

Lemma build_wrapper d arg k lo tot bds : costs_fit (d_N d) k -> ConsSpec.well_formed (asked arg lo tot bds) (Z.of_nat (d_N d)) ->
  exists w, make_wrapper d arg k lo tot bds = Ok w.
Proof.
  intros Hk Hw. unfold make_wrapper. apply to_matrices_succeeds in Hw as [[m ws] ->]. cbn [bind].
  destruct (apply_costs_ok _ _ Hk) as [[[iw mic] pc] ->]. cbn [bind]. eauto.
Qed.

Lemma make_wrapper_costs d arg k lo tot bds w : make_wrapper d arg k lo tot bds = Ok w ->
  (w_iw w, w_mic w, w_pc w) = match k with Some k => (Some (k_iw k), k_mic k, k_pc k) | None => (None, None, None) end.
Proof.
  unfold make_wrapper. intros H. apply bind_ok in H as ([m ws] & _ & H). apply bind_ok in H as ([[iw mic] pc] & Hk & H). injection H as <-. cbn.
  unfold apply_costs in Hk. destruct k as [k|]; [|congruence]. destruct (_ && _)%bool; congruence.
Qed.

(** Any moments and any well-formed constraints give a wrapper. *)
Lemma build_moments n mu cov arg k lo tot bds : (0 < n)%nat -> costs_fit n k -> ConsSpec.well_formed (asked arg lo tot bds) (Z.of_nat n) ->
  exists w cov', constructed w (asked arg lo tot bds) /\ assets w = n /\ w_log w = false /\ w_unc w = None /\
    d_scen (w_dist w) = None /\ (w_iw w, w_mic w, w_pc w) = match k with Some k => (Some (k_iw k), k_mic k, k_pc k) | None => (None, None, None) end /\
    moments w mu cov' /\ forall i j, (i < n)%nat -> (j < n)%nat -> cov' i j = cov i j.
Proof.
  intros Hn Hk Hw. set (i := mkIn (Some (None, nd_vec n mu)) (Some (None, nd_mat n cov)) None None None).
  assert (Hc : consistent n i).
  { split; [exact Hn|]. split; [exists (repeat EmptyString n); split; [apply repeat_length|intros l []]|]. split; [|split].
    - cbn. split; [unfold nd_size; cbn; lia|]. exists mu. reflexivity.
    - cbn. apply real_mat.
    - cbn. left. discriminate. }
  destruct (consistent_make_dist i n Hc) as (d & Ed & EN). destruct (make_dist_values i d Ed) as (V1 & V2 & V3 & V4 & _).
  specialize (V2 _ _ eq_refl). specialize (V3 _ _ eq_refl). rewrite <- EN in Hk, Hw.
  destruct (build_wrapper d arg k lo tot bds Hk Hw) as [w Ew]. destruct (make_wrapper_good d arg k lo tot bds w (make_dist_valid i d Ed) Ew) as (_ & Dw & Lw & Uw).
  exists w, (as_mat n (nd_mat n cov)). split; [exact (by_init i d arg k lo tot bds w Ed Ew)|]. unfold assets. rewrite Dw. repeat (split; [assumption|]).
  split; [exact (make_wrapper_costs _ _ _ _ _ _ _ Ew)|]. split.
  - exists (flat (nd_vec n mu)), (nd_mat n cov). unfold assets. rewrite Dw, V2, V3, EN. repeat split.
  - intros a b _ Hb. apply as_mat_nd. exact Hb.
Qed.

(** Scenario wrappers. *)
Definition nd_rows (T n : nat) (X : nat -> vec) : nd := mkND [T; n] (fun k => Fin (X (k / n)%nat (k mod n)%nat)).
Lemma build_scenarios n T X mu arg k lo tot bds : (0 < n)%nat -> (0 < T)%nat -> costs_fit n k -> ConsSpec.well_formed (asked arg lo tot bds) (Z.of_nat n) ->
  exists w q, constructed w (asked arg lo tot bds) /\ assets w = n /\ w_log w = false /\ w_unc w = None /\
    (w_iw w, w_mic w, w_pc w) = match k with Some k => (Some (k_iw k), k_mic k, k_pc k) | None => (None, None, None) end /\
    has_scenarios w T (as_mat n (nd_rows T n X)) q /\ (forall t, (t < T)%nat -> q t = 1 / INR T) /\
    (forall m, mu = Some m -> exists a, d_mu (w_dist w) = Some a /\ as_vec a = m).
Proof.
  intros Hn HT Hk Hw. set (i := mkIn (option_map (fun m => (None, nd_vec n m)) mu) None (Some (None, nd_rows T n X)) None None).
  assert (Hc : consistent n i).
  { split; [exact Hn|]. split; [exists (repeat EmptyString n); split; [apply repeat_length|]|].
    { intros l Hl. unfold supplied_labels in Hl. cbn in Hl. destruct mu; cbn in Hl; contradiction. }
    split; [|split].
    - cbn. destruct mu as [m|]; cbn; [|exact I]. split; [unfold nd_size; cbn; lia|]. exists m. reflexivity.
    - exact I.
    - cbn. exists T. split; [exact HT|]. split; [|exact I]. exists (fun k => X (k / n)%nat (k mod n)%nat). split; [reflexivity|]. intros; reflexivity. }
  destruct (consistent_make_dist i n Hc) as (d & Ed & EN). destruct (make_dist_values i d Ed) as (V1 & V2 & _ & _ & V5).
  destruct (V5 _ _ eq_refl) as (T' & p & q & ET & Es & Ep & Rq & Nq & _). cbn in Es. injection Es as <- _.
  rewrite <- EN in Hk, Hw.
  destruct (build_wrapper d arg k lo tot bds Hk Hw) as [w Ew]. destruct (make_wrapper_good d arg k lo tot bds w (make_dist_valid i d Ed) Ew) as (_ & Dw & Lw & Uw).
  exists w, (as_vec p). split; [exact (by_init i d arg k lo tot bds w Ed Ew)|]. unfold assets, has_scenarios. rewrite Dw. repeat (split; [assumption|]).
  split; [exact (make_wrapper_costs _ _ _ _ _ _ _ Ew)|]. split.
  - exists (nd_rows T n X), p. unfold assets. rewrite V1, Dw, EN. repeat split. exact Ep.
  - split; [intros t Ht; rewrite (as_vec_real p [T] q t Rq) by (unfold nd_size; rewrite (proj1 Rq); cbn; lia); apply Nq; exact Ht|].
    intros m ->. exists (flat (nd_vec n m)). split; [apply (V2 _ _ eq_refl)|reflexivity].
Qed.

(** The default constraints: long-only, fully invested. *)
Lemma default_well_formed n : (0 < n)%nat -> ConsSpec.well_formed default_constraints (Z.of_nat n).
Proof.
  intros Hn. unfold ConsSpec.well_formed, default_constraints; cbn. split; [lia|]. split; [intros x E; injection E as <-; exists 1; reflexivity|].
  split; [exact I|]. split; [|split; [|split]]; intros ? [].
Qed.
Lemma wt_to_list n x i : (i < n)%nat -> wt (to_list n x) i = x i.
Proof. intros H. unfold wt, to_list. rewrite (nth_map_lt x (seq 0 n) i 0%nat 0) by (rewrite seq_length; exact H). rewrite seq_nth by exact H. reflexivity. Qed.
Lemma allowed_default n x : allowed default_constraints n x <-> (forall i, (i < n)%nat -> 0 <= x i) /\ sumn n x = 1.
Proof.
  unfold allowed, satisfies, default_constraints, total_hold; cbn. pose proof (RBase.rsum_seq x n 0) as Es. cbn [Nat.add] in Es. unfold to_list. rewrite Es. change (sumn n (fun i => x i)) with (sumn n x). split.
  - intros (H1 & _ & _ & _ & _ & H2 & _). split; [|exact H2]. intros i Hi. rewrite <- (wt_to_list n x i Hi). apply H1; auto.
  - intros [H1 H2]. split; [intros _ i Hi; fold (to_list n x); rewrite wt_to_list by exact Hi; auto|]. split; [exact I|]. split; [intros ? []|]. split; [intros ? []|]. split; [intros ? []|]. split; [exact H2|intros ? []].
Qed.
Lemma default_bounded n : bounded n (allowed default_constraints n).
Proof.
  exists 1. intros x Hx i Hi. apply allowed_default in Hx as [H1 H2]. rewrite Rabs_pos_eq by auto. rewrite <- H2. apply sumn_term_le; auto.
Qed.
Lemma default_in_force arg n : (0 < n)%nat -> in_force default_constraints arg n.
Proof.
  intros Hn _ V. specialize (V (to_list n (fun _ => 0)) (to_list_length n _)). apply allowed_default in V as [_ V].
  rewrite sumn_0 in V by (intros; reflexivity). lra.
Qed.

(** ** Requests that are answered *)
Lemma bounded_iff n F F' : (forall y : vec, F y <-> F' y) -> bounded n F -> bounded n F'.
Proof. intros H [B HB]. exists B. intros x Hx. apply HB. apply H. exact Hx. Qed.

Lemma min_variance_total E w c arg k target mu cov : exact_env E -> complete_qp (e_qp E) -> constructed w c -> in_force c arg (assets w) -> moments w mu cov ->
  costs_fit (assets w) k -> ConsSpec.well_formed (effective c arg) (Z.of_nat (assets w)) -> bounded (assets w) (allowed (effective c arg) (assets w)) ->
  (exists y, allowed (effective c arg) (assets w) y /\ target <= dot (assets w) mu y) ->
  exists p, min_variance_at_return E w target arg k = Ok p.
Proof.
  intros HE Hc HC HF Hmc Hk Hwf Hb (y & Hy & Ht). pose proof (constructed_good w c HC) as G.
  destruct (proj2 (resolve_total w c arg G) Hwf) as [m Hm].
  assert (HFi : forall y, constrained (assets w) (rows_G m) (rows_A m) y <-> allowed (effective c arg) (assets w) y) by (intros z; apply (resolve_in_force w c arg m z G HF Hm)).
  assert (Hb' : bounded (assets w) (constrained (assets w) (rows_G m) (rows_A m))) by (apply (bounded_iff _ _ _ (fun y => iff_sym (HFi y)) Hb)).
  destruct (min_variance_errors E w c arg k target mu cov HE HC HF Hmc Hk Hwf) as (_ & _ & H). apply H; [exact Hc|].
  destruct (mv_attained (assets w) mu cov (rows_G m) (rows_A m) (iw_of w k) (mic_of w k) Hb' (Some target)) as [x Hx].
  - exists y. split; [apply HFi; exact Hy|exact Ht].
  - exists x. revert Hx. apply minimises_iff. intros z. rewrite HFi. reflexivity.
Qed.

Lemma costs_shaped_of w c k : constructed w c -> costs_fit (assets w) k -> costs_shaped (assets w) (iw_of w k) (mic_of w k) /\ costs_shaped (assets w) (iw_of w k) (pc_of w k).
Proof.
  intros HC Hk. pose proof (constructed_good w c HC) as G. destruct k as [kk|]; simpl.
  - destruct (Hk kk eq_refl) as (K1 & K2 & K3). split; intros a l Ea El; injection Ea as <-; auto.
  - split; intros a l Ea El; split; [exact (gw_iw w c G a Ea)|exact (gw_mic w c G l El)|exact (gw_iw w c G a Ea)|exact (gw_pc w c G l El)].
Qed.

Lemma guards_frontier n cols ret risk m names alt : List.length ret = List.length cols -> List.length risk = List.length cols ->
  (forall l, names = Some l -> List.length l = n) -> (forall lv, In lv alt -> List.length (snd lv) = List.length cols) ->
  exists f, make_frontier n cols ret risk m names alt = Ok f.
Proof.
  intros H1 H2 H3 H4. unfold make_frontier. rewrite H2, H1, !Nat.eqb_refl. cbn [guard].
  assert (E3 : match names with Some l => Nat.eqb (List.length l) n | None => true end = true) by (destruct names as [l|]; [rewrite (H3 l eq_refl); apply Nat.eqb_refl|reflexivity]).
  rewrite E3. cbn [guard]. rewrite (proj2 (forallb_forall _ alt)); [eexists; reflexivity|]. intros lv Hl. rewrite (H4 lv Hl). apply Nat.eqb_refl.
Qed.

Lemma names_fit w c : good_wrapper w c -> forall l, d_names (w_dist w) = Some l -> List.length l = assets w.
Proof. intros G. exact (vd_names _ (gw_dist w c G)). Qed.
Lemma overlay_fit E w cols : forall lv, In lv (cvar_overlay E w cols) -> List.length (snd lv) = List.length cols.
Proof.
  intros lv H. unfold cvar_overlay in H. destruct (stored_scen w) as [[[T X] p]|]; [|destruct H].
  destruct (portfolio_cvar _ _ _ _ _ _) as [v|] eqn:E1; [|destruct H]. destruct H as [<-|[]]. cbn [snd]. rewrite map_length.
  assert (K : abs_cvar E (d_N (w_dist w)) T X p (5 / 100) cols = Ok (map Rabs v)).
  { unfold abs_cvar. replace (1 - 5 / 100) with (95 / 100) by lra. rewrite E1. reflexivity. }
  apply abs_cvar_length in K. rewrite map_length in K. exact K.
Qed.

Section Answers.
Variables (E : env) (w : wrapper) (c : constraints) (arg : cons_arg) (k : option costs).
Hypothesis HE : exact_env E.
Hypothesis HC : constructed w c.
Hypothesis HF : in_force c arg (assets w).
Hypothesis Hk : costs_fit (assets w) k.
Hypothesis Hwf : ConsSpec.well_formed (effective c arg) (Z.of_nat (assets w)).
Let N := assets w.
Let F y := allowed (effective c arg) N y.

Lemma resolved : exists m, resolve_mats w arg = Ok m /\ (forall y, constrained N (rows_G m) (rows_A m) y <-> F y) /\
  (bounded N F -> bounded N (constrained N (rows_G m) (rows_A m))).
Proof.
  pose proof (constructed_good w c HC) as G. destruct (proj2 (resolve_total w c arg G) Hwf) as [m Hm]. exists m. split; [exact Hm|].
  assert (HFi : forall y, constrained N (rows_G m) (rows_A m) y <-> F y) by (intros z; apply (resolve_in_force w c arg m z G HF Hm)).
  split; [exact HFi|]. apply bounded_iff. intros y. symmetry. apply HFi.
Qed.

Lemma min_variance_answers_l target mu cov : complete_qp (e_qp E) -> moments w mu cov -> bounded N F ->
  ((exists y, F y /\ target <= dot N mu y) -> exists p, min_variance_at_return E w target arg k = Ok p) /\
  (~ (exists y, F y /\ target <= dot N mu y) -> min_variance_at_return E w target arg k = Err InfeasibleError).
Proof.
  intros Hc Hm Hb. split; [apply (min_variance_total E w c arg k target mu cov); auto|].
  intros Hn. apply (min_variance_errors E w c arg k target mu cov HE HC HF Hm Hk Hwf). intros y Hy. apply Hn. eauto.
Qed.

Lemma variance_frontier_answers_l num mu cov : complete_qp (e_qp E) -> complete_cp (e_lp E) -> moments w mu cov -> bounded N F ->
  answers_iff (variance_frontier E w num arg k) (exists y, F y).
Proof.
  intros Hcq Hcl Hm Hb. destruct resolved as (m & Er & HFi & HB). pose proof (constructed_good w c HC) as G.
  assert (Hx : (exists y, F y) <-> exists y, constrained N (rows_G m) (rows_A m) y) by (split; intros [y Hy]; exists y; apply HFi; exact Hy).
  destruct (mean_variance_frontier_answers (e_qp E) (e_lp E) N mu cov (rows_G m) (rows_A m) (iw_of w k) (mic_of w k) num
    (proj1 HE) (proj1 (proj2 HE)) Hcq Hcl (proj1 (costs_shaped_of w c k HC Hk)) (HB Hb)) as [A1 A2].
  unfold variance_frontier. rewrite (require_ok w mu cov Hm). cbn [bind fst snd]. rewrite Er. cbn [bind]. rewrite resolve_costs_eq. fold (assets w). change (assets w) with N. split.
  - intros Hy. apply Hx in Hy. destruct (A1 Hy) as [cols Ec]. rewrite Ec. cbn [bind]. apply guards_frontier; rewrite ?map_length; auto.
    + exact (names_fit w c G).
    + apply overlay_fit.
  - intros Hn. rewrite A2 by (rewrite <- Hx; exact Hn). reflexivity.
Qed.

Lemma scenario_inputs_total sim : (d_scen (w_dist w) <> None \/ exists mu cov, moments w mu cov) ->
  exists T X p mu, scenario_inputs sim w = Ok (T, X, p, mu) /\ (0 < T)%nat.
Proof.
  intros H. pose proof (constructed_good w c HC) as G. pose proof (vd_scen _ (gw_dist w c G)) as V. unfold scenario_inputs.
  destruct (d_scen (w_dist w)) as [Sc|] eqn:Es.
  - destruct (d_probs (w_dist w)) as [pr|]; [|contradiction]. destruct (d_T (w_dist w)) as [T|]; [|contradiction].
    destruct V as (HT & [f HX] & V1 & V2 & q & Hq & Pq). cbn [bind]. destruct (clean_probs_prob pr T q Hq Pq) as [-> _]. cbn [bind].
    assert (HT' : (0 < hd 0 (nd_shape Sc))%nat) by (rewrite (proj1 HX); exact HT).
    destruct (d_mu (w_dist w)) as [mm|]; [|contradiction]. destruct (d_cov (w_dist w)) as [cc|]; [|contradiction].
    destruct (w_log w); cbn [bind]; do 4 eexists; (split; [reflexivity|exact HT']).
  - destruct H as [H|(mu & cov & mm & cc & E1 & E2 & _ & _)]; [contradiction|]. rewrite E1, E2.
    destruct uniform5000 as (a & -> & Ra & Va). cbn [bind]. destruct (clean_probs_prob a _ _ Ra prob5000) as [-> _]. cbn [bind].
    destruct (w_log w); cbn [bind]; do 4 eexists; (split; [reflexivity|lia]).
Qed.

Lemma abs_cvar_total T X p alpha cols : 0 < alpha < 1 -> (0 < T)%nat -> prob_vec T p -> exists r, abs_cvar E N T X p alpha cols = Ok r.
Proof.
  intros Ha HT Hp. unfold abs_cvar. pose proof (prob_vec_list T p Hp) as Hv.
  destruct (var_cvar_accept (e_sort E) (map (vlist N) cols) (scen_rows N T X) (Some (vlist T p)) (Some (1 - alpha)) DNone) as [_ (out & -> & _)].
  - cbn. lra.
  - discriminate.
  - unfold scen_rows. destruct T; [lia|discriminate].
  - cbn. rewrite scen_rows_len. exact Hv.
  - intros row x Hr Hx. unfold scen_rows in Hr. apply in_map_iff in Hr as (t & <- & _). apply in_map_iff in Hx as (y & <- & _). unfold vlist. rewrite !map_length. reflexivity.
  - cbn [bind]. eauto.
Qed.

Lemma min_cvar_answers_l sim target alpha : complete_cp (e_lp E) -> (d_scen (w_dist w) <> None \/ exists mu cov, moments w mu cov) ->
  pc_nonneg w k -> 0 < alpha < 1 -> bounded N F ->
  exists T X q, scenario_data sim w T X q /\ prob_vec T q /\
  ((exists y, F y /\ target <= dot N (scenario_mean T X q) y) -> exists p, min_cvar_at_return E sim w target alpha arg k = Ok p) /\
  (~ (exists y, F y /\ target <= dot N (scenario_mean T X q) y) -> min_cvar_at_return E sim w target alpha arg k = Err InfeasibleError).
Proof.
  intros Hcl Hm Hpc Ha Hb. pose proof (constructed_good w c HC) as G. destruct (scenario_inputs_total sim Hm) as (T & X & q & mu & Es & HT).
  destruct (scenario_inputs_l sim w c T X q mu G Es) as (Hsd & Hq & _). exists T, X, q. split; [exact Hsd|]. split; [exact Hq|].
  destruct resolved as (m & Er & HFi & HB).
  assert (Hx : (exists y, F y /\ target <= dot N (scenario_mean T X q) y) <-> exists y, constrained N (rows_G m) (rows_A m) y /\ meets N (cvar_mean T q X) (Some target) y).
  { split; intros [y [Hy Ht]]; exists y; (split; [apply HFi; exact Hy|exact Ht]). }
  assert (Hcn : costs_nonneg (pc_of w k)) by exact Hpc.
  destruct (mean_cvar_answers (e_lp E) N T X q alpha (iw_of w k) (pc_of w k) (rows_G m) (rows_A m) (Some target)
    (proj1 (proj2 HE)) Hcl Hq (conj (proj1 Ha) (Rlt_le _ _ (proj2 Ha))) Hcn (proj2 (costs_shaped_of w c k HC Hk)) (HB Hb)) as [A1 A2].
  assert (Hi : forall r : res vec, cvar_init N (turnover (iw_of w k) (pc_of w k)) r = r).
  { intros r. unfold cvar_init, turnover. destruct (iw_of w k) as [a|] eqn:Ea; [|reflexivity]. destruct (pc_of w k) as [l|] eqn:El; [|reflexivity].
    destruct (proj2 (costs_shaped_of w c k HC Hk) a l Ea El) as [L1 L2]. unfold check_shapes. fold N in L1, L2. rewrite L1, L2, Nat.eqb_refl. reflexivity. }
  unfold cvar_portfolio in A1, A2. rewrite Hi in A1, A2.
  unfold min_cvar_at_return. rewrite Es. cbn [bind]. rewrite Er. cbn [bind]. rewrite resolve_costs_eq. fold (assets w). change (assets w) with N. rewrite Hi. split.
  - intros Hy. apply Hx in Hy. destruct (A1 Hy) as [x ->]. cbn [as_infeasible bind].
    destruct (abs_cvar_total T X q alpha [x] Ha HT Hq) as [r ->]. cbn [bind]. eauto.
  - intros Hn. rewrite A2 by (rewrite <- Hx; exact Hn). reflexivity.
Qed.

Lemma cvar_frontier_answers_l sim lab raw num alpha enf : complete_cp (e_lp E) -> (d_scen (w_dist w) <> None \/ exists mu cov, moments w mu cov) ->
  pc_nonneg w k -> 0 < alpha < 1 -> bounded N F ->
  answers_iff (cvar_frontier_w E sim lab raw w num alpha enf arg k) (exists y, F y).
Proof.
  intros Hcl Hm Hpc Ha Hb. pose proof (constructed_good w c HC) as G. destruct (scenario_inputs_total sim Hm) as (T & X & q & mu & Es & HT).
  destruct (scenario_inputs_l sim w c T X q mu G Es) as (Hsd & Hq & _). destruct resolved as (m & Er & HFi & HB).
  assert (Hx : (exists y, F y) <-> exists y, constrained N (rows_G m) (rows_A m) y) by (split; intros [y Hy]; exists y; apply HFi; exact Hy).
  destruct (mean_cvar_frontier_answers (e_lp E) N T X q alpha (iw_of w k) (pc_of w k) (rows_G m) (rows_A m) num
    (proj1 (proj2 HE)) Hcl Hq (conj (proj1 Ha) (Rlt_le _ _ (proj2 Ha))) Hpc (proj2 (costs_shaped_of w c k HC Hk)) (HB Hb)) as [A1 A2].
  unfold cvar_frontier_w. rewrite Es. cbn [bind]. rewrite Er. cbn [bind]. rewrite resolve_costs_eq. fold (assets w). change (assets w) with N. split.
  - intros Hy. apply Hx in Hy. destruct (A1 Hy) as [cols ->]. cbn [bind].
    destruct (abs_cvar_total T X q alpha cols Ha HT Hq) as [r Erk]. rewrite Erk. cbn [bind]. apply abs_cvar_length in Erk.
    pose proof (cvar_post_permutes (e_sort E) enf (map (vlist N) cols) (map (dot N mu) cols) r (map (vol N (scen_cov T X q)) cols) (proj2 (proj2 (proj2 (proj2 HE))))) as P.
    rewrite !map_length in P. specialize (P eq_refl Erk eq_refl). destruct (cvar_post _ _ _ _ _ _) as [[[[cols' ret'] risk'] vols'] raw'].
    assert (L : List.length ret' = List.length cols' /\ List.length risk' = List.length cols' /\ List.length vols' = List.length cols' /\ List.length raw' = List.length cols') by (destruct P as (o & _ & _ & Q1 & Q2 & Q3 & Q4 & Q5 & _); repeat split; congruence).
    destruct L as (L1 & L2 & L3 & L4). apply guards_frontier; auto; [exact (names_fit w c G)|].
    intros lv Hl. destruct (Nat.eqb N 1); cbn [app] in Hl; repeat (destruct Hl as [<-|Hl]; [assumption|]); destruct Hl.
  - intros Hn. rewrite A2 by (rewrite <- Hx; exact Hn). reflexivity.
Qed.

Lemma robust_answers_l num mx lams rc grid mu cov : complete_cp (e_cone E) -> complete_chol (e_chol E) -> moments w mu cov -> psd N (uncertainty w cov) ->
  penalties num mx lams grid -> (iw_of w k = None \/ pc_of w k = None) -> bounded N F ->
  answers_iff (robust_lambda_frontier E w num mx lams rc arg k) (exists y, F y).
Proof.
  intros Hcc Hch Hm Hp Hg Hnc Hb. pose proof (constructed_good w c HC) as G. destruct resolved as (m & Er & HFi & HB).
  apply lambda_grid_iff in Hg as Hgrid. pose proof (grid_nonneg num mx lams grid Hg) as Hpos.
  destruct (cholesky_pd_total (e_chol E) N _ Hch Hp) as [L EL].
  unfold robust_lambda_frontier. rewrite (require_ok w mu cov Hm). cbn [bind fst snd]. rewrite Er. cbn [bind]. rewrite resolve_costs_eq, Hgrid. cbn [bind].
  fold (assets w). change (assets w) with N. fold (uncertainty w cov). unfold robust_frontier, robust_init. rewrite EL. cbn [bind].
  set (solve := fun lam => if Rltb lam 0 then Err ValueError else robust_socp (e_cone E) N mu L false lam None (rows_G m) (rows_A m)).
  assert (Eq : (match iw_of w k with Some a => match pc_of w k with Some b => check_shapes a b (let* rs := mapM (fun lam => if Rltb lam 0 then Err ValueError else robust_socp (e_cone E) N mu L true lam None (rows_G m) (rows_A m)) grid in
      guard (negb (List.length rs =? 0)%nat) ValueError (Ok (map r_return rs, map r_risk rs, map r_weights rs))) | None => let* rs := mapM solve grid in
      guard (negb (List.length rs =? 0)%nat) ValueError (Ok (map r_return rs, map r_risk rs, map r_weights rs)) end | None => let* rs := mapM solve grid in
      guard (negb (List.length rs =? 0)%nat) ValueError (Ok (map r_return rs, map r_risk rs, map r_weights rs)) end) = let* rs := mapM solve grid in
      guard (negb (List.length rs =? 0)%nat) ValueError (Ok (map r_return rs, map r_risk rs, map r_weights rs))).
  { destruct (iw_of w k); [|reflexivity]. destruct (pc_of w k); [|reflexivity]. destruct Hnc; discriminate. }
  rewrite Eq. clear Eq. assert (Hne : grid <> []).
  { unfold penalties in Hg. destruct lams as [l|]; [destruct Hg as (-> & Hl & _); exact Hl|].
    destruct Hg as (H1 & _ & [[_ ->] | [(_ & _ & ->) | (H2 & _ & Hl & _)]]); try discriminate. intros ->. cbn in Hl. lia. }
  split.
  - intros [y Hy]. apply HFi in Hy. destruct (mapM_total solve grid) as [rs Ers].
    { intros lam Hl. unfold solve. destruct (Rltb_spec lam 0); [specialize (Hpos lam Hl); lra|]. apply robust_socp_total; auto. exists y. split; [exact Hy|exact I]. }
    rewrite Ers. cbn [bind]. pose proof (mapM_length _ _ _ Ers) as Hl. assert (Hl0 : (List.length rs =? 0)%nat = false) by (apply Nat.eqb_neq; rewrite Hl; destruct grid; [contradiction|discriminate]).
    rewrite Hl0. cbn [negb guard bind].
    set (order := if (1 <? List.length (map r_risk rs))%nat then e_sort E (map r_risk rs) else seq 0 (List.length (map r_risk rs))).
    match goal with |- context [make_frontier ?a ?b ?c ?d ?e ?g ?h] => destruct (guards_frontier a b c d e g h) as [f ->] end.
    + rewrite !take_length. reflexivity.
    + rewrite !take_length. reflexivity.
    + exact (names_fit w c G).
    + intros lv Hv. apply in_map_iff in Hv as (kv & <- & _). cbn [snd]. rewrite !take_length. reflexivity.
    + cbn [bind]. eauto.
  - intros Hn. destruct grid as [|lam grid]; [contradiction|]. cbn [mapM].
    assert (Es : solve lam = Err RuntimeError); [|rewrite Es; reflexivity].
    unfold solve. destruct (Rltb_spec lam 0); [specialize (Hpos lam (or_introl eq_refl)); lra|]. unfold robust_socp.
    destruct (e_cone E _) as [x|] eqn:Ex; [|reflexivity]. exfalso. apply (proj1 (proj2 (proj2 HE))) in Ex as [Ex _]. apply robust_feasible in Ex as [Ex _].
    apply Hn. exists x. apply HFi. exact Ex.
Qed.

(** Relaxed risk parity never fails because of its target: it falls back to a solve without target. *)
Lemma rrp_errors conelp lp chol n mean cov G0 A rb lam t mt bud e : complete_chol chol -> psd n cov -> risk_budgets n rb = Ok bud -> 0 <= lam ->
  rrp_solve conelp lp chol n mean cov G0 A rb lam t mt = Err e -> e = RuntimeError.
Proof.
  intros Hch Hp Hb Hl H. unfold rrp_solve in H. assert (Hp' : psd n (OptModel.symmetrise cov)) by (intros x; rewrite quad_symmetrise'; apply Hp).
  destruct (cholesky_pd_total chol n _ Hch Hp') as [L EL]. rewrite EL in H. cbn [bind] in H. rewrite Hb in H. cbn [bind] in H.
  destruct (Rltb_spec lam 0); [lra|]. destruct t as [t|].
  - unfold max_expected_return in H. destruct (lp _); cbn [bind fst] in H; [destruct (conelp _); congruence|congruence].
  - cbn [bind fst] in H. destruct (conelp _); congruence.
Qed.

Lemma relaxed_total solve t lower r0 : (forall a b e, solve a b = Err e -> e = RuntimeError) -> solve None None = Ok r0 ->
  exists s, solve_relaxed solve (Some t) lower = Ok s.
Proof.
  intros He H0. destruct (solve_relaxed_spec solve t lower) as [(i & Hi & _ & Hn & ->) | [_ ->]].
  - destruct (solve (Some (attempt t lower i)) (Some lower)) as [r|e] eqn:Es; [cbn; eauto|]. exfalso. apply Hn. left. rewrite (He _ _ _ Es). reflexivity.
  - rewrite H0. cbn. eauto.
Qed.

Definition parity_possible (mu : vec) (cov : mat) : Prop :=
  exists x, (forall i, (i < N)%nat -> 0 <= x i) /\ sumn N x = 1 /\ (forall i, (i < N)%nat -> 0 <= mv N (OptModel.symmetrise cov) x i) /\ F x.

Lemma rrp_answers_l lam mlt target rb bud mu cov : complete_cp (e_cone E) -> complete_chol (e_chol E) -> moments w mu cov -> psd N cov ->
  risk_budgets N rb = Ok bud -> 0 <= lam -> (target = None -> mlt = None -> lam = 0) -> (target = None -> forall q, mlt = Some q -> 0 <= q) ->
  parity_possible mu cov -> exists p g, relaxed_risk_parity E w lam mlt target rb arg k = Ok (p, g).
Proof.
  intros Hcc Hch Hm Hp Hbud Hl Hno Hq (x & X1 & X2 & X3 & X4). pose proof (constructed_good w c HC) as G. destruct resolved as (m & Er & HFi & _).
  assert (HN : (1 <= N)%nat) by (apply (vd_N _ (gw_dist w c G))).
  assert (HS : exists x, parity_start N mu (OptModel.symmetrise cov) (rows_G m) (rows_A m) None x).
  { exists x. constructor; auto; [apply HFi; exact X4|exact I]. }
  assert (Hbase : forall l, 0 <= l -> exists r, rp_optimizer E w (mu, cov) m rb l None None = Ok r).
  { intros l Hl'. unfold rp_optimizer. cbn [fst snd]. fold (assets w). change (assets w) with N.
    apply (rrp_solve_total (e_cone E) (e_lp E) (e_chol E) N mu cov (rows_G m) (rows_A m) rb l None None bud 0); auto. intros; discriminate. }
  assert (Herr : forall l, 0 <= l -> forall a b e, rp_optimizer E w (mu, cov) m rb l a b = Err e -> e = RuntimeError).
  { intros l Hl' a b e He. exact (rrp_errors _ _ _ _ _ _ _ _ _ _ _ _ bud e Hch Hp Hbud Hl' He). }
  unfold relaxed_risk_parity. rewrite (require_ok w mu cov Hm). cbn [bind]. rewrite Er. cbn [bind].
  destruct (Hbase 0 (Rle_refl 0)) as [base Eb]. rewrite Eb. cbn [bind].
  destruct (Hbase lam Hl) as [r0 E0].
  destruct target as [t|].
  - destruct (relaxed_total (rp_optimizer E w (mu, cov) m rb lam) t (Rmax (dot (d_N (w_dist w)) (fst (report w (mu, cov))) (rr_weights base)) 0) r0 (Herr lam Hl) E0) as [s ->].
    cbn [bind]. eauto.
  - destruct mlt as [q|].
    + destruct (Rltb_spec q 0); [specialize (Hq eq_refl q eq_refl); lra|].
      match goal with |- context [solve_relaxed ?a (Some ?b) ?d] => destruct (relaxed_total a b d r0 (Herr lam Hl) E0) as [s ->] end.
      cbn [bind]. eauto.
    + rewrite (Hno eq_refl eq_refl). destruct (Reqb_spec 0 0); [|lra]. cbn [bind]. eauto.
Qed.

Lemma rrp_frontier_answers_l num mx lam mults inc rb grid bud mu cov : complete_cp (e_cone E) -> complete_chol (e_chol E) -> moments w mu cov -> psd N cov ->
  risk_budgets N rb = Ok bud -> 0 <= lam -> multipliers num mx mults grid -> parity_possible mu cov ->
  exists f meta, relaxed_risk_parity_frontier E w num mx lam mults inc rb arg k = Ok (f, meta).
Proof.
  intros Hcc Hch Hm Hp Hbud Hl Hg (x & X1 & X2 & X3 & X4). pose proof (constructed_good w c HC) as G. destruct resolved as (m & Er & HFi & _).
  assert (HN : (1 <= N)%nat) by (apply (vd_N _ (gw_dist w c G))).
  assert (HS : exists x, parity_start N mu (OptModel.symmetrise cov) (rows_G m) (rows_A m) None x).
  { exists x. constructor; auto; [apply HFi; exact X4|exact I]. }
  assert (Hbase : forall l, 0 <= l -> exists r, rp_optimizer E w (mu, cov) m rb l None None = Ok r).
  { intros l Hl'. unfold rp_optimizer. cbn [fst snd]. fold (assets w). change (assets w) with N.
    apply (rrp_solve_total (e_cone E) (e_lp E) (e_chol E) N mu cov (rows_G m) (rows_A m) rb l None None bud 0); auto. intros; discriminate. }
  assert (Herr : forall l, 0 <= l -> forall a b e, rp_optimizer E w (mu, cov) m rb l a b = Err e -> e = RuntimeError).
  { intros l Hl' a b e He. exact (rrp_errors _ _ _ _ _ _ _ _ _ _ _ _ bud e Hch Hp Hbud Hl' He). }
  apply multiplier_grid_iff in Hg. unfold relaxed_risk_parity_frontier. rewrite (require_ok w mu cov Hm). cbn [bind]. destruct (Rltb_spec lam 0); [lra|]. rewrite Er. cbn [bind].
  destruct (Hbase 0 (Rle_refl 0)) as [base Eb]. rewrite Eb. cbn [bind]. rewrite Hg. cbn [bind]. destruct (Hbase lam Hl) as [r0 E0].
  match goal with |- context [mapM ?fn grid] => destruct (mapM_total fn grid) as [pts ->] end.
  { intros q _. match goal with |- context [solve_relaxed ?a (Some ?b) ?d] => destruct (relaxed_total a b d r0 (Herr lam Hl) E0) as [s ->] end. cbn [bind]. eauto. }
  cbn [bind]. match goal with |- context [make_frontier ?a ?b ?c ?d ?e ?g ?h] => destruct (guards_frontier a b c d e g h) as [f ->] end.
  - rewrite !map_length. reflexivity.
  - rewrite !map_length. reflexivity.
  - exact (names_fit w c G).
  - intros lv Hv. rewrite map_length. apply (overlay_fit E w _ lv Hv).
  - cbn [bind]. eauto.
Qed.

End Answers.
