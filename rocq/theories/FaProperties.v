(** C128-C130: the greedy share allocator in binary64. *)
From Coq Require String.
From Flocq Require Import Core.
From Verif Require Import RBase FpLib FpSpec FpProofs FaModel FaSpec FaProofs FaProofs2 FaProofs3.
Open Scope R_scope.

(** C128.  The leftover cash reported with any share counts (below 2^53, long or short) is non-negative and equals the exact remainder
    [V - cost] up to the 1e-8 guard and the rounding of one difference and one sum of products. *)
Theorem fa_leftover_accurate : forall npsum V ps r, sums npsum -> moderate ps -> isf V -> f_build_result npsum V ps = Ok r ->
  0 <= fr_leftover r /\
  Rabs (fr_leftover r - (V - exact_cost ps)) <=
    f_eps8 + ur * Rabs (V - exact_cost ps) + (1 + ur) * sum_error (length ps) (gross_value ps).
Proof. exact f_build_leftover. Qed.

(** So the true cost of whatever is returned exceeds the budget by no more than that bound. *)
Theorem fa_cost_within_budget : forall npsum V ps r, sums npsum -> moderate ps -> isf V -> f_build_result npsum V ps = Ok r ->
  exact_cost ps <= V + (f_eps8 + ur * Rabs (V - exact_cost ps) + (1 + ur) * sum_error (length ps) (gross_value ps)).
Proof.
  intros npsum V ps r Hs Hm HV H. destruct (f_build_leftover npsum V ps r Hs Hm HV H) as (H0 & H1). apply Rabs_bd in H1. lra.
Qed.

(** C129.  The loop ends for every budget, weights, prices and iteration limit, whatever the roundings. *)
Theorem fa_greedy_terminates : forall npsum mip V l max_iterations fallback, exists out,
  f_allocate_greedy npsum mip V l max_iterations fallback = Some out.
Proof.
  intros. unfold f_allocate_greedy. destruct (greedy_total V l (match max_iterations with Some k => k | None => f_default_iter (length l) end)) as (s & ->). eexists. reflexivity.
Qed.

(** C130.  With normalised weights, ordinary prices and a budget small enough for the accumulated roundings
    ([(8n + 2 max_iterations + 24) 2^-53 V <= 9e-9]), the greedy allocator never raises: the guard in the result builder is not tripped. *)
Theorem fa_greedy_never_overspends : forall npsum mip V l max_iterations fallback,
  let mi := match max_iterations with Some k => k | None => f_default_iter (length l) end in
  sums npsum -> ordinary V l -> 1 <= V -> normalised npsum (map fa_w l) ->
  crash_slack (length l) mi * ur * V <= 9 / 1000000000 -> fallback <> Some true ->
  exists r, f_allocate_greedy npsum mip V l max_iterations fallback = Some (Ok r).
Proof.
  intros npsum mip V l mo fb mi Hs HO HV (raw & Hr & Ht & HP) HB Hf. unfold f_allocate_greedy. fold mi.
  assert (EL : length raw = length l). { apply Permutation_length in HP. rewrite !map_length in HP. lia. }
  assert (Hnu : INR (length raw) * ur <= 1 / 64).
  { rewrite EL. unfold crash_slack in HB. pose proof ur_pos. pose proof (pos_INR (length l)). assert (0 <= IZR (Z.max mi 0)) by (apply (IZR_le 0); lia).
    assert (8 * INR (length l) * ur * 1 <= 8 * INR (length l) * ur * V) by (apply Rmult_le_compat_l; nra). assert (0 <= 2 * IZR (Z.max mi 0) * ur * V) by (repeat apply Rmult_le_pos; lra). nra. }
  pose proof (normalised_sum npsum raw Hs Hr Ht Hnu) as Hw. rewrite <- (rsum_perm _ _ HP), EL in Hw.
  destruct (greedy_total V l mi) as (s & E). rewrite E. destruct (greedy_no_crash npsum V l mi s Hs HO HV Hw HB E) as (r & Hb). rewrite Hb.
  destruct (match fb with None => false | Some _ => f_should_try_fallback V (f_min_cost l) mi s end); [|eauto].
  destruct mip as [r'|e]; [eauto|]. destruct fb as [[|]|]; [congruence|eauto|eauto].
Qed.

(** Larger budgets can make it raise on perfectly payable input: 98,718,244.88 in one share at 753.08 (exactly 131,086 shares in decimal arithmetic).
    The quotient rounds up to 131086, the cost rounds to one ulp above the budget, and the guard raises in every fallback mode; 131,085 shares are affordable. *)
Definition crash_V : R := rnd (9871824488 / 100).
Definition crash_price : R := rnd (75308 / 100).
Lemma crash_V_val : crash_V = 828108658746327 / 8388608.
Proof. unfold crash_V. rewrite (rnd_val _ 6624869269970616 (-26)); [simpl; lra|lia|simpl; lra|]. simpl (bpow _ _). apply Rabs_def1; lra. Qed.
Lemma crash_price_val : crash_price = 6624161733164401 / 8796093022208.
Proof. unfold crash_price. rewrite (rnd_val _ 6624161733164401 (-43)); [simpl; lra|lia|simpl; lra|]. simpl (bpow _ _). apply Rabs_def1; lra. Qed.
Lemma sums_single npsum x : sums npsum -> isf x -> npsum [x] = x.
Proof.
  intros Hs Hx. destruct (Hs [x]) as [(E & _)|(t & E & <-)]; [intros y [<-|[]]; exact Hx|discriminate E|].
  destruct t as [y|l r]; [cbn in E; apply Permutation_length_1 in E; rewrite E; reflexivity|]. exfalso. apply Permutation_length in E. cbn [leaves] in E. assert (L : forall t, leaves t <> []) by (induction t; simpl; [discriminate|intros K; apply app_eq_nil in K as (K & _); auto]).
  destruct (leaves l) as [|a l'] eqn:E1; [exact (L l E1)|]. destruct (leaves r) as [|b r'] eqn:E2; [exact (L r E2)|]. rewrite app_length in E. simpl in E. lia.
Qed.

Theorem fa_large_budget_raises_refuted : forall npsum mip fallback, sums npsum ->
  let l := [mkFA String.EmptyString 1 crash_price 1] in
  131085 * crash_price <= crash_V /\ normalised npsum (map fa_w l) /\ ordinary crash_V l /\
  f_allocate_greedy npsum mip crash_V l None fallback = Some (Err RuntimeError).
Proof.
  intros npsum mip fb Hs. cbv zeta. rewrite crash_V_val, crash_price_val. set (V := 828108658746327 / 8388608) in *. set (p := 6624161733164401 / 8796093022208) in *. set (l := [mkFA String.EmptyString 1 p 1]).
  assert (FV : isf V) by (unfold V; rewrite <- crash_V_val; apply rnd_isf). assert (Fp : isf p) by (unfold p; rewrite <- crash_price_val; apply rnd_isf).
  assert (E1 : fint 1 = 1) by (apply fint_id; lia).
  assert (Ec : flot_cost (mkFA String.EmptyString 1 p 1) = p) by (unfold flot_cost, fmul; cbn [fa_price fa_lot]; rewrite E1, Rmult_1_r; apply rnd_id; exact Fp).
  split; [unfold V, p; lra|]. split.
  { exists [1]. assert (Hn : npsum [1] = 1) by (apply sums_single; [exact Hs|apply isf_1]). repeat split.
    - destruct H as [<-|[]]; lra. - destruct H as [<-|[]]; apply isf_1. - rewrite Hn; lra.
    - cbn [map]. rewrite Hn. unfold fdiv. replace (1 / 1) with 1 by field. rewrite (rnd_id 1 isf_1). apply Permutation_refl. }
  split.
  { repeat split; try (unfold V; lra); auto; destruct H as [<-|[]]; cbn [fa_w fa_price fa_lot]; try lra; auto; try lia.
    - apply Rle_trans with (bpow radix2 0); [apply bpow_le; lia|simpl; unfold p; lra].
    - rewrite bpow51. unfold V, p. lra. }
  assert (EQ : fdiv (fmul 1 V) p = 131086).
  { unfold fmul. rewrite Rmult_1_l, (rnd_id V FV). unfold fdiv. rewrite (rnd_val (V / p) 4504080663707648 (-35)); [simpl; lra|lia|simpl; unfold V, p; lra|]. simpl (bpow _ _). unfold V, p. apply Rabs_def1; lra. }
  assert (EC : fmul (fint 131086) p = V + 1 / 67108864).
  { rewrite fint_id by lia. unfold fmul. rewrite (rnd_val (131086 * p) 6624869269970617 (-26)); [simpl; unfold V; lra|lia|simpl; unfold p; lra|]. simpl (bpow _ _). unfold p. apply Rabs_def1; lra. }
  assert (F26 : isf (- (1 / 67108864))). { apply isf_opp. replace (1 / 67108864) with (bpow radix2 (-26)) by (simpl; lra). apply generic_format_bpow. unfold b64, FLT_exp. lia. }
  assert (ES : fsub V (V + 1 / 67108864) = - (1 / 67108864)) by (unfold fsub; replace (V - (V + 1 / 67108864)) with (- (1 / 67108864)) by ring; apply rnd_id; exact F26).
  assert (EF : f_floor_pass V V l = ([(mkFA String.EmptyString 1 p 1, 131086%Z, false)], - (1 / 67108864))).
  { cbn [f_floor_pass l]. unfold l. rewrite Ec. rewrite (proj2 (Rltb_false V p)) by (unfold V, p; lra). cbn [fa_w fa_lot]. rewrite EQ. unfold ffloor. rewrite Zfloor_IZR. cbn [Z.leb Z.compare Z.eqb]. rewrite EC, ES. reflexivity. }
  assert (HT : fadd (- (1 / 67108864)) f_tol <= 0). { apply rnd_le0. pose proof tol_bounds. lra. }
  assert (EM : f_min_cost l = p) by (unfold l, f_min_cost; cbn [map f_min_list]; exact Ec).
  assert (Hstop : Rleb p (fadd (- (1 / 67108864)) f_tol) = false) by (apply Rleb_false; unfold p; lra).
  unfold f_allocate_greedy, f_greedy_loop. rewrite EF, EM. cbn [length f_default_iter].
  assert (EL : forall fu, f_loop fu V p (f_default_iter 1) (mkFG [(mkFA String.EmptyString 1 p 1, 131086%Z, false)] (- (1 / 67108864)) 0 (map fa_w l) false) = Some (mkFG [(mkFA String.EmptyString 1 p 1, 131086%Z, false)] (- (1 / 67108864)) 0 (map fa_w l) false)).
  { intros [|fu]; cbn [f_loop fg_cash]; rewrite Hstop; reflexivity. }
  rewrite EL. assert (EB : f_build_result npsum V [(mkFA String.EmptyString 1 p 1, 131086%Z, false)] = Err RuntimeError).
  { unfold f_build_result. cbn [map fp_shares fp_asset fst snd fa_price]. unfold f_value. unfold fp_shares, fp_asset. cbn [fst snd fa_price]. rewrite EC. rewrite (sums_single npsum (V + 1 / 67108864) Hs) by (rewrite <- EC; apply rnd_isf).
    rewrite ES. rewrite (proj2 (Rltb_true _ 0)) by lra. rewrite Rabs_left by lra. pose proof eps8_bounds. rewrite (proj2 (Rltb_false _ f_eps8)) by lra. reflexivity. }
  cbn [fg_pos]. rewrite EB. unfold f_should_try_fallback. cbn [fg_cash fg_iter fg_break fg_last fg_pos]. rewrite Hstop.
  destruct fb as [[|]|]; reflexivity.
Qed.

(** Hypotheses of C130 met: 10,000 in one share at 100, default iteration limit. *)
Example fa_never_overspends_hypotheses : let l := [mkFA String.EmptyString 1 100 1] in
  ordinary 10000 l /\ crash_slack (length l) (f_default_iter 1) * ur * 10000 <= 9 / 1000000000.
Proof.
  split.
  - repeat split; try lra; try (apply (isf_int 10000); lia); destruct H as [<-|[]]; cbn [fa_w fa_price fa_lot]; try lra; try lia; try (apply (isf_int 100); lia).
    + apply Rle_trans with (bpow radix2 0); [apply bpow_le; lia|simpl; lra].
    + rewrite bpow51. lra.
  - unfold crash_slack. change (Z.max (f_default_iter 1) 0) with 100%Z. cbn [length INR]. rewrite ur_val. lra.
Qed.

Print Assumptions fa_leftover_accurate.
Print Assumptions fa_cost_within_budget.
Print Assumptions fa_greedy_terminates.
Print Assumptions fa_greedy_never_overspends.
Print Assumptions fa_large_budget_raises_refuted.
