From Coq Require Import String Classical_Prop.
From Verif Require Import RBase QpBase SortLib RiskModel RiskSpec RiskProofs RiskProperties ConsModel ConsSpec ConsProperties
  MomModel DistModel DistSpec DistProofs DistProofs2 DistProofs3 ConvModel ConvProperties ProjProofs OptModel OptSpec OptProofs OptProofs2 OptProofs3 OptProofs4 OptProofs5 OptProperties FrModel FrSpec FrProofs FrProofs2 FrProofs3 FrProofs4 FrProperties WrModel WrSpec WrProofs WrProofs2 WrProofs3 WrProofs4 WrProofs5.
Open Scope R_scope.
Open Scope list_scope.

(** * The fallback *)
Lemma next_target_eq lower cand : next_target lower cand = let m := (cand + lower) / 2 in if Rleb m (lower + 1 / 1000000) then lower else m.
Proof. unfold next_target. replace (1 / 2 * (cand + lower)) with ((cand + lower) / 2) by lra. reflexivity. Qed.
Lemma runtime_failed {A} (r : res A) e : r = Err e -> runtime_err e = true -> failed r.
Proof. intros -> H. destruct e; try discriminate; [left|right]; reflexivity. Qed.
Lemma failed_runtime {A} (r : res A) : failed r -> exists e, r = Err e /\ runtime_err e = true.
Proof. intros [-> | ->]; eexists; (split; [reflexivity|reflexivity]). Qed.

Lemma tries_spec solve lower t n : forall k,
  (exists i, (i < n)%nat /\ (forall j, (j < i)%nat -> failed (solve (Some (attempt t lower (k + j))) (Some lower))) /\
     ~ failed (solve (Some (attempt t lower (k + i))) (Some lower)) /\
     rp_tries solve lower (attempt t lower k) n = Some (solve (Some (attempt t lower (k + i))) (Some lower))) \/
  ((forall j, (j < n)%nat -> failed (solve (Some (attempt t lower (k + j))) (Some lower))) /\
   rp_tries solve lower (attempt t lower k) n = None).
Proof.
  induction n as [|n IH]; intros k; [right; split; [intros; lia|reflexivity]|]. cbn [rp_tries].
  destruct (solve (Some (attempt t lower k)) (Some lower)) as [r|e] eqn:Es.
  - left. exists 0%nat. split; [lia|]. split; [intros; lia|]. rewrite Nat.add_0_r, Es. split; [intros [H|H]; discriminate|reflexivity].
  - destruct (runtime_err e) eqn:Er.
    + assert (F0 : failed (solve (Some (attempt t lower k)) (Some lower))) by exact (runtime_failed _ e Es Er).
      assert (En : next_target lower (attempt t lower k) = attempt t lower (S k)) by (rewrite next_target_eq; reflexivity). rewrite En.
      destruct (IH (S k)) as [(i & Hi & H1 & H2 & H3)|[H1 H2]].
      * left. exists (S i). split; [lia|]. rewrite Nat.add_succ_r. split; [|split; assumption].
        intros [|j] Hj; [rewrite Nat.add_0_r; exact F0|]. rewrite Nat.add_succ_r. apply H1. lia.
      * right. split; [|exact H2]. intros [|j] Hj; [rewrite Nat.add_0_r; exact F0|]. rewrite Nat.add_succ_r. apply H1. lia.
    + left. exists 0%nat. split; [lia|]. split; [intros; lia|]. rewrite Nat.add_0_r, Es. split; [|reflexivity].
      intros [H|H]; injection H as ->; discriminate.
Qed.

Lemma solve_relaxed_spec solve t lower :
  (exists i, (i < 8)%nat /\ (forall j, (j < i)%nat -> failed (solve (Some (attempt t lower j)) (Some lower))) /\
     ~ failed (solve (Some (attempt t lower i)) (Some lower)) /\
     solve_relaxed solve (Some t) lower = let* r := solve (Some (attempt t lower i)) (Some lower) in Ok (r, false)) \/
  ((forall j, (j < 8)%nat -> failed (solve (Some (attempt t lower j)) (Some lower))) /\
   solve_relaxed solve (Some t) lower = let* r := solve None None in Ok (r, true)).
Proof.
  destruct (tries_spec solve lower t 8 0) as [(i & Hi & H1 & H2 & H3)|[H1 H2]].
  - left. exists i. split; [exact Hi|]. split; [exact H1|]. split; [exact H2|]. unfold solve_relaxed. cbn [attempt plus] in H3. rewrite H3. reflexivity.
  - right. split; [exact H1|]. unfold solve_relaxed. cbn [attempt] in H2. rewrite H2. reflexivity.
Qed.

Lemma attempt_between t lower k : lower <= t -> lower <= attempt t lower (S k) <= attempt t lower k /\ attempt t lower k <= t.
Proof.
  intros H. induction k as [|k [IH1 IH2]].
  - cbn [attempt]. destruct (Rleb_spec ((t + lower) / 2) (lower + 1 / 1000000)); lra.
  - cbn [attempt] in *. set (a := let m := (attempt t lower k + lower) / 2 in if Rleb m (lower + 1 / 1000000) then lower else m) in *.
    split; [|lra]. destruct (Rleb_spec ((a + lower) / 2) (lower + 1 / 1000000)); lra.
Qed.
Lemma attempt_below t lower k : t <= lower -> attempt t lower (S k) = lower.
Proof.
  intros H. assert (K : attempt t lower k <= lower).
  { induction k as [|k IH]; [exact H|]. cbn [attempt]. destruct (Rleb_spec ((attempt t lower k + lower) / 2) (lower + 1 / 1000000)); lra. }
  cbn [attempt]. destruct (Rleb_spec ((attempt t lower k + lower) / 2) (lower + 1 / 1000000)); lra.
Qed.
Lemma attempt_le t lower k : attempt t lower k <= Rmax t lower.
Proof.
  destruct (Rle_or_lt lower t) as [H|H].
  - rewrite Rmax_left by exact H. apply (attempt_between t lower k H).
  - destruct k as [|k]; [apply Rmax_l|]. rewrite attempt_below by lra. apply Rmax_r.
Qed.
Lemma attempt_halves t lower k : lower <= t -> attempt t lower k - lower <= (t - lower) / 2 ^ k.
Proof.
  intros H. induction k as [|k IH]; [simpl; lra|]. cbn [attempt]. pose proof (proj1 (attempt_between t lower k H)) as B.
  assert (P : 0 < 2 ^ k) by (apply pow_lt; lra).
  assert (E : (t - lower) / 2 ^ S k = (t - lower) / 2 ^ k / 2) by (simpl; field; lra). rewrite E.
  assert (0 <= (t - lower) / 2 ^ k) by (unfold Rdiv; apply Rmult_le_pos; [lra|apply Rlt_le, Rinv_0_lt_compat, P]).
  destruct (Rleb_spec ((attempt t lower k + lower) / 2) (lower + 1 / 1000000)); lra.
Qed.

(** * One solve *)
Lemma quad_sym n M x : quad n (OptModel.symmetrise M) x = quad n M x.
Proof.
  unfold quad, OptModel.symmetrise.
  rewrite (sumn_ext n _ (fun i => 1 / 2 * sumn n (fun j => M i j * x i * x j) + 1 / 2 * sumn n (fun j => M j i * x i * x j))).
  - rewrite sumn_plus, !sumn_scale. rewrite (sumn_swap n n (fun i j => M j i * x i * x j)).
    rewrite (sumn_ext n (fun j => sumn n (fun i => M j i * x i * x j)) (fun i => sumn n (fun j => M i j * x i * x j))); [lra|].
    intros i Hi. apply sumn_ext. intros j Hj. ring.
  - intros i Hi. rewrite <- !sumn_scale, <- sumn_plus. apply sumn_ext. intros j Hj. ring.
Qed.

Lemma rrp_point_agree n mean cov L bud lam G A t x y psi g rho : agree n x y ->
  rrp_point n mean cov L bud lam G A t x psi g rho -> rrp_point n mean cov L bud lam G A t y psi g rho.
Proof.
  intros E [P1 P2 P3 P4 P5 P6 P7 P8 P9].
  assert (M : forall Q i, mv n Q y i = mv n Q x i) by (intros Q i; symmetry; apply mv_agree; exact E).
  constructor.
  - intros i Hi. rewrite <- (E i Hi). auto.
  - intros i Hi. rewrite M. auto.
  - exact P3.
  - exact (constrained_ext n G A x y E P4).
  - intros H. rewrite <- (P5 H). apply sumn_ext. intros i Hi. symmetry. auto.
  - unfold meets in *. destruct t; [rewrite <- (dot_agree n mean x y E); exact P6|exact I].
  - intros i Hi. unfold risk_contribution. rewrite M, <- (E i Hi). exact (P7 i Hi).
  - rewrite (dot_ext n (mv n L y) (mv n L y) (mv n L x) (mv n L x)) by (intros; apply M). exact P8.
  - intros H. rewrite (sumn_ext n (fun i => Rmax (cov i i) 0 * y i ^ 2) (fun i => Rmax (cov i i) 0 * x i ^ 2)) by (intros i Hi; rewrite <- (E i Hi); reflexivity). exact (P9 H).
Qed.

Lemma rp_solution_l E w c arg m mu cov rb lam t mt r : exact_env E -> good_wrapper w c -> in_force c arg (assets w) -> resolve_mats w arg = Ok m ->
  rp_optimizer E w (mu, cov) m rb lam t mt = Ok r ->
  let N := assets w in
  0 <= lam /\
  risk_parity_solution N mu cov (fun y => allowed (effective c arg) N y) rb lam (rr_target r) (wts (vlist N (rr_weights r))) (rr_marginal r) /\
  match t with
  | None => rr_target r = None
  | Some t => exists cl mx, rr_target r = Some cl /\ rr_max r = Some mx /\ cl = clip_target mx t mt /\ cl <= dot N mu (wts (vlist N (rr_weights r)))
  end.
Proof.
  intros HE G HF Hm H N. destruct HE as (_ & Hlp & Hc & Hch & _). unfold rp_optimizer in H. cbn [fst snd] in H. fold (assets w) in H. change (assets w) with N in H.
  destruct (rrp_solve_inv _ _ _ _ _ _ _ _ _ _ _ _ _ Hc Hch H) as (L & bud & j & Hl & _ & Hb & Hj & _ & HL & Ht & P & Hmg & Ho & Hopt).
  pose proof (agree_wts N (rr_weights r)) as A0.
  split; [exact Hl|]. split.
  - exists L, bud, (rows_G m), (rows_A m), (rr_psi r), (rr_gamma r), (rr_rho r).
    split; [exists j; split; [exact Hj|exact HL]|].
    split; [intros y; apply (resolve_in_force w c arg m y G HF Hm)|]. split; [exact Hb|].
    split; [exact (rrp_point_agree _ _ _ _ _ _ _ _ _ _ _ _ _ _ A0 P)|].
    split; [intros y a b d Hy; rewrite <- Ho; exact (Hopt y a b d Hy)|].
    intros i Hi. rewrite (Hmg i Hi). apply mv_agree. exact A0.
  - destruct t as [t|]; [|apply Ht]. destruct Ht as (mx & _ & E2 & E3). exists (clip_target mx t mt), mx. split; [exact E2|]. split; [exact E3|]. split; [reflexivity|].
    pose proof (rp_target _ _ _ _ _ _ _ _ _ _ _ _ _ P) as K. rewrite E2 in K. simpl in K. rewrite <- (dot_agree N mu _ _ A0). exact K.
Qed.

Lemma clip_le m t lower : clip_target m t (Some lower) <= Rmax t lower /\ lower <= clip_target m t (Some lower).
Proof.
  unfold clip_target. split; [|apply Rmax_r]. destruct (Rleb_spec (m - Rmax (1 / 100000000) (1 / 1000 * Rabs m)) t) as [H|H].
  - apply Rle_max_compat_r. exact H.
  - lra.
Qed.

(** The outcome of the relaxation. *)
Lemma relaxed_l E w c arg m mu cov rb lam t lower r b : exact_env E -> good_wrapper w c -> in_force c arg (assets w) -> resolve_mats w arg = Ok m ->
  solve_relaxed (rp_optimizer E w (mu, cov) m rb lam) (Some t) lower = Ok (r, b) ->
  let N := assets w in let x := wts (vlist N (rr_weights r)) in
  0 <= lam /\
  risk_parity_solution N mu cov (fun y => allowed (effective c arg) N y) rb lam (rr_target r) x (rr_marginal r) /\
  (b = true -> rr_target r = None) /\
  (b = false -> exists cl, rr_target r = Some cl /\ cl <= dot N mu x /\ lower <= cl <= Rmax t lower).
Proof.
  intros HE G HF Hm H N x. destruct (solve_relaxed_spec (rp_optimizer E w (mu, cov) m rb lam) t lower) as [(i & _ & _ & _ & E1)|[_ E1]]; rewrite E1 in H;
    apply bind_ok in H as (r' & Hr & H); injection H as <- <-; destruct (rp_solution_l E w c arg m mu cov rb lam _ _ _ HE G HF Hm Hr) as (H0 & H1 & H2).
  - split; [exact H0|]. split; [exact H1|]. split; [discriminate|]. intros _. destruct H2 as (cl & mx & E2 & _ & -> & K). exists (clip_target mx (attempt t lower i) (Some lower)).
    split; [exact E2|]. split; [exact K|]. pose proof (clip_le mx (attempt t lower i) lower) as [C1 C2]. split; [exact C2|]. eapply Rle_trans; [exact C1|].
    pose proof (attempt_le t lower i). apply Rmax_lub; [exact H|apply Rmax_r].
  - split; [exact H0|]. split; [exact H1|]. split; [intros _; exact H2|discriminate].
Qed.

Lemma rrp_portfolio_l E w c arg k lam mlt target rb p g mu cov : exact_env E -> constructed w c -> in_force c arg (assets w) -> moments w mu cov ->
  relaxed_risk_parity E w lam mlt target rb arg k = Ok (p, g) ->
  let N := assets w in let F y := allowed (effective c arg) N y in let x := wts (p_weights p) in
  let rmu := fst (in_reports w mu cov) in let rcov := snd (in_reports w mu cov) in
  let lower := Rmax (g_rp_return g) 0 in
  List.length (p_weights p) = N /\ p_names p = d_names (w_dist w) /\ p_return p = dot N rmu x /\ p_risk p = sqrt (quad N rcov x) /\ g_variance g = quad N rcov x /\
  0 <= lam /\
  (exists marg, risk_parity_solution N mu cov F rb 0 None (wts (g_rp_weights g)) marg) /\ g_rp_return g = dot N rmu (wts (g_rp_weights g)) /\
  g_requested g = match target, mlt with Some t, _ => Some t | None, Some q => Some (q * lower) | None, None => None end /\
  (target = None -> match mlt with None => lam = 0 /\ p_weights p = g_rp_weights g | Some q => 0 <= q end) /\
  (exists marg, risk_parity_solution N mu cov F rb lam (g_target g) x marg /\ g_contrib g = map (fun i => x i * marg i) (seq 0 N)) /\
  (g_warning g = true -> g_requested g <> None /\ g_target g = None) /\
  (forall t, g_warning g = false -> g_requested g = Some t ->
     exists cl, g_target g = Some cl /\ cl <= dot N mu x /\ lower <= cl <= Rmax t lower) /\
  (g_clipped g = false -> forall t cl, g_requested g = Some t -> g_target g = Some cl -> Rabs (cl - t) <= 1 / 10000000000 + 1 / 100000000 * Rabs t) /\
  (w_log w = false -> 0 < quad N rcov x -> rsum (g_pct g) = 100).
Proof.
  intros HE HC HF Hmc H N F x rmu rcov lower. pose proof (constructed_good w c HC) as G.
  unfold relaxed_risk_parity in H. apply bind_ok in H as (mc & Hmc' & H). apply require_ok in Hmc. rewrite Hmc in Hmc'. injection Hmc' as <-.
  apply bind_ok in H as (m & Hm & H). apply bind_ok in H as (base & Hb & H). cbv zeta in H. apply bind_ok in H as ([[req sol] warned] & Hs & H).
  injection H as <- <-. fold (assets w) in x, lower, Hs |- *. cbn [p_weights p_names p_return p_risk g_requested g_target g_clipped g_max g_rp_return g_variance g_contrib g_pct g_rp_weights g_warning] in *.
  rewrite report_eq in *. change (assets w) with N in x, lower, Hs |- *. fold rmu in lower, Hs |- *. fold rcov.
  pose proof (agree_wts N (rr_weights sol)) as A0. change (agree N (rr_weights sol) x) in A0.
  destruct (rp_solution_l E w c arg m mu cov rb 0 None None base HE G HF Hm Hb) as (_ & B1 & B2). cbv zeta in B1. rewrite B2 in B1. change (assets w) with N in B1.
  assert (D : 0 <= lam /\ risk_parity_solution N mu cov F rb lam (rr_target sol) x (rr_marginal sol) /\
    req = match target, mlt with Some t, _ => Some t | None, Some q => Some (q * lower) | None, None => None end /\
    (target = None -> match mlt with None => lam = 0 /\ vlist N (rr_weights sol) = vlist N (rr_weights base) | Some q => 0 <= q end) /\
    (warned = true -> req <> None /\ rr_target sol = None) /\
    (forall t, warned = false -> req = Some t -> exists cl, rr_target sol = Some cl /\ cl <= dot N mu x /\ lower <= cl <= Rmax t lower)).
  { destruct target as [t|]; [|destruct mlt as [q|]].
    - apply bind_ok in Hs as ([s b] & Hs & E1). injection E1 as <- <- <-. cbn [fst snd] in *.
      destruct (relaxed_l E w c arg m mu cov rb lam t lower s b HE G HF Hm Hs) as (R0 & R1 & R2 & R3).
      split; [exact R0|]. split; [exact R1|]. split; [reflexivity|]. split; [discriminate|]. split; [intros Hw; split; [discriminate|exact (R2 Hw)]|].
      intros t' Hw E2. injection E2 as <-. exact (R3 Hw).
    - destruct (Rltb_spec q 0) as [|Hq]; [discriminate|]. apply bind_ok in Hs as ([s b] & Hs & E1). injection E1 as <- <- <-. cbn [fst snd] in *.
      destruct (relaxed_l E w c arg m mu cov rb lam (q * lower) lower s b HE G HF Hm Hs) as (R0 & R1 & R2 & R3).
      split; [exact R0|]. split; [exact R1|]. split; [reflexivity|]. split; [intros _; lra|]. split; [intros Hw; split; [discriminate|exact (R2 Hw)]|].
      intros t' Hw E2. injection E2 as <-. exact (R3 Hw).
    - destruct (Reqb lam 0) eqn:El; [|discriminate]. apply Reqb_true in El. injection Hs as <- <- <-.
      destruct (rp_solution_l E w c arg m mu cov rb 0 None None base HE G HF Hm Hb) as (Z0 & Z1 & Z2). subst lam.
      split; [lra|]. split; [exact Z1|]. split; [reflexivity|]. split; [intros _; auto|]. split; discriminate. }
  destruct D as (D0 & D1 & D2 & D3 & D4 & D5).
  split; [apply to_list_length|]. split; [reflexivity|]. split; [apply dot_agree; exact A0|]. split; [f_equal; apply quad_ext_n; exact A0|]. split; [apply quad_ext_n; exact A0|].
  split; [exact D0|].
  split; [exists (rr_marginal base); exact B1|]. split; [apply dot_agree, agree_wts|]. split; [exact D2|]. split; [exact D3|].
  split; [exists (rr_marginal sol); split; [exact D1|]; apply map_ext_in; intros i Hi; apply in_seq in Hi; rewrite (A0 i) by lia; reflexivity|].
  split; [exact D4|]. split; [exact D5|].
  split.
  { intros Hcl t cl -> Hc. rewrite Hc in Hcl. apply Bool.negb_false_iff in Hcl. unfold close_target in Hcl. destruct (Rleb_spec (Rabs (cl - t)) (1 / 10000000000 + 1 / 100000000 * Rabs t)); [exact r|discriminate]. }
  intros Hlog Hpos. rewrite (quad_ext_n N rcov x (rr_weights sol) (agree_sym N _ _ A0)) in Hpos.
  assert (Hsq : 0 < sqrt (quad N rcov (rr_weights sol))) by (apply sqrt_lt_R0; exact Hpos).
  destruct (Rltb_spec 0 (sqrt (quad N rcov (rr_weights sol)))) as [_|Hn]; [|lra]. rewrite map_map, rsum_seq.
  destruct D1 as (L & bud & GG & AA & psi & gam & rho & _ & _ & _ & _ & _ & Hmg).
  assert (Ec : rcov = cov) by (unfold rcov, in_reports; rewrite Hlog; reflexivity). rewrite Ec in *.
  set (v := quad N cov (rr_weights sol)) in *.
  rewrite (sumn_ext N _ (fun i => 100 / v * (x i * mv N (OptModel.symmetrise cov) x i))).
  - rewrite sumn_scale. assert (Q : sumn N (fun i => x i * mv N (OptModel.symmetrise cov) x i) = v).
    { unfold v. rewrite (quad_ext_n N cov (rr_weights sol) x A0). rewrite <- (quad_sym N cov x). unfold quad, mv, dot. apply sumn_ext. intros i Hi.
      rewrite <- sumn_scale. apply sumn_ext. intros; ring. }
    rewrite Q. field. lra.
  - intros i Hi. cbn [plus]. rewrite (A0 i Hi), (Hmg i Hi). rewrite <- (sqrt_sqrt v) at 3 by lra. field. lra.
Qed.

(** * Relaxed risk parity frontier *)
Lemma rrp_frontier_l E w c arg k num mx lam mults inc rb f meta mu cov : exact_env E -> constructed w c -> in_force c arg (assets w) -> moments w mu cov ->
  relaxed_risk_parity_frontier E w num mx lam mults inc rb arg k = Ok (f, meta) ->
  let N := assets w in let F y := allowed (effective c arg) N y in
  let rmu := fst (in_reports w mu cov) in let rcov := snd (in_reports w mu cov) in
  0 <= lam /\ f_n f = N /\ f_names f = d_names (w_dist w) /\ f_measure f = "Volatility (Relaxed RP)"%string /\
  describes f (dot N rmu) (fun x => sqrt (Rmax (quad N rcov x) 0)) /\
  (forall lab v, In (lab, v) (f_alt f) -> lab = "CVaR (95%)"%string /\ cvar95_column w (f_cols f) v) /\
  List.length meta = List.length (f_cols f) /\
  exists anchor grid marg, risk_parity_solution N mu cov F rb 0 None (wts anchor) marg /\ multipliers num mx mults grid /\
    map t_mult meta = (if inc then [None] else []) ++ map Some grid /\
    let lower := Rmax (dot N rmu (wts anchor)) 0 in
    forall i, (i < List.length meta)%nat ->
      let e := nth i meta (mkMeta None None None false) in let x := wts (nth i (f_cols f) []) in
      match t_mult e with
      | None => nth i (f_cols f) [] = anchor /\ t_requested e = None /\ t_effective e = None /\ t_warning e = false
      | Some q => t_requested e = Some (q * lower) /\
                  (exists marg, risk_parity_solution N mu cov F rb lam (t_effective e) x marg) /\
                  (t_warning e = true -> t_effective e = None) /\
                  (t_warning e = false -> exists cl, t_effective e = Some cl /\ cl <= dot N mu x /\ lower <= cl <= Rmax (q * lower) lower)
      end.
Proof.
  intros HE HC HF Hmc H N F rmu rcov. pose proof (constructed_good w c HC) as G.
  unfold relaxed_risk_parity_frontier in H. apply bind_ok in H as (mc & Hmc' & H). apply require_ok in Hmc. rewrite Hmc in Hmc'. injection Hmc' as <-.
  destruct (Rltb_spec lam 0) as [|Hl]; [discriminate|]. apply bind_ok in H as (m & Hm & H). apply bind_ok in H as (base & Hb & H). cbv zeta in H.
  apply bind_ok in H as (grid & Hg & H). apply bind_ok in H as (pts & Hp & H). apply bind_ok in H as (f' & Hf & H). injection H as <- <-.
  apply make_frontier_ok in Hf as [_ ->]. fold (assets w) in Hp |- *. rewrite report_eq in *. change (assets w) with N in Hp |- *. fold rmu in Hp |- *. fold rcov.
  set (all := if inc then _ else pts). cbn [f_n f_names f_measure f_cols f_alt].
  split; [lra|]. split; [reflexivity|]. split; [reflexivity|]. split; [reflexivity|].
  split; [apply describes_map; [apply dot_agree|intros a b Eab; rewrite (quad_ext_n N rcov a b Eab); reflexivity]|].
  split; [intros lab v; apply (overlay_l E w c _ lab v HE G)|].
  split; [rewrite !map_length; reflexivity|].
  destruct (rp_solution_l E w c arg m mu cov rb 0 None None base HE G HF Hm Hb) as (_ & B1 & B2). cbv zeta in B1. rewrite B2 in B1. change (assets w) with N in B1.
  exists (vlist N (rr_weights base)), grid, (rr_marginal base). split; [exact B1|]. split; [apply multiplier_grid_iff; exact Hg|].
  set (lower := Rmax (dot N rmu (rr_weights base)) 0) in *. rewrite <- (dot_agree N rmu _ _ (agree_wts N (rr_weights base))). fold lower.
  apply mapM_ok_forall2 in Hp.
  assert (Hm1 : map t_mult (map snd pts) = map Some grid).
  { clear - Hp. induction Hp as [|a b la lb Hab Hp IH]; [reflexivity|]. simpl. apply bind_ok in Hab as (s & _ & E1). injection E1 as <-. cbn [snd t_mult]. rewrite IH. reflexivity. }
  split; [unfold all; destruct inc; simpl; rewrite Hm1; reflexivity|]. cbv zeta.
  set (good := fun (v : vec) (e : rp_meta) => match t_mult e with
      | None => vlist N v = vlist N (rr_weights base) /\ t_requested e = None /\ t_effective e = None /\ t_warning e = false
      | Some q => t_requested e = Some (q * lower) /\
                  (exists marg, risk_parity_solution N mu cov F rb lam (t_effective e) (wts (vlist N v)) marg) /\
                  (t_warning e = true -> t_effective e = None) /\
                  (t_warning e = false -> exists cl, t_effective e = Some cl /\ cl <= dot N mu (wts (vlist N v)) /\ lower <= cl <= Rmax (q * lower) lower)
      end).
  assert (Hpts : Forall (fun y => good (fst y) (snd y)) pts).
  { clear all Hm1 Hg. induction Hp as [|a b la lb Hab Hp IH]; constructor; [|exact IH].
    apply bind_ok in Hab as ([s b'] & Hs & E1). injection E1 as <-. unfold good. cbn [fst snd t_mult t_requested t_effective t_warning].
      destruct (relaxed_l E w c arg m mu cov rb lam _ lower s b' HE G HF Hm Hs) as (_ & R1 & R2 & R3). split; [reflexivity|]. split; [eexists; exact R1|]. auto. }
  assert (Hall : Forall (fun y => good (fst y) (snd y)) all).
  { unfold all. destruct inc; [constructor; [|exact Hpts]|exact Hpts]. unfold good. cbn [fst snd t_mult t_requested t_effective t_warning]. auto. }
  intros i Hi. rewrite map_length in Hi.
  rewrite (nth_map_lt snd all i (zrow, mkMeta None None None false)) by exact Hi.
  rewrite (map_map fst (vlist N)), (nth_map_lt (fun y => vlist N (fst y)) all i (zrow, mkMeta None None None false)) by exact Hi.
  exact (proj1 (Forall_forall _ _) Hall _ (nth_In all _ Hi)).
Qed.
