From Coq Require Import String Classical_Prop.
From Verif Require Import RBase QpBase SortLib RiskModel RiskSpec RiskProofs ConsModel ConsSpec
  MomModel DistModel DistSpec DistProofs DistProofs2 DistProofs3 ConvModel OptModel OptSpec OptProofs OptProofs2 OptProofs3 OptProofs4 FrModel FrSpec FrProofs FrProofs2 FrProperties WrModel WrSpec WrProofs.
Open Scope R_scope.
Open Scope list_scope.

(** * Every optimiser's output is constrained *)
Lemma mv_solve_constrained solve n mean P q G A t x : exact_qp solve -> mv_solve_target solve n mean P q G A t = Ok x -> constrained n G A x /\ meets n mean t x.
Proof. intros Hs H. destruct (mv_solve_spec solve n mean P q G A t x Hs H) as (r & _ & _ & F & _). exact F. Qed.

Lemma frontier_in n first fn num mean mr cols : frontier n first fn num mean mr = Ok cols ->
  forall x, In x cols -> x = first \/ exists t, fn t = Ok x.
Proof.
  unfold frontier. intros H x Hx. destruct (_ || _)%bool.
  - injection H as <-. destruct Hx as [<-|[]]. auto.
  - apply bind_ok in H as (l & Hl & H). injection H as <-. destruct Hx as [<-|Hx]; [auto|]. right.
    apply mapM_ok_forall2 in Hl. induction Hl as [|a b la lb Hab Hl IH]; [destruct Hx|]. destruct Hx as [<-|Hx]; [eauto|]. auto.
Qed.

Lemma mv_frontier_constrained solve lp n mean cov G A w0 lam num cols : exact_qp solve ->
  mv_frontier solve lp n mean cov G A w0 lam num = Ok cols -> forall x, In x cols -> constrained n G A x.
Proof.
  intros Hs H x Hx. unfold mv_frontier in H. apply bind_ok in H as ([P q] & _ & H). apply bind_ok in H as (first & Hf & H).
  apply bind_ok in H as (mr & _ & H). destruct (frontier_in _ _ _ _ _ _ _ H x Hx) as [-> |[t Ht]]; eapply mv_solve_constrained; eauto.
Qed.

Lemma cvar_solve_constrained lp N T X p alpha tc G A t x : exact_cp lp -> cvar_solve_target lp N T X p alpha tc G A t = Ok x ->
  constrained N G A x /\ meets N (cvar_mean T p X) t x.
Proof.
  intros Hs H. unfold cvar_solve_target in H. destruct (lp _) as [y|] eqn:E; [|discriminate]. injection H as <-.
  apply Hs in E as [Hf _]. apply cvar_feasible_iff in Hf as [Hp Ht]. split; [apply Hp|exact Ht].
Qed.
Lemma cvar_frontier_constrained lp N T X p alpha w0 costs G A num cols : exact_cp lp ->
  OptModel.cvar_frontier lp N T X p alpha w0 costs G A num = Ok cols -> forall x, In x cols -> constrained N G A x.
Proof.
  intros Hs H x Hx. unfold OptModel.cvar_frontier in H. apply cvar_init_inv in H as [H _]. apply bind_ok in H as (first & Hf & H).
  apply bind_ok in H as (mr & _ & H). destruct (frontier_in _ _ _ _ _ _ _ H x Hx) as [-> |[t Ht]]; eapply cvar_solve_constrained; eauto.
Qed.

Lemma robust_frontier_inv conelp chol n mean S w0 costs G A lams rets risks cols : exact_cp conelp -> exact_chol chol ->
  robust_frontier conelp chol n mean S w0 costs G A lams = Ok (rets, risks, cols) ->
  exists L j, 0 <= j <= 1 / 10000000 /\ (chol n (OptModel.symmetrise S) <> None -> j = 0) /\
    is_cholesky n (plus_jitter (OptModel.symmetrise S) j) L /\ lams <> [] /\ (w0 = None \/ costs = None) /\
    List.length cols = List.length lams /\ List.length risks = List.length lams /\
    forall k, (k < List.length lams)%nat ->
      let lam := nth k lams 0 in let x := nth k cols zrow in let t := nth k risks 0 in
      0 <= lam /\ minimises (constrained n G A) (fun w => - dot n mean w + lam * norm2 n (mv n L w)) x /\
      norm2 n (mv n L x) <= t /\ (0 < lam -> t = norm2 n (mv n L x)).
Proof.
  intros Hs Hch H. unfold robust_frontier, robust_init in H. apply bind_ok in H as (L & EL & H).
  destruct (cholesky_pd_l chol n S L Hch EL) as (j & Hj & Hj0 & HL).
  assert (H' : exists hc, (let* rs := mapM (fun lam => if Rltb lam 0 then Err ValueError else robust_socp conelp n mean L hc lam None G A) lams in
     guard (negb (List.length rs =? 0)%nat) ValueError (Ok (map r_return rs, map r_risk rs, map r_weights rs))) = Ok (rets, risks, cols) /\ (hc = true \/ w0 = None \/ costs = None)).
  { destruct w0, costs; try (exists false; solve [auto]). unfold check_shapes in H. apply guard_ok in H as [_ H]. exists true. auto. }
  clear H. destruct H' as (hc & H & Hw). apply bind_ok in H as (rs & Hrs & H). apply guard_ok in H as [Hn H]. injection H as <- <- <-.
  pose proof (OptProofs.mapM_length _ _ _ Hrs) as HLn.
  exists L, j. repeat (split; [assumption|]).
  assert (N0 : lams <> []). { intros ->. destruct rs; [discriminate Hn|discriminate HLn]. }
  split; [exact N0|].
  assert (K : forall k, (k < List.length lams)%nat -> exists r, nth k rs (mkRes zrow 0 0) = r /\ 0 <= nth k lams 0 /\ robust_socp conelp n mean L hc (nth k lams 0) None G A = Ok r).
  { intros k Hk. pose proof (nth_mapM _ _ _ 0 (mkRes zrow 0 0) k Hrs Hk) as E. cbv beta in E. destruct (Rltb_spec (nth k lams 0) 0); [discriminate|].
    eexists. split; [reflexivity|]. split; [lra|exact E]. }
  assert (Hc : hc = false).
  { destruct lams as [|l ls]; [contradiction|]. destruct (K 0%nat) as (r & _ & Hl & E); [simpl; lia|].
    destruct (robust_socp_l _ _ _ _ _ _ _ _ _ _ Hs Hl E) as (-> & _). reflexivity. }
  split; [destruct Hw as [->|Hw]; [discriminate|exact Hw]|]. rewrite !map_length. split; [exact HLn|]. split; [exact HLn|].
  intros k Hk lam x t. destruct (K k Hk) as (r & Er & Hl & E).
  assert (Hk' : (k < List.length rs)%nat) by lia.
  assert (Ex : x = r_weights r). { unfold x. rewrite (nth_map_lt r_weights rs k (mkRes zrow 0 0) zrow Hk'), Er. reflexivity. }
  assert (Et : t = r_risk r). { unfold t. rewrite (nth_map_lt r_risk rs k (mkRes zrow 0 0) 0 Hk'), Er. reflexivity. }
  destruct (robust_socp_l _ _ _ _ _ _ _ _ _ _ Hs Hl E) as (_ & _ & [[M1 _] M2] & M3 & M4 & _). rewrite Ex, Et.
  split; [exact Hl|]. split; [split; [exact M1|]|split; assumption]. intros w' Hw'. apply M2. auto.
Qed.

(** * Inversion of the wrapper's methods *)
Lemma min_variance_inv E w target arg k p : min_variance_at_return E w target arg k = Ok p ->
  exists mu cov m x, moments w mu cov /\ resolve_mats w arg = Ok m /\
    mv_portfolio (e_qp E) (assets w) mu cov (rows_G m) (rows_A m) (iw_of w k) (mic_of w k) (Some target) = Ok x /\
    p = mkPf (d_names (w_dist w)) (vlist (assets w) x) (dot (assets w) (fst (in_reports w mu cov)) x) (vol (assets w) (snd (in_reports w mu cov)) x).
Proof.
  intros H. unfold min_variance_at_return in H. apply bind_ok in H as (mc & Hmc & H). apply bind_ok in H as (m & Hm & H).
  rewrite resolve_costs_eq in H. apply bind_ok in H as (x & Hx & H). injection H as <-. destruct mc as [mu cov].
  exists mu, cov, m, x. split; [apply (require_inv w (mu, cov) Hmc)|]. split; [exact Hm|]. split; [|reflexivity].
  apply bind_ok in Hx as ([P q] & Ht & Hx). unfold mv_portfolio. cbn [fst snd] in *. fold (assets w) in Ht, Hx. rewrite Ht. cbn [bind].
  unfold as_infeasible in Hx. destruct (mv_solve_target _ _ _ _ _ _ _ _) as [y|e]; [exact Hx|]. destruct (runtime_err e); discriminate.
Qed.

Lemma variance_frontier_inv E w num arg k f : variance_frontier E w num arg k = Ok f ->
  exists mu cov m cols, moments w mu cov /\ resolve_mats w arg = Ok m /\
    mv_frontier (e_qp E) (e_lp E) (assets w) mu cov (rows_G m) (rows_A m) (iw_of w k) (mic_of w k) num = Ok cols /\
    f = mkFr (assets w) (map (vlist (assets w)) cols) (map (dot (assets w) (fst (in_reports w mu cov))) cols)
          (map (vol (assets w) (snd (in_reports w mu cov))) cols) "Volatility" (d_names (w_dist w)) (cvar_overlay E w cols).
Proof.
  intros H. unfold variance_frontier in H. apply bind_ok in H as (mc & Hmc & H). apply bind_ok in H as (m & Hm & H).
  rewrite resolve_costs_eq in H. apply bind_ok in H as (cols & Hc & H). destruct mc as [mu cov].
  apply make_frontier_ok in H as [_ ->]. exists mu, cov, m, cols. split; [apply (require_inv w (mu, cov) Hmc)|]. auto.
Qed.

Lemma min_cvar_inv E sim w target alpha arg k p : min_cvar_at_return E sim w target alpha arg k = Ok p ->
  exists T X q mu m x risk, scenario_inputs sim w = Ok (T, X, q, mu) /\ resolve_mats w arg = Ok m /\
    cvar_portfolio (e_lp E) (assets w) T X q alpha (iw_of w k) (pc_of w k) (rows_G m) (rows_A m) (Some target) = Ok x /\
    abs_cvar E (assets w) T X q alpha [x] = Ok risk /\
    p = mkPf (d_names (w_dist w)) (vlist (assets w) x) (dot (assets w) mu x) (hd 0 risk).
Proof.
  intros H. unfold min_cvar_at_return in H. apply bind_ok in H as ([[[T X] q] mu] & Hs & H). apply bind_ok in H as (m & Hm & H).
  rewrite resolve_costs_eq in H. apply bind_ok in H as (x & Hx & H). apply bind_ok in H as (risk & Hr & H). injection H as <-.
  exists T, X, q, mu, m, x, risk. split; [exact Hs|]. split; [exact Hm|]. split; [|split; [exact Hr|reflexivity]].
  unfold cvar_portfolio. fold (assets w) in Hx. unfold cvar_init in *. destruct (turnover (iw_of w k) (pc_of w k)) as [[a b]|].
  - unfold check_shapes in *. apply guard_ok in Hx as [E1 Hx]. apply guard_ok in Hx as [E2 Hx]. rewrite E1, E2. cbn [guard].
    unfold as_infeasible in Hx. destruct (cvar_solve_target _ _ _ _ _ _ _ _ _ _) as [y|e]; [exact Hx|]. destruct (runtime_err e); discriminate.
  - unfold as_infeasible in Hx. destruct (cvar_solve_target _ _ _ _ _ _ _ _ _ _) as [y|e]; [exact Hx|]. destruct (runtime_err e); discriminate.
Qed.

Lemma cvar_frontier_inv E sim lab raw w num alpha enf arg k f : cvar_frontier_w E sim lab raw w num alpha enf arg k = Ok f ->
  exists T X q mu m cols risks cols' ret' risk' vols' raw', scenario_inputs sim w = Ok (T, X, q, mu) /\ resolve_mats w arg = Ok m /\
    OptModel.cvar_frontier (e_lp E) (assets w) T X q alpha (iw_of w k) (pc_of w k) (rows_G m) (rows_A m) num = Ok cols /\
    abs_cvar E (assets w) T X q alpha cols = Ok risks /\
    cvar_post (e_sort E) enf (map (vlist (assets w)) cols) (map (dot (assets w) mu) cols) risks (map (vol (assets w) (scen_cov T X q)) cols)
      = (cols', ret', risk', vols', raw') /\
    f = mkFr (assets w) cols' ret' risk' (lab alpha) (d_names (w_dist w))
          ((if Nat.eqb (assets w) 1 then [] else [("Volatility"%string, vols')]) ++ [(raw alpha, raw')]).
Proof.
  intros H. unfold cvar_frontier_w in H. apply bind_ok in H as ([[[T X] q] mu] & Hs & H). apply bind_ok in H as (m & Hm & H).
  rewrite resolve_costs_eq in H. apply bind_ok in H as (cols & Hc & H). apply bind_ok in H as (risks & Hr & H).
  fold (assets w) in H, Hc, Hr. destruct (cvar_post _ _ _ _ _ _) as [[[[cols' ret'] risk'] vols'] raw'] eqn:EP.
  apply make_frontier_ok in H as [_ ->]. exists T, X, q, mu, m, cols, risks, cols', ret', risk', vols', raw'. repeat (split; [assumption|]). reflexivity.
Qed.

Lemma robust_lambda_inv E w num mx lams rc arg k f lam' : exact_env E ->
  robust_lambda_frontier E w num mx lams rc arg k = Ok (f, lam') ->
  exists mu cov m grid rets risks cols, moments w mu cov /\ resolve_mats w arg = Ok m /\ lambda_grid num mx lams = Ok grid /\
    robust_frontier (e_cone E) (e_chol E) (assets w) mu (match w_unc w with Some u => u | None => cov end) (iw_of w k) (pc_of w k)
       (rows_G m) (rows_A m) grid = Ok (rets, risks, cols) /\
    exists order, order = (if (1 <? List.length risks)%nat then e_sort E risks else seq 0 (List.length risks)) /\
    f = mkFr (assets w) (take [] (map (vlist (assets w)) cols) order) (take 0 (map (dot (assets w) (fst (in_reports w mu cov))) cols) order)
          (take 0 risks order) robust_measure (d_names (w_dist w))
          (map (fun kv => (fst kv, take 0 (snd kv) order)) (robust_overlays E w cov rc cols)) /\
    lam' = take 0 grid order.
Proof.
  intros HE H. unfold robust_lambda_frontier in H. apply bind_ok in H as (mc & Hmc & H). apply bind_ok in H as (m & Hm & H).
  rewrite resolve_costs_eq in H. apply bind_ok in H as (grid & Hg & H). destruct mc as [mu cov]. cbn [fst snd] in H.
  apply bind_ok in H as ([[rets risks] cols] & Hr & H). apply bind_ok in H as (f' & Hf & H). injection H as <- <-.
  apply make_frontier_ok in Hf as [_ ->]. exists mu, cov, m, grid, rets, risks, cols.
  split; [apply (require_inv w (mu, cov) Hmc)|]. repeat (split; [assumption|]). eexists. split; [reflexivity|]. split; reflexivity.
Qed.

Lemma gamma_inv E w gm gs arg k p : solve_robust_gamma E w gm gs arg k = Ok p ->
  exists mu cov m r, moments w mu cov /\ resolve_mats w arg = Ok m /\
    robust_gamma (e_cone E) (e_chol E) (assets w) mu (match w_unc w with Some u => u | None => cov end) (iw_of w k) (pc_of w k)
      (rows_G m) (rows_A m) gm gs = Ok r /\
    p = mkPf (d_names (w_dist w)) (vlist (assets w) (r_weights r)) (r_return r)
          (if Rltb gs (r_risk r * r_risk r) then gs else r_risk r * r_risk r).
Proof.
  intros H. unfold solve_robust_gamma in H. apply bind_ok in H as (mc & Hmc & H). apply bind_ok in H as (m & Hm & H).
  rewrite resolve_costs_eq in H. destruct mc as [mu cov]. cbn [fst snd] in H. apply bind_ok in H as (r & Hr & H). injection H as <-.
  exists mu, cov, m, r. split; [apply (require_inv w (mu, cov) Hmc)|]. auto.
Qed.

Lemma as_take {A} (d : A) l o y : In y (take d l o) -> (forall i, In i o -> (i < List.length l)%nat) -> In y l.
Proof. unfold take. intros H Ho. apply in_map_iff in H as (i & <- & Hi). apply nth_In. auto. Qed.

Lemma abs_cvar_length E N T X p alpha cols risks : abs_cvar E N T X p alpha cols = Ok risks -> List.length risks = List.length cols.
Proof.
  intros H. unfold abs_cvar in H. apply bind_ok in H as (c & Hc & H). injection H as <-. rewrite map_length.
  unfold portfolio_cvar, portfolio_risk in Hc. destruct (negb _); [discriminate|]. cbn [bind] in Hc.
  apply bind_ok in Hc as (p' & _ & Hc). destruct (negb _); [discriminate|]. apply bind_ok in Hc as (p2 & _ & Hc).
  destruct (Nat.eqb _ 0); [discriminate|]. injection Hc as <-. rewrite !map_length. reflexivity.
Qed.

Lemma ordered_lt E (l : list R) : exact_env E ->
  Permutation (if (1 <? List.length l)%nat then e_sort E l else seq 0 (List.length l)) (seq 0 (List.length l)).
Proof.
  intros (_ & _ & _ & _ & Hs). destruct (1 <? List.length l)%nat; [|reflexivity]. apply (proj1 (Hs l)).
Qed.

(** Relaxed risk parity: what a solve returns is constrained, long-only ... *)
Lemma rp_point_of E w mc m rb lam t mt r : exact_env E -> rp_optimizer E w mc m rb lam t mt = Ok r ->
  constrained (assets w) (rows_G m) (rows_A m) (rr_weights r).
Proof.
  intros (_ & _ & Hc & Hch & _) H. destruct (rrp_solve_inv _ _ _ _ _ _ _ _ _ _ _ _ _ Hc Hch H) as (L & bud & j & _ & _ & _ & _ & _ & _ & _ & P & _).
  apply (rp_user _ _ _ _ _ _ _ _ _ _ _ _ _ P).
Qed.

Lemma rp_tries_from solve lower cand n r : rp_tries solve lower cand n = Some (Ok r) -> exists t, solve (Some t) (Some lower) = Ok r.
Proof.
  revert cand. induction n as [|n IH]; intros cand H; simpl in H; [discriminate|]. destruct (solve (Some cand) (Some lower)) as [r'|e] eqn:Es.
  - injection H as <-. eauto.
  - destruct (runtime_err e); [eauto|discriminate].
Qed.
Lemma solve_relaxed_from solve req lower r b : solve_relaxed solve req lower = Ok (r, b) -> exists t mt, solve t mt = Ok r.
Proof.
  intros H. unfold solve_relaxed in H. destruct req as [t|].
  - destruct (rp_tries solve lower t 8) as [[r'|e]|] eqn:Et; cbn [bind] in H; [|discriminate|].
    + injection H as <- <-. destruct (rp_tries_from _ _ _ _ _ Et). eauto.
    + apply bind_ok in H as (r' & Hr & H). injection H as <- <-. eauto.
  - apply bind_ok in H as (r' & Hr & H). injection H as <- <-. eauto.
Qed.

Section AllMethods.
Context (E : env) (w : wrapper) (c : constraints) (arg : cons_arg) (k : option costs).
Hypothesis HE : exact_env E.
Hypothesis HC : constructed w c.
Let N := assets w.
Let ok l := List.length l = N /\ satisfies (effective c arg) N l.

Lemma ok_vlist m x : resolve_mats w arg = Ok m -> constrained N (rows_G m) (rows_A m) x -> ok (vlist N x).
Proof.
  intros Hm Hx. split; [apply to_list_length|]. apply (resolve_allowed w c arg m x (constructed_good w c HC) Hm Hx).
Qed.

Lemma all_min_variance target p : min_variance_at_return E w target arg k = Ok p -> ok (p_weights p).
Proof.
  intros H. apply min_variance_inv in H as (mu & cov & m & x & _ & Hm & Hx & ->). apply (ok_vlist m x Hm).
  unfold mv_portfolio in Hx. apply bind_ok in Hx as ([P q] & _ & Hx). apply (mv_solve_constrained _ _ _ _ _ _ _ _ _ (proj1 HE) Hx).
Qed.
Lemma all_variance_frontier num f : variance_frontier E w num arg k = Ok f -> forall col, In col (f_cols f) -> ok col.
Proof.
  intros H. apply variance_frontier_inv in H as (mu & cov & m & cols & _ & Hm & Hx & ->). cbn [f_cols]. intros col Hcol.
  apply in_map_iff in Hcol as (x & <- & Hin). apply (ok_vlist m x Hm). eapply mv_frontier_constrained; eauto. apply HE.
Qed.
Lemma all_min_cvar sim target alpha p : min_cvar_at_return E sim w target alpha arg k = Ok p -> ok (p_weights p).
Proof.
  intros H. apply min_cvar_inv in H as (T & X & q & mu & m & x & risk & _ & Hm & Hx & _ & ->). apply (ok_vlist m x Hm).
  unfold cvar_portfolio in Hx. apply cvar_init_inv in Hx as [Hx _]. eapply cvar_solve_constrained; eauto. apply HE.
Qed.
Lemma all_cvar_frontier sim lab raw num alpha enf f : cvar_frontier_w E sim lab raw w num alpha enf arg k = Ok f ->
  forall col, In col (f_cols f) -> ok col.
Proof.
  intros H. apply cvar_frontier_inv in H as (T & X & q & mu & m & cols & risks & cols' & ret' & risk' & vols' & raw' & _ & Hm & Hx & Hr & EP & ->).
  cbn [f_cols]. intros col Hcol. apply abs_cvar_length in Hr.
  unfold cvar_post in EP. injection EP as <- _ _ _ _.
  assert (Hin : In col (map (vlist N) cols)).
  { eapply as_take; [exact Hcol|]. intros i Hi. destruct HE as (_ & _ & _ & _ & Hs). destruct (Hs (map (dot (assets w) mu) cols)) as [Hp _].
    eapply Permutation_in in Hi; [|exact Hp]. apply in_seq in Hi. rewrite !map_length in *. lia. }
  apply in_map_iff in Hin as (x & <- & Hx'). apply (ok_vlist m x Hm). eapply cvar_frontier_constrained; eauto. apply HE.
Qed.
Lemma all_robust num mx lams rc f lam' : robust_lambda_frontier E w num mx lams rc arg k = Ok (f, lam') ->
  forall col, In col (f_cols f) -> ok col.
Proof.
  intros H. apply robust_lambda_inv in H as (mu & cov & m & grid & rets & risks & cols & _ & Hm & Hg & Hr & order & -> & -> & _); [|exact HE].
  cbn [f_cols]. intros col Hcol. destruct (robust_frontier_inv _ _ _ _ _ _ _ _ _ _ _ _ _ (proj1 (proj2 (proj2 HE))) (proj1 (proj2 (proj2 (proj2 HE)))) Hr) as (L & j & _ & _ & _ & _ & _ & L1 & L2 & Hk).
  assert (Hin : In col (map (vlist N) cols)).
  { eapply as_take; [exact Hcol|]. intros i Hi. pose proof (ordered_lt E risks HE) as P. eapply Permutation_in in Hi; [|exact P]. apply in_seq in Hi. rewrite map_length. lia. }
  apply in_map_iff in Hin as (x & <- & Hx'). apply (ok_vlist m x Hm). apply (In_nth _ _ zrow) in Hx' as (i & Hi & <-).
  destruct (Hk i) as (_ & [M _] & _); [lia|exact M].
Qed.
Lemma all_gamma gm gs p : solve_robust_gamma E w gm gs arg k = Ok p -> ok (p_weights p).
Proof.
  intros H. apply gamma_inv in H as (mu & cov & m & r & _ & Hm & Hr & ->). apply (ok_vlist m _ Hm).
  unfold robust_gamma, robust_init in Hr. apply bind_ok in Hr as (L & _ & Hr).
  assert (H' : exists hc, (if Rltb gm 0 || Rltb gs 0 then Err ValueError else robust_socp (e_cone E) N mu L hc gm (Some gs) (rows_G m) (rows_A m)) = Ok r).
  { destruct (iw_of w k), (pc_of w k); try (eexists; exact Hr). unfold check_shapes in Hr. apply guard_ok in Hr as [_ Hr]. eexists; exact Hr. }
  destruct H' as [hc H]. destruct (Rltb_spec gm 0) as [|Hl]; [discriminate|]. destruct (Rltb_spec gs 0) as [|Hg]; [discriminate|]. simpl in H.
  destruct (robust_socp_l _ _ _ _ _ _ _ _ _ _ (proj1 (proj2 (proj2 HE))) (Rnot_lt_le _ _ Hl) H) as (_ & _ & [[M _] _] & _). exact M.
Qed.
Lemma all_rrp lam mlt target rb p g : relaxed_risk_parity E w lam mlt target rb arg k = Ok (p, g) -> ok (p_weights p).
Proof.
  intros H. unfold relaxed_risk_parity in H. apply bind_ok in H as (mc & Hmc & H). apply bind_ok in H as (m & Hm & H).
  apply bind_ok in H as (base & Hb & H). cbv zeta in H. apply bind_ok in H as ([[req sol] warned] & Hs & H). injection H as <- _.
  cbn [p_weights]. apply (ok_vlist m _ Hm).
  assert (D : exists lam' t mt, rp_optimizer E w mc m rb lam' t mt = Ok sol).
  { destruct target as [t|]; [|destruct mlt as [q|]].
    - apply bind_ok in Hs as ([s b] & Hs & E1). injection E1 as _ <- _. destruct (solve_relaxed_from _ _ _ _ _ Hs) as (t' & mt & Hx). eauto.
    - destruct (Rltb q 0); [discriminate|]. apply bind_ok in Hs as ([s b] & Hs & E1). injection E1 as _ <- _. destruct (solve_relaxed_from _ _ _ _ _ Hs) as (t' & mt & Hx). eauto.
    - destruct (Reqb lam 0); [|discriminate]. injection Hs as _ <- _. eauto. }
  destruct D as (lam' & t & mt & D). eapply rp_point_of; eauto.
Qed.
Lemma all_rrp_frontier num mx lam mults inc rb f meta : relaxed_risk_parity_frontier E w num mx lam mults inc rb arg k = Ok (f, meta) ->
  forall col, In col (f_cols f) -> ok col.
Proof.
  intros H. unfold relaxed_risk_parity_frontier in H. apply bind_ok in H as (mc & Hmc & H). destruct (Rltb lam 0); [discriminate|].
  apply bind_ok in H as (m & Hm & H). apply bind_ok in H as (base & Hb & H). cbv zeta in H. apply bind_ok in H as (grid & Hg & H).
  apply bind_ok in H as (pts & Hp & H). apply bind_ok in H as (f' & Hf & H). injection H as <- _. apply make_frontier_ok in Hf as [_ ->]. cbn [f_cols].
  intros col Hcol. apply in_map_iff in Hcol as (x & <- & Hx). apply (ok_vlist m x Hm).
  assert (Hpts : forall y, In y pts -> constrained N (rows_G m) (rows_A m) (fst y)).
  { intros y Hy. apply mapM_ok_forall2 in Hp. clear - Hp Hy HE. revert Hy. induction Hp as [|a b la lb Hab Hp IH]; intros Hy; [destruct Hy|].
    destruct Hy as [Hy|Hy]; [subst y|exact (IH Hy)].
    apply bind_ok in Hab as ([s b'] & Hs & E1). injection E1 as E1. subst b. destruct (solve_relaxed_from _ _ _ _ _ Hs) as (t' & mt & Hx').
    exact (rp_point_of E w mc m rb _ _ _ _ HE Hx'). }
  apply in_map_iff in Hx as (y & <- & Hy). destruct inc; [destruct Hy as [<-|Hy]|]; try (apply Hpts; exact Hy).
  eapply rp_point_of; eauto.
Qed.
End AllMethods.
