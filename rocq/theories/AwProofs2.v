From Coq Require Import String Classical_Prop.
From Verif Require Import RBase QpBase SortLib RiskModel RiskSpec RiskProofs ConsModel ConsSpec
  MomModel DistModel DistSpec DistProofs DistProofs2 DistProofs3 ConvModel OptModel OptSpec OptProofs OptProofs2 OptProofs3 OptProofs4 OptProofs5 FrModel FrSpec FrProofs FrProofs2 FrProperties
  WrModel WrSpec WrProofs WrProofs2 AxSpec AxProofs AxProofs2 AxProofs3 AxProperties AwSpec AwProofs.
Open Scope R_scope.
Open Scope list_scope.

(** * Every optimiser's output is constrained up to [d] *)
Lemma mv_solve_near solve n mean P q G A t x d e : approx_qp d e solve -> mv_solve_target solve n mean P q G A t = Ok x ->
  near_constrained d n G A x /\ near_meets d n mean t x.
Proof. intros Hs H. destruct (mv_near_spec solve n mean P q G A t d e x Hs H) as (r & _ & _ & F & M & _). auto. Qed.

Lemma mv_frontier_near_c solve lp n mean cov G A w0 lam num cols d e : approx_qp d e solve ->
  mv_frontier solve lp n mean cov G A w0 lam num = Ok cols -> forall x, In x cols -> near_constrained d n G A x.
Proof.
  intros Hs H x Hx. unfold mv_frontier in H. apply bind_ok in H as ([P q] & _ & H). apply bind_ok in H as (first & Hf & H).
  apply bind_ok in H as (mr & _ & H). destruct (frontier_in _ _ _ _ _ _ _ H x Hx) as [-> |[t Ht]]; eapply mv_solve_near; eauto.
Qed.

Lemma cvar_solve_near lp N T X p alpha tc G A t x d e : approx_cp d e lp -> cvar_solve_target lp N T X p alpha tc G A t = Ok x ->
  near_constrained d N G A x /\ near_meets d N (cvar_mean T p X) t x.
Proof.
  intros Hs H. unfold cvar_solve_target in H. destruct (lp _) as [y|] eqn:E; [|discriminate]. injection H as <-.
  apply Hs in E as [Hf _]. apply near_cvar in Hf as [Hp Ht]. split; [apply Hp|exact Ht].
Qed.
Lemma cvar_frontier_near_c lp N T X p alpha w0 costs G A num cols d e : approx_cp d e lp ->
  OptModel.cvar_frontier lp N T X p alpha w0 costs G A num = Ok cols -> forall x, In x cols -> near_constrained d N G A x.
Proof.
  intros Hs H x Hx. unfold OptModel.cvar_frontier in H. apply cvar_init_inv in H as [H _]. apply bind_ok in H as (first & Hf & H).
  apply bind_ok in H as (mr & _ & H). destruct (frontier_in _ _ _ _ _ _ _ H x Hx) as [-> |[t Ht]]; eapply cvar_solve_near; eauto.
Qed.

Lemma robust_frontier_near conelp chol n mean S w0 costs G A lams rets risks cols d e : approx_cp d e conelp -> exact_chol chol ->
  robust_frontier conelp chol n mean S w0 costs G A lams = Ok (rets, risks, cols) ->
  exists L j, 0 <= j <= 1 / 10000000 /\ (chol n (OptModel.symmetrise S) <> None -> j = 0) /\
    is_cholesky n (plus_jitter (OptModel.symmetrise S) j) L /\ lams <> [] /\ (w0 = None \/ costs = None) /\
    List.length cols = List.length lams /\ List.length risks = List.length lams /\
    forall k, (k < List.length lams)%nat ->
      let lam := nth k lams 0 in let x := nth k cols zrow in let t := nth k risks 0 in
      0 <= lam /\ near_constrained d n G A x /\
      within (e + lam * d) (constrained n G A) (fun w => - dot n mean w + lam * norm2 n (mv n L w)) x /\
      norm2 n (mv n L x) <= t + d.
Proof.
  intros Hs Hch H. unfold robust_frontier, robust_init in H. apply bind_ok in H as (L & EL & H).
  destruct (cholesky_pd_l chol n S L Hch EL) as (j & Hj & Hj0 & HL).
  assert (H' : exists hc, (let* rs := mapM (fun lam => if Rltb lam 0 then Err ValueError else robust_socp conelp n mean L hc lam None G A) lams in
     guard (negb (List.length rs =? 0)%nat) ValueError (Ok (map r_return rs, map r_risk rs, map r_weights rs))) = Ok (rets, risks, cols) /\ (hc = true \/ w0 = None \/ costs = None)).
  { destruct w0, costs; try (exists false; solve [auto]). unfold check_shapes in H. apply guard_ok in H as [_ H]. exists true. auto. }
  clear H. destruct H' as (hc & H & Hw). apply bind_ok in H as (rs & Hrs & H). apply guard_ok in H as [Hn H]. injection H as <- <- <-.
  pose proof (OptProofs.mapM_length _ _ _ Hrs) as HLn.
  exists L, j. repeat (split; [assumption|]).
  assert (N0 : lams <> []). { intros ->. destruct rs; [discriminate Hn|discriminate HLn]. }
  split; [exact N0|].
  assert (K : forall k, (k < List.length lams)%nat -> exists r, nth k rs (mkRes zrow 0 0) = r /\ 0 <= nth k lams 0 /\ robust_socp conelp n mean L hc (nth k lams 0) None G A = Ok r).
  { intros k Hk. pose proof (nth_mapM _ _ _ 0 (mkRes zrow 0 0) k Hrs Hk) as E. cbv beta in E. destruct (Rltb_spec (nth k lams 0) 0); [discriminate|].
    eexists. split; [reflexivity|]. split; [lra|exact E]. }
  assert (Hc : hc = false).
  { destruct lams as [|l ls]; [contradiction|]. destruct (K 0%nat) as (r & _ & Hl & E); [simpl; lia|].
    destruct (robust_near _ _ _ _ _ _ _ _ _ _ _ _ Hs Hl E) as (-> & _). reflexivity. }
  split; [destruct Hw as [->|Hw]; [discriminate|exact Hw]|]. rewrite !map_length. split; [exact HLn|]. split; [exact HLn|].
  intros k Hk lam x t. destruct (K k Hk) as (r & Er & Hl & E).
  assert (Hk' : (k < List.length rs)%nat) by lia.
  assert (Ex : x = r_weights r). { unfold x. rewrite (nth_map_lt r_weights rs k (mkRes zrow 0 0) zrow Hk'), Er. reflexivity. }
  assert (Et : t = r_risk r). { unfold t. rewrite (nth_map_lt r_risk rs k (mkRes zrow 0 0) 0 Hk'), Er. reflexivity. }
  destruct (robust_near _ _ _ _ _ _ _ _ _ _ _ _ Hs Hl E) as (_ & _ & M0 & M2 & M3 & _). rewrite Ex, Et.
  split; [exact Hl|]. split; [exact M0|]. split; [|exact M3]. intros w' Hw'. apply M2. auto.
Qed.

Lemma rp_near_of E w mc m rb lam t mt r d e : 0 <= d -> approx_env d e E -> rp_optimizer E w mc m rb lam t mt = Ok r ->
  near_constrained d (assets w) (rows_G m) (rows_A m) (rr_weights r).
Proof.
  intros D (_ & _ & Hc & Hch & _) H. destruct (rrp_inexact _ _ _ _ _ _ _ _ _ _ _ _ _ _ _ Hc Hch D H) as (L & bud & j & _ & _ & _ & _ & P & _).
  apply (nr_user _ _ _ _ _ _ _ _ _ _ _ _ _ _ _ P).
Qed.

(** The inversion of [robust_lambda_frontier] needs nothing of the solvers. *)
Lemma robust_lambda_inv' E w num mx lams rc arg k f lam' :
  robust_lambda_frontier E w num mx lams rc arg k = Ok (f, lam') ->
  exists mu cov m grid rets risks cols, moments w mu cov /\ resolve_mats w arg = Ok m /\ lambda_grid num mx lams = Ok grid /\
    robust_frontier (e_cone E) (e_chol E) (assets w) mu (match w_unc w with Some u => u | None => cov end) (iw_of w k) (pc_of w k)
       (rows_G m) (rows_A m) grid = Ok (rets, risks, cols) /\
    exists order, order = (if (1 <? List.length risks)%nat then e_sort E risks else seq 0 (List.length risks)) /\
    f = mkFr (assets w) (take [] (map (vlist (assets w)) cols) order) (take 0 (map (dot (assets w) (fst (in_reports w mu cov))) cols) order)
          (take 0 risks order) robust_measure (d_names (w_dist w))
          (map (fun kv => (fst kv, take 0 (snd kv) order)) (robust_overlays E w cov rc cols)) /\
    lam' = take 0 grid order.
Proof.
  intros H. unfold robust_lambda_frontier in H. apply bind_ok in H as (mc & Hmc & H). apply bind_ok in H as (m & Hm & H).
  rewrite resolve_costs_eq in H. apply bind_ok in H as (grid & Hg & H). destruct mc as [mu cov]. cbn [fst snd] in H.
  apply bind_ok in H as ([[rets risks] cols] & Hr & H). apply bind_ok in H as (f' & Hf & H). injection H as <- <-.
  apply make_frontier_ok in Hf as [_ ->]. exists mu, cov, m, grid, rets, risks, cols.
  split; [apply (require_inv w (mu, cov) Hmc)|]. repeat (split; [assumption|]). eexists. split; [reflexivity|]. split; reflexivity.
Qed.
Lemma ordered_perm d e E (l : list R) : approx_env d e E ->
  Permutation (if (1 <? List.length l)%nat then e_sort E l else seq 0 (List.length l)) (seq 0 (List.length l)).
Proof. intros (_ & _ & _ & _ & Hs). destruct (1 <? List.length l)%nat; [|reflexivity]. apply (proj1 (Hs l)). Qed.

Section AllMethods.
Context (E : env) (w : wrapper) (c : constraints) (arg : cons_arg) (k : option costs) (d e : R).
Hypothesis HE : approx_env d e E.
Hypothesis HC : constructed w c.
Hypothesis HD : 0 <= d < 1.
Let N := assets w.
Let ok l := List.length l = N /\ near_satisfies d (effective c arg) N l.

Lemma near_vlist m x : resolve_mats w arg = Ok m -> near_constrained d N (rows_G m) (rows_A m) x -> ok (vlist N x).
Proof.
  intros Hm Hx. split; [apply to_list_length|]. apply (near_resolve d w c arg m x HD (constructed_good w c HC) Hm Hx).
Qed.

Lemma near_min_variance target p : min_variance_at_return E w target arg k = Ok p -> ok (p_weights p).
Proof.
  intros H. apply min_variance_inv in H as (mu & cov & m & x & _ & Hm & Hx & ->). apply (near_vlist m x Hm).
  unfold mv_portfolio in Hx. apply bind_ok in Hx as ([P q] & _ & Hx). apply (mv_solve_near _ _ _ _ _ _ _ _ _ _ _ (proj1 HE) Hx).
Qed.
Lemma near_variance_frontier num f : variance_frontier E w num arg k = Ok f -> forall col, In col (f_cols f) -> ok col.
Proof.
  intros H. apply variance_frontier_inv in H as (mu & cov & m & cols & _ & Hm & Hx & ->). cbn [f_cols]. intros col Hcol.
  apply in_map_iff in Hcol as (x & <- & Hin). apply (near_vlist m x Hm). eapply mv_frontier_near_c; eauto. apply HE.
Qed.
Lemma near_min_cvar sim target alpha p : min_cvar_at_return E sim w target alpha arg k = Ok p -> ok (p_weights p).
Proof.
  intros H. apply min_cvar_inv in H as (T & X & q & mu & m & x & risk & _ & Hm & Hx & _ & ->). apply (near_vlist m x Hm).
  unfold cvar_portfolio in Hx. apply cvar_init_inv in Hx as [Hx _]. eapply cvar_solve_near; eauto. apply HE.
Qed.
Lemma near_cvar_frontier sim lab raw num alpha enf f : cvar_frontier_w E sim lab raw w num alpha enf arg k = Ok f ->
  forall col, In col (f_cols f) -> ok col.
Proof.
  intros H. apply cvar_frontier_inv in H as (T & X & q & mu & m & cols & risks & cols' & ret' & risk' & vols' & raw' & _ & Hm & Hx & Hr & EP & ->).
  cbn [f_cols]. intros col Hcol. apply abs_cvar_length in Hr.
  unfold cvar_post in EP. injection EP as <- _ _ _ _.
  assert (Hin : In col (map (vlist N) cols)).
  { eapply as_take; [exact Hcol|]. intros i Hi. destruct HE as (_ & _ & _ & _ & Hs). destruct (Hs (map (dot (assets w) mu) cols)) as [Hp _].
    eapply Permutation_in in Hi; [|exact Hp]. apply in_seq in Hi. rewrite !map_length in *. lia. }
  apply in_map_iff in Hin as (x & <- & Hx'). apply (near_vlist m x Hm). eapply cvar_frontier_near_c; eauto. apply HE.
Qed.
Lemma near_robust_w num mx lams rc f lam' : robust_lambda_frontier E w num mx lams rc arg k = Ok (f, lam') ->
  forall col, In col (f_cols f) -> ok col.
Proof.
  intros H. apply robust_lambda_inv' in H as (mu & cov & m & grid & rets & risks & cols & _ & Hm & Hg & Hr & order & -> & -> & _).
  cbn [f_cols]. intros col Hcol. destruct (robust_frontier_near _ _ _ _ _ _ _ _ _ _ _ _ _ _ _ (proj1 (proj2 (proj2 HE))) (proj1 (proj2 (proj2 (proj2 HE)))) Hr) as (L & j & _ & _ & _ & _ & _ & L1 & L2 & Hk).
  assert (Hin : In col (map (vlist N) cols)).
  { eapply as_take; [exact Hcol|]. intros i Hi. pose proof (ordered_perm d e E risks HE) as P. eapply Permutation_in in Hi; [|exact P]. apply in_seq in Hi. rewrite map_length. lia. }
  apply in_map_iff in Hin as (x & <- & Hx'). apply (near_vlist m x Hm). apply (In_nth _ _ zrow) in Hx' as (i & Hi & <-).
  destruct (Hk i) as (_ & M & _); [lia|exact M].
Qed.
Lemma near_gamma gm gs p : solve_robust_gamma E w gm gs arg k = Ok p -> ok (p_weights p).
Proof.
  intros H. apply gamma_inv in H as (mu & cov & m & r & _ & Hm & Hr & ->). apply (near_vlist m _ Hm).
  destruct (robust_gamma_inexact _ _ _ _ _ _ _ _ _ _ _ _ _ _ (proj1 (proj2 (proj2 HE))) (proj1 (proj2 (proj2 (proj2 HE)))) Hr)
    as (_ & _ & L & j & _ & _ & M & _). exact M.
Qed.
Lemma near_rrp_w lam mlt target rb p g : relaxed_risk_parity E w lam mlt target rb arg k = Ok (p, g) -> ok (p_weights p).
Proof.
  intros H. unfold relaxed_risk_parity in H. apply bind_ok in H as (mc & Hmc & H). apply bind_ok in H as (m & Hm & H).
  apply bind_ok in H as (base & Hb & H). cbv zeta in H. apply bind_ok in H as ([[req sol] warned] & Hs & H). injection H as <- _.
  cbn [p_weights]. apply (near_vlist m _ Hm).
  assert (D : exists lam' t mt, rp_optimizer E w mc m rb lam' t mt = Ok sol).
  { destruct target as [t|]; [|destruct mlt as [q|]].
    - apply bind_ok in Hs as ([s b] & Hs & E1). injection E1 as _ <- _. destruct (solve_relaxed_from _ _ _ _ _ Hs) as (t' & mt & Hx). eauto.
    - destruct (Rltb q 0); [discriminate|]. apply bind_ok in Hs as ([s b] & Hs & E1). injection E1 as _ <- _. destruct (solve_relaxed_from _ _ _ _ _ Hs) as (t' & mt & Hx). eauto.
    - destruct (Reqb lam 0); [|discriminate]. injection Hs as _ <- _. eauto. }
  destruct D as (lam' & t & mt & D). eapply rp_near_of; eauto. apply HD.
Qed.
Lemma near_rrp_frontier num mx lam mults inc rb f meta : relaxed_risk_parity_frontier E w num mx lam mults inc rb arg k = Ok (f, meta) ->
  forall col, In col (f_cols f) -> ok col.
Proof.
  intros H. unfold relaxed_risk_parity_frontier in H. apply bind_ok in H as (mc & Hmc & H). destruct (Rltb lam 0); [discriminate|].
  apply bind_ok in H as (m & Hm & H). apply bind_ok in H as (base & Hb & H). cbv zeta in H. apply bind_ok in H as (grid & Hg & H).
  apply bind_ok in H as (pts & Hp & H). apply bind_ok in H as (f' & Hf & H). injection H as <- _. apply make_frontier_ok in Hf as [_ ->]. cbn [f_cols].
  intros col Hcol. apply in_map_iff in Hcol as (x & <- & Hx). apply (near_vlist m x Hm).
  assert (Hpts : forall y, In y pts -> near_constrained d N (rows_G m) (rows_A m) (fst y)).
  { intros y Hy. apply mapM_ok_forall2 in Hp. clear - Hp Hy HE HD. revert Hy. induction Hp as [|a b la lb Hab Hp IH]; intros Hy; [destruct Hy|].
    destruct Hy as [Hy|Hy]; [subst y|exact (IH Hy)].
    apply bind_ok in Hab as ([s b'] & Hs & E1). injection E1 as E1. subst b. destruct (solve_relaxed_from _ _ _ _ _ Hs) as (t' & mt & Hx').
    exact (rp_near_of E w mc m rb _ _ _ _ d e (proj1 HD) HE Hx'). }
  apply in_map_iff in Hx as (y & <- & Hy). destruct inc; [destruct Hy as [<-|Hy]|]; try (apply Hpts; exact Hy).
  cbn [fst]. eapply rp_near_of; eauto. apply HD.
Qed.
End AllMethods.
