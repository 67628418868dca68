From Coq Require Import String Classical_Prop.
From Verif Require Import RBase QpBase SortLib RiskModel RiskSpec RiskProofs RiskProperties ConsModel ConsSpec ConsProperties
  MomModel DistModel DistSpec DistProofs DistProofs2 DistProofs3 ConvModel ConvProperties ProjProofs OptModel OptSpec OptProofs OptProofs2 OptProofs3 OptProofs4 OptProperties FrModel FrSpec FrProofs FrProofs2 FrProofs3 FrProofs4 FrProperties WrModel WrSpec WrProofs WrProofs2 WrProofs3.
Open Scope R_scope.
Open Scope list_scope.

Lemma Forall2_nth {A B} (P : A -> B -> Prop) l m da db : Forall2 P l m -> forall i, (i < List.length l)%nat -> P (nth i l da) (nth i m db).
Proof. induction 1 as [|a b l m Hab F IH]; intros i Hi; [simpl in Hi; lia|]. destruct i as [|i]; [exact Hab|]. simpl in *. apply IH. lia. Qed.

(** * Columns as reported *)
Definition cols_of (N : nat) (cols : list vec) : list vec := map wts (map (vlist N) cols).
Lemma cols_agree N cols k : agree N (nth k cols zrow) (nth k (cols_of N cols) zrow).
Proof.
  unfold cols_of. destruct (Nat.lt_ge_cases k (List.length cols)) as [L|L].
  - rewrite map_map, (nth_map_lt (fun x => wts (vlist N x)) cols k zrow zrow L). apply agree_wts.
  - rewrite !nth_overflow by (rewrite ?map_length; exact L). intros i _. reflexivity.
Qed.
Lemma agree_sym N x y : agree N x y -> agree N y x.
Proof. intros H i Hi. symmetry. apply H. exact Hi. Qed.

Lemma eff_transfer N (F F' : vec -> Prop) cost ret mr num cols :
  (forall y, F y <-> F' y) -> (forall x y, agree N x y -> F' x -> F' y) ->
  (forall x y, agree N x y -> cost x = cost y) -> (forall x y, agree N x y -> ret x = ret y) ->
  efficient_frontier F cost ret mr num cols -> efficient_frontier F' cost ret mr num (cols_of N cols).
Proof.
  intros HF HFa Hc Hr [E1 E2 E3 E4 E5].
  assert (C : forall k, cost (nth k (cols_of N cols) zrow) = cost (nth k cols zrow)) by (intros k; symmetry; apply Hc, cols_agree).
  assert (Rr : forall k, ret (nth k (cols_of N cols) zrow) = ret (nth k cols zrow)) by (intros k; symmetry; apply Hr, cols_agree).
  constructor.
  - unfold cols_of. rewrite !map_length. exact E1.
  - apply (minimises_agree N F' cost _ _ HFa Hc (cols_agree N cols 0)). exact (minimises_iff F F' cost _ HF E2).
  - intros k Hk. rewrite Rr. apply (minimises_agree N _ cost (nth k cols zrow)).
    + intros x y E [A B]. split; [exact (HFa x y E A)|rewrite <- (Hr x y E); exact B].
    + exact Hc.
    + apply cols_agree.
    + apply (minimises_iff (fun w => F w /\ target_k (ret (nth 0 cols zrow)) mr num k <= ret w)); [|exact (E3 k Hk)].
      intros y. rewrite HF. reflexivity.
  - intros j k Hjk. rewrite !C. apply E4. exact Hjk.
  - rewrite Rr. exact E5.
Qed.
Lemma convex_transfer N cost cols : (forall x y, agree N x y -> cost x = cost y) -> convex_frontier cost cols -> convex_frontier cost (cols_of N cols).
Proof.
  intros Hc H k Hk. unfold cols_of in Hk. rewrite !map_length in Hk.
  rewrite <- !(fun k => Hc _ _ (cols_agree N cols k)). apply H. exact Hk.
Qed.

Lemma describes_map N names alt meas cols ret risk : (forall x y, agree N x y -> ret x = ret y) -> (forall x y, agree N x y -> risk x = risk y) ->
  describes (mkFr N (map (vlist N) cols) (map ret cols) (map risk cols) meas names alt) ret risk.
Proof.
  intros Hr Hk. split; cbn [f_ret f_risk f_cols]; rewrite map_map; apply map_ext; intros x.
  - apply Hr, agree_wts.
  - apply Hk, agree_wts.
Qed.

Lemma vol_agree n P x y : agree n x y -> vol n P x = vol n P y.
Proof. intros E. unfold vol. f_equal. apply quad_ext_n. exact E. Qed.

(** * CVaR overlay *)
Lemma stored_prob w c T X p : good_wrapper w c -> stored_scen w = Some (T, X, p) -> has_scenarios w T X p /\ prob_vec T p.
Proof.
  intros G H. unfold stored_scen in H. fold (assets w) in H. pose proof (vd_scen _ (gw_dist w c G)) as V.
  destruct (d_scen (w_dist w)) as [S|] eqn:Es; [|discriminate]. destruct (d_probs (w_dist w)) as [pr|] eqn:Ep; [|contradiction].
  destruct (d_T (w_dist w)) as [T0|]; [|contradiction]. destruct V as (HT & [f HX] & _ & _ & q & Hq & Pq). injection H as <- <- <-.
  rewrite (proj1 HX). cbn [hd]. destruct (clean_probs_prob pr T0 q Hq Pq) as [_ E2]. split; [|exact E2].
  exists S, pr. rewrite (proj1 HX). auto.
Qed.
Lemma overlay_l E w c cols lab v : exact_env E -> good_wrapper w c -> In (lab, v) (cvar_overlay E w cols) ->
  lab = "CVaR (95%)"%string /\ cvar95_column w (map (vlist (assets w)) cols) v.
Proof.
  intros HE G H. unfold cvar_overlay in H. destruct (stored_scen w) as [[[T X] p]|] eqn:Es; [|destruct H].
  destruct (stored_prob w c T X p G Es) as [Hs Hp]. fold (assets w) in H.
  destruct (portfolio_cvar _ _ _ _ _ _) as [cs|] eqn:Ec; [|destruct H]. destruct H as [H|[]]. injection H as <- <-. split; [reflexivity|].
  exists T, X, p. split; [exact Hs|]. split; [exact Hp|].
  pose proof (prob_vec_list T p Hp) as Hv.
  assert (Hpo : p_ok (Some (vlist T p)) (List.length (scen_rows (assets w) T X))) by (simpl; rewrite scen_rows_len; exact Hv).
  pose proof (cvar_is_rockafellar_uryasev (e_sort E) _ _ _ _ _ _ (proj2 (proj2 (proj2 (proj2 HE)))) Hpo Ec) as F.
  cbn [eff_p eff_conf risk_pnl] in F. replace (1 - 95 / 100) with (5 / 100) in F by lra.
  clear Ec. revert cs F. induction cols as [|x cols IH]; intros cs F; inversion F; subst; simpl; constructor.
  - exists y. split; [|reflexivity]. rewrite pnl_scen in H1. apply (cvar_of_agree _ _ _ _ _ x); [apply agree_wts|exact H1].
  - apply IH. assumption.
Qed.

(** * Mean-variance frontier *)
Lemma variance_frontier_l E w c arg k num f mu cov : exact_env E -> complete_qp (e_qp E) -> constructed w c -> in_force c arg (assets w) ->
  moments w mu cov -> (forall kk l, k = Some kk -> k_mic kk = Some l -> List.length l = assets w) ->
  let N := assets w in
  let F y := allowed (effective c arg) N y in
  let cost := mv_cost N cov (iw_of w k) (mic_of w k) in
  attained F N mu cost ->
  variance_frontier E w num arg k = Ok f ->
  f_n f = N /\ f_names f = d_names (w_dist w) /\ f_measure f = "Volatility"%string /\
  describes f (dot N (fst (in_reports w mu cov))) (vol N (snd (in_reports w mu cov))) /\
  (forall lab v, In (lab, v) (f_alt f) -> lab = "CVaR (95%)"%string /\ cvar95_column w (f_cols f) v) /\
  exists mr, is_max F (dot N mu) mr /\ minimises F cost (wts (nth 0 (f_cols f) [])) /\
    ((frontier_collapses num (dot N mu (wts (nth 0 (f_cols f) []))) mr /\ List.length (f_cols f) = 1%nat) \/
     (efficient_frontier F cost (dot N mu) mr (Z.to_nat num) (map wts (f_cols f)) /\
      (psd N cov -> (forall l x, mic_of w k = Some l -> In x l -> 0 <= x) -> convex_frontier cost (map wts (f_cols f))))).
Proof.
  intros HE Hcq HC HF Hmc Hlen N F cost Hat H. pose proof (constructed_good w c HC) as G.
  apply variance_frontier_inv in H as (mu' & cov' & m & cols & Hmc' & Hm & Hx & ->).
  apply require_ok in Hmc, Hmc'. rewrite Hmc in Hmc'. injection Hmc' as <- <-. cbn [f_n f_names f_measure f_alt f_cols].
  split; [reflexivity|]. split; [reflexivity|]. split; [reflexivity|]. split; [apply describes_map; [apply dot_agree|apply vol_agree]|].
  split; [intros lab v; apply overlay_l with (c := c); assumption|].
  assert (HL : forall l, mic_of w k = Some l -> iw_of w k <> None -> List.length l = N) by (intros l El _; exact (mic_length w c k l G Hlen El)).
  assert (HFi : forall y, constrained N (rows_G m) (rows_A m) y <-> F y).
  { intros y. unfold F, N. apply (resolve_in_force w c arg m y G HF Hm). }
  assert (Hat' : attained (constrained N (rows_G m) (rows_A m)) N mu cost).
  { intros t (y & Hy & Ht). destruct (Hat t) as [z Hz]; [exists y; split; [apply HFi; exact Hy|exact Ht]|]. exists z.
    apply (minimises_iff (fun w => F w /\ meets N mu t w)); [|exact Hz]. intros u. rewrite HFi. reflexivity. }
  destruct (mv_frontier_efficient (e_qp E) (e_lp E) N mu cov _ _ _ _ num cols (proj1 HE) (proj1 (proj2 HE)) HL Hcq Hat' Hx) as (mr & Hmax & Hfirst & D).
  assert (A0 : agree N (nth 0 cols zrow) (wts (nth 0 (map (vlist N) cols) []))).
  { pose proof (cols_agree N cols 0) as A. unfold cols_of in A. destruct cols as [|x cols]; [intros [|i] _; reflexivity|exact A]. }
  fold N.
  assert (FA : forall x y, agree N x y -> F x -> F y) by (intros x y; apply allowed_agree).
  assert (CA : forall x y, agree N x y -> cost x = cost y) by (intros x y; apply mv_cost_agree).
  exists mr. split.
  { destruct Hmax as [(y & Hy & Ey) Hu]. split; [exists y; split; [apply HFi, Hy|exact Ey]|]. intros y0 Hy0. apply Hu, HFi, Hy0. }
  split; [apply (minimises_agree N F cost _ _ FA CA A0); exact (minimises_iff _ F _ _ HFi Hfirst)|].
  rewrite <- (dot_agree N mu _ _ A0). rewrite map_length. destruct D as [D|[D1 D2]]; [left; exact D|right].
  split; [exact (eff_transfer N _ F cost (dot N mu) mr _ cols HFi FA CA (dot_agree N mu) D1)|].
  intros Hpsd Hpos. apply convex_transfer; [exact CA|]. apply D2; assumption.
Qed.

(** * CVaR frontier *)
Lemma cvar_frontier_w_l E sim lab raw w c arg k num alpha enf f : exact_env E -> constructed w c -> in_force c arg (assets w) -> pc_nonneg w k ->
  cvar_frontier_w E sim lab raw w num alpha enf arg k = Ok f ->
  let N := assets w in
  let F y := allowed (effective c arg) N y in
  0 < alpha < 1 /\ f_n f = N /\ f_names f = d_names (w_dist w) /\ f_measure f = lab alpha /\
  exists T X q mu cost mr cols, scenario_data sim w T X q /\ prob_vec T q /\ cvar_cost N T X q alpha (iw_of w k) (pc_of w k) cost /\
    f_ret f = map (fun l => dot N mu (wts l)) (f_cols f) /\ nondecreasing (f_ret f) /\
    Permutation (f_cols f) cols /\
    is_max F (dot N (scenario_mean T X q)) mr /\ minimises F cost (wts (nth 0 cols [])) /\
    ((frontier_collapses num (dot N (scenario_mean T X q) (wts (nth 0 cols []))) mr /\ List.length cols = 1%nat) \/
     (efficient_frontier F cost (dot N (scenario_mean T X q)) mr (Z.to_nat num) (map wts cols) /\ convex_frontier cost (map wts cols))) /\
    (exists risks, In (raw alpha, risks) (f_alt f) /\ (enf = false -> f_risk f = risks) /\ (enf = true -> nondecreasing (f_risk f)) /\
       Forall2 (fun l r => exists v, cvar_of N T X q alpha (wts l) v /\ r = Rabs v) (f_cols f) risks) /\
    match d_mu (w_dist w) with
    | None => forall i, mu i = scenario_mean T X q i
    | Some m => exists cov, mu = fst (in_reports w (as_vec m) cov) /\ (w_log w = true -> moments w (as_vec m) cov)
    end.
Proof.
  intros HE HC HF Hpc H N F. pose proof (constructed_good w c HC) as G.
  apply cvar_frontier_inv in H as (T & X & q & mu & m & cols & risks & cols' & ret' & risk' & vols' & raw' & Hs & Hm & Hx & Hr & EP & ->).
  destruct (scenario_inputs_l sim w c T X q mu G Hs) as (Hd & Hq & Hmu).
  destruct HE as (Hqp & Hlp & Hcone & Hch & Hso). change (assets w) with N in Hx, Hr, EP |- *.
  destruct (abs_cvar_l E _ T X q alpha cols risks Hso Hq Hr) as (Ha & FF).
  cbn [f_n f_names f_measure f_ret f_cols f_alt f_risk]. split; [exact Ha|]. split; [reflexivity|]. split; [reflexivity|]. split; [reflexivity|].
  pose proof (cost_of_cvar E N T X q alpha (iw_of w k) (pc_of w k) Hso Hq Ha) as Hcost.
  set (cost := cost_of E N T X q alpha (iw_of w k) (pc_of w k)) in *.
  assert (Ha' : 0 < alpha <= 1) by lra.
  destruct (cvar_frontier_efficient (e_lp E) N T X q alpha _ _ _ _ num cols cost Hlp Hq Ha' (pc_nth w k N Hpc) Hcost Hx) as (mr & Hmax & Hfirst & D).
  assert (HFi : forall y, constrained N (rows_G m) (rows_A m) y <-> F y).
  { intros y. unfold F, N. apply (resolve_in_force w c arg m y G HF Hm). }
  assert (FA : forall x y, agree N x y -> F x -> F y) by (intros x y; apply allowed_agree).
  assert (CA : forall x y, agree N x y -> cost x = cost y).
  { intros x y E0. unfold cost, cost_of. rewrite (turnover_agree N _ _ x y E0). f_equal. f_equal. f_equal. unfold to_list. apply map_ext. intros t. apply dot_agree. exact E0. }
  assert (A0 : agree N (nth 0 cols zrow) (wts (nth 0 (map (vlist N) cols) []))).
  { pose proof (cols_agree N cols 0) as A. unfold cols_of in A. destruct cols as [|x cols]; [intros [|i] _; reflexivity|exact A]. }
  unfold cvar_post in EP. injection EP as <- <- <- _ <-.
  set (o := e_sort E (map (dot N mu) cols)) in *.
  pose proof (Hso (map (dot N mu) cols)) as [Ho Hsorted]. fold o in Ho, Hsorted. rewrite map_length in Ho.
  pose proof (Forall2_len _ _ _ FF) as HLr.
  assert (Hi : forall i, In i o -> (i < List.length cols)%nat).
  { intros i Hin. apply (Permutation_in _ Ho) in Hin. apply in_seq in Hin. lia. }
  exists T, X, q, mu, cost, mr, (map (vlist N) cols). split; [exact Hd|]. split; [exact Hq|]. split; [exact Hcost|].
  split.
  { unfold take. rewrite map_map. apply map_ext_in. intros i Hin. specialize (Hi i Hin).
    rewrite (nth_map_lt (dot N mu) cols i zrow 0 Hi), (nth_map_lt (vlist N) cols i zrow [] Hi). apply dot_agree, agree_wts. }
  split; [apply sorted_nth; exact Hsorted|].
  split; [apply take_perm; rewrite map_length; exact Ho|].
  split.
  { destruct Hmax as [(y & Hy & Ey) Hu]. split; [exists y; split; [apply HFi, Hy|exact Ey]|]. intros y0 Hy0. apply Hu, HFi, Hy0. }
  split; [apply (minimises_agree N F cost _ _ FA CA A0); exact (minimises_iff _ F _ _ HFi Hfirst)|].
  split.
  { rewrite <- (dot_agree N _ _ _ A0). rewrite map_length. destruct D as [D|[D1 D2]]; [left; exact D|right].
    split; [exact (eff_transfer N _ F cost _ mr _ cols HFi FA CA (dot_agree N _) D1)|]. apply convex_transfer; [exact CA|exact D2]. }
  split; [|exact Hmu].
  exists (take 0 (map Rabs risks) o). split; [apply in_or_app; right; left; reflexivity|]. split; [intros ->; reflexivity|].
  split; [intros ->; apply out_nondecreasing; [rewrite !take_length; reflexivity|apply sorted_nth; exact Hsorted]|].
  unfold take. assert (K : forall i, In i o -> exists v, cvar_of N T X q alpha (wts (nth i (map (vlist N) cols) [])) v /\ nth i (map Rabs risks) 0 = Rabs v).
  { intros i Hin. specialize (Hi i Hin). rewrite (nth_map_lt (vlist N) cols i zrow [] Hi), (nth_map_lt Rabs risks i 0 0) by lia.
    destruct (Forall2_nth _ _ _ zrow 0 FF i) as (v & Hv & Ev); [lia|]. exists v. rewrite Ev, Rabs_Rabsolu. split; [|reflexivity].
    exact (cvar_of_agree _ _ _ _ _ _ _ _ (agree_wts N _) Hv). }
  clear - K. induction o as [|i o IH]; simpl; constructor; [apply K; left; reflexivity|apply IH; intros j Hj; apply K; right; exact Hj].
Qed.
