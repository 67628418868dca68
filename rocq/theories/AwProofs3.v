From Coq Require Import String Classical_Prop.
From Verif Require Import RBase QpBase SortLib RiskModel RiskSpec RiskProofs RiskProperties ConsModel ConsSpec ConsProperties
  MomModel DistModel DistSpec DistProofs DistProofs2 DistProofs3 ConvModel ConvProperties ProjProofs OptModel OptSpec OptProofs OptProofs2 OptProofs3 OptProofs4 OptProofs5 OptProperties FrModel FrSpec FrProofs FrProofs2 FrProofs3 FrProofs4 FrProperties
  WrModel WrSpec WrProofs WrProofs2 WrProofs3 WrProofs4 WrProofs5 WrProofs6 AxSpec AxProofs AxProofs2 AxProofs3 AxProperties AwSpec AwProofs AwProofs2.
Open Scope R_scope.
Open Scope list_scope.

Lemma near_in_force d w c arg m x : 0 <= d < 1 -> good_wrapper w c -> in_force c arg (assets w) -> resolve_mats w arg = Ok m ->
  (near_constrained d (assets w) (rows_G m) (rows_A m) x <-> near_allowed d (effective c arg) (assets w) x).
Proof.
  intros [D0 D1] G F H. destruct (resolve_inv w c arg m G H) as (e & ws & Hm & [-> |(-> & -> & Hv)]).
  - apply (near_mats_bridge d _ _ _ _ x D1 Hm).
  - exfalso. apply (F eq_refl). exact Hv.
Qed.
Lemma near_allowed_agree d c n x y : agree n x y -> near_allowed d c n x -> near_allowed d c n y.
Proof.
  intros E H. unfold near_allowed in *. replace (to_list n y) with (to_list n x); [exact H|]. unfold to_list. apply map_ext_in. intros i Hi.
  apply in_seq in Hi. apply E. lia.
Qed.
Lemma within_agree n e (F F' : vec -> Prop) f x y : (forall z, F' z -> F z) -> (forall x y, agree n x y -> f x = f y) -> agree n x y ->
  within e F f x -> within e F' f y.
Proof. intros HF Hf A W z Hz. rewrite <- (Hf x y A). apply W, HF, Hz. Qed.

(** The overlays use the sort only. *)
Definition sort_env (E : env) : env := mkEnv (fun _ => None) (fun _ => None) (fun _ => None) (fun _ _ => None) (e_sort E).
Lemma sort_env_exact d e E : approx_env d e E -> exact_env (sort_env E).
Proof.
  intros (_ & _ & _ & _ & Hs). unfold exact_env, sort_env; cbn. split; [intros ? ? ?; discriminate|]. split; [intros ? ? ?; discriminate|].
  split; [intros ? ? ?; discriminate|]. split; [|exact Hs]. intros ? ? ? ?. discriminate.
Qed.
Lemma overlay_near d e E w c cols lab v : approx_env d e E -> good_wrapper w c -> In (lab, v) (cvar_overlay E w cols) ->
  lab = "CVaR (95%)"%string /\ cvar95_column w (map (vlist (assets w)) cols) v.
Proof. intros HE G H. exact (overlay_l (sort_env E) w c cols lab v (sort_env_exact d e E HE) G H). Qed.

(** * Minimum variance at a return *)
Lemma min_variance_near d e E w c arg k target p mu cov : approx_env d e E -> 0 <= d < 1 -> constructed w c -> in_force c arg (assets w) -> moments w mu cov ->
  (forall kk l, k = Some kk -> k_mic kk = Some l -> List.length l = assets w) ->
  min_variance_at_return E w target arg k = Ok p ->
  let N := assets w in let x := wts (p_weights p) in
  let F y := allowed (effective c arg) N y /\ target <= dot N mu y in
  let cost := mv_cost N cov (iw_of w k) (mic_of w k) in
  List.length (p_weights p) = N /\ p_names p = d_names (w_dist w) /\
  p_return p = dot N (fst (in_reports w mu cov)) x /\ p_risk p = sqrt (quad N (snd (in_reports w mu cov)) x) /\
  near_allowed d (effective c arg) N x /\ target - d <= dot N mu x /\
  exists r, 0 <= r /\ within e F (fun y => cost y + r / 2 * dot N y y) x /\
    (complete_qp (e_qp E) -> (exists y, minimises F cost y) -> r = 0).
Proof.
  intros HE HD HC HF Hmc Hlen H N x F cost. pose proof (constructed_good w c HC) as G.
  apply min_variance_inv in H as (mu' & cov' & m & x0 & Hmc' & Hm & Hx & ->).
  apply require_ok in Hmc, Hmc'. rewrite Hmc in Hmc'. injection Hmc' as <- <-. cbn [p_weights p_names p_return p_risk] in *.
  assert (HL : forall l, mic_of w k = Some l -> iw_of w k <> None -> List.length l = N) by (intros l El _; exact (mic_length w c k l G Hlen El)).
  pose proof (agree_wts N x0) as A0. fold (assets w) in x. fold N in x. change (agree N x0 x) in A0.
  split; [apply to_list_length|]. split; [reflexivity|]. split; [apply dot_agree; exact A0|].
  split; [unfold vol; f_equal; apply quad_ext_n; exact A0|].
  destruct (mv_inexact (e_qp E) N mu cov _ _ _ _ _ d e x0 (proj1 HE) HL Hx) as (Hn & Ht & r & Hr & Hw & Hr0).
  split; [apply (near_allowed_agree d _ N x0 x A0); apply (near_in_force d w c arg m x0 HD G HF Hm); exact Hn|].
  split; [rewrite <- (dot_agree N mu x0 x A0); exact Ht|].
  exists r. split; [exact Hr|].
  assert (HFi : forall y, constrained N (rows_G m) (rows_A m) y /\ meets N mu (Some target) y <-> F y).
  { intros y. unfold F, N. rewrite (resolve_in_force w c arg m y G HF Hm). reflexivity. }
  split.
  - apply (within_agree N e _ F _ x0 x (fun y => proj2 (HFi y))); [|exact A0|exact Hw].
    intros a b Eab. unfold cost. rewrite (mv_cost_agree N cov _ _ a b Eab), (dot_self_agree N a b Eab). reflexivity.
  - intros Hcomp [y Hy]. unfold mv_portfolio in Hx. apply bind_ok in Hx as ([P q] & HtP & _).
    apply (Hr0 P q HtP). apply (Hcomp _ y). apply (qp_of_minimiser N mu cov (iw_of w k) (mic_of w k)); [exact HL|exact HtP|].
    exact (minimises_iff F _ _ y (fun y => iff_sym (HFi y)) Hy).
Qed.

(** * Minimum CVaR at a return *)
Lemma min_cvar_near d e E sim w c arg k target alpha p : approx_env d e E -> 0 <= d < 1 -> constructed w c -> in_force c arg (assets w) -> pc_nonneg w k ->
  min_cvar_at_return E sim w target alpha arg k = Ok p ->
  let N := assets w in let x := wts (p_weights p) in
  0 < alpha < 1 /\ List.length (p_weights p) = N /\ p_names p = d_names (w_dist w) /\ near_allowed d (effective c arg) N x /\
  exists T X q mu v, scenario_data sim w T X q /\ prob_vec T q /\
    let F y := allowed (effective c arg) N y /\ target <= dot N (scenario_mean T X q) y in
    let slack := e + d / alpha + 3 * d * cost_rate (pc_of w k) (iw_of w k) N in
    target - d <= dot N (scenario_mean T X q) x /\ cvar_of N T X q alpha x v /\ p_risk p = Rabs v /\ p_return p = dot N mu x /\
    (forall y v', F y -> cvar_of N T X q alpha y v' ->
       v + turnover_cost N (iw_of w k) (pc_of w k) x <= v' + turnover_cost N (iw_of w k) (pc_of w k) y + slack) /\
    match d_mu (w_dist w) with
    | None => forall i, mu i = scenario_mean T X q i
    | Some m => exists cov, mu = fst (in_reports w (as_vec m) cov) /\ (w_log w = true -> moments w (as_vec m) cov)
    end.
Proof.
  intros HE HD HC HF Hpc H N x. pose proof (constructed_good w c HC) as G.
  apply min_cvar_inv in H as (T & X & q & mu & m & x0 & risk & Hs & Hm & Hx & Hr & ->). cbn [p_weights p_names p_return p_risk] in *.
  destruct (scenario_inputs_l sim w c T X q mu G Hs) as (Hd & Hq & Hmu).
  destruct HE as (Hqp & Hlp & Hcone & Hch & Hso).
  destruct (abs_cvar_l E _ T X q alpha [x0] risk Hso Hq Hr) as (Ha & FF). inversion FF as [|a b la lb (v & Hv & Ev) FF' E1 E2]. subst. inversion FF'. subst.
  pose proof (agree_wts N x0) as A0. change (agree N x0 x) in A0.
  pose proof (cost_of_cvar E N T X q alpha (iw_of w k) (pc_of w k) Hso Hq Ha) as Hcost.
  destruct (mean_cvar_inexact (e_lp E) N T X q alpha _ _ _ _ _ d e x0 _ Hlp Hq (proj1 Ha) (proj1 HD) (pc_nth w k N Hpc) Hcost Hx) as (Hn & Ht & Hw).
  split; [exact Ha|]. split; [apply to_list_length|]. split; [reflexivity|].
  split; [apply (near_allowed_agree d _ N x0 x A0); apply (near_in_force d w c arg m x0 HD G HF Hm); exact Hn|].
  exists T, X, q, mu, v. split; [exact Hd|]. split; [exact Hq|]. cbv zeta.
  split; [rewrite <- (dot_agree N _ x0 x A0); exact Ht|]. split; [exact (cvar_of_agree _ _ _ _ _ _ _ _ A0 Hv)|]. split; [reflexivity|]. split; [apply dot_agree; exact A0|]. split; [|exact Hmu].
  intros y v' Hy Hv'.
  assert (Hy' : constrained N (rows_G m) (rows_A m) y /\ meets N (cvar_mean T q X) (Some target) y).
  { unfold N. rewrite (resolve_in_force w c arg m y G HF Hm). exact Hy. }
  specialize (Hw y Hy'). unfold cost_of in Hw.
  pose proof (Hcost x0) as K1. pose proof (Hcost y) as K2.
  apply (cvar_unique _ _ _ _ _ Hv) in K1. apply (cvar_unique _ _ _ _ _ Hv') in K2. rewrite <- (turnover_agree N _ _ x0 x A0). unfold cost_of in *. lra.
Qed.

(** * Frontiers *)
Lemma eff_near N d e G A (F Fn : vec -> Prop) mean cost mr num cols :
  (forall y, constrained N G A y <-> F y) -> (forall y, near_constrained d N G A y -> Fn y) -> (forall x y, agree N x y -> Fn x -> Fn y) ->
  (forall x y, agree N x y -> cost x = cost y) ->
  near_frontier d e N G A mean cost mr num cols -> nearly_efficient d e F Fn cost (dot N mean) mr num (cols_of N cols).
Proof.
  intros HF HFn Hag Hc [E1 E2 E3 E4].
  assert (Rr : forall k, dot N mean (nth k (cols_of N cols) zrow) = dot N mean (nth k cols zrow)) by (intros k; symmetry; apply dot_agree, cols_agree).
  constructor.
  - unfold cols_of. rewrite !map_length. exact E1.
  - intros k Hk. apply (Hag _ _ (cols_agree N cols k)), HFn, E2, Hk.
  - intros k Hk. rewrite !Rr. apply E3, Hk.
  - intros k Hk. rewrite Rr. eapply (within_agree N e); [|exact Hc|apply cols_agree|exact (E4 k Hk)].
    intros y [B1 B2]. split; [apply HF, B1|exact B2].
Qed.
Lemma max_near d e N G A (F Fn : vec -> Prop) mean mr : (forall y, constrained N G A y <-> F y) -> (forall y, near_constrained d N G A y -> Fn y) ->
  near_max d e N G A mean mr -> nearly_max e F Fn (dot N mean) mr.
Proof. intros HF HFn [(x & Hx & Ex) H]. split; [exists x; auto|]. intros y Hy. apply H, HF, Hy. Qed.

Lemma variance_frontier_near d e E w c arg k num f mu cov : approx_env d e E -> 0 <= d < 1 -> complete_qp (e_qp E) -> constructed w c -> in_force c arg (assets w) ->
  moments w mu cov -> (forall kk l, k = Some kk -> k_mic kk = Some l -> List.length l = assets w) ->
  let N := assets w in
  let F y := allowed (effective c arg) N y in
  let Fn y := near_allowed d (effective c arg) N y in
  let cost := mv_cost N cov (iw_of w k) (mic_of w k) in
  attained F N mu cost ->
  variance_frontier E w num arg k = Ok f ->
  f_n f = N /\ f_names f = d_names (w_dist w) /\ f_measure f = "Volatility"%string /\
  describes f (dot N (fst (in_reports w mu cov))) (vol N (snd (in_reports w mu cov))) /\
  (forall lab v, In (lab, v) (f_alt f) -> lab = "CVaR (95%)"%string /\ cvar95_column w (f_cols f) v) /\
  exists mr, nearly_max e F Fn (dot N mu) mr /\ Fn (wts (nth 0 (f_cols f) [])) /\ within e F cost (wts (nth 0 (f_cols f) [])) /\
    ((frontier_collapses num (dot N mu (wts (nth 0 (f_cols f) []))) mr /\ List.length (f_cols f) = 1%nat) \/
     nearly_efficient d e F Fn cost (dot N mu) mr (Z.to_nat num) (map wts (f_cols f))).
Proof.
  intros HE HD Hcq HC HF Hmc Hlen N F Fn cost Hat H. pose proof (constructed_good w c HC) as G.
  apply variance_frontier_inv in H as (mu' & cov' & m & cols & Hmc' & Hm & Hx & ->).
  apply require_ok in Hmc, Hmc'. rewrite Hmc in Hmc'. injection Hmc' as <- <-. cbn [f_n f_names f_measure f_alt f_cols].
  split; [reflexivity|]. split; [reflexivity|]. split; [reflexivity|]. split; [apply describes_map; [apply dot_agree|apply vol_agree]|].
  split; [intros lab v; apply (overlay_near d e) with (c := c); assumption|].
  assert (HL : forall l, mic_of w k = Some l -> iw_of w k <> None -> List.length l = N) by (intros l El _; exact (mic_length w c k l G Hlen El)).
  assert (HFi : forall y, constrained N (rows_G m) (rows_A m) y <-> F y).
  { intros y. unfold F, N. apply (resolve_in_force w c arg m y G HF Hm). }
  assert (HFn : forall y, near_constrained d N (rows_G m) (rows_A m) y -> Fn y).
  { intros y. unfold Fn, N. apply (near_in_force d w c arg m y HD G HF Hm). }
  assert (Hat' : attained (constrained N (rows_G m) (rows_A m)) N mu cost).
  { intros t (y & Hy & Ht). destruct (Hat t) as [z Hz]; [exists y; split; [apply HFi; exact Hy|exact Ht]|]. exists z.
    apply (minimises_iff (fun w => F w /\ meets N mu t w)); [|exact Hz]. intros u. rewrite HFi. reflexivity. }
  destruct (mv_frontier_inexact (e_qp E) (e_lp E) N mu cov _ _ _ _ num cols d e d e (proj1 HE) (proj1 (proj2 HE)) (proj1 HD) HL Hcq Hat' Hx) as (mr & Hmax & Hfirst & Hwi & D).
  assert (A0 : agree N (nth 0 cols zrow) (wts (nth 0 (map (vlist N) cols) []))).
  { pose proof (cols_agree N cols 0) as A. unfold cols_of in A. destruct cols as [|x cols]; [intros [|i] _; reflexivity|exact A]. }
  fold N.
  assert (FA : forall x y, agree N x y -> Fn x -> Fn y) by (intros x y; apply near_allowed_agree).
  assert (CA : forall x y, agree N x y -> cost x = cost y) by (intros x y; apply mv_cost_agree).
  exists mr. split; [exact (max_near d e N _ _ F Fn mu mr HFi HFn Hmax)|].
  split; [exact (FA _ _ A0 (HFn _ Hfirst))|].
  split; [exact (within_agree N e _ F cost _ _ (fun y => proj2 (HFi y)) CA A0 Hwi)|].
  rewrite <- (dot_agree N mu _ _ A0). rewrite map_length. destruct D as [D|D]; [left; exact D|right].
  exact (eff_near N d e _ _ F Fn mu cost mr _ cols HFi HFn FA CA D).
Qed.

Lemma cvar_frontier_w_near d e E sim lab raw w c arg k num alpha enf f : approx_env d e E -> 0 <= d < 1 -> constructed w c -> in_force c arg (assets w) -> pc_nonneg w k ->
  cvar_frontier_w E sim lab raw w num alpha enf arg k = Ok f ->
  let N := assets w in
  let F y := allowed (effective c arg) N y in
  let Fn y := near_allowed d (effective c arg) N y in
  let slack := e + d / alpha + 3 * d * cost_rate (pc_of w k) (iw_of w k) N in
  0 < alpha < 1 /\ f_n f = N /\ f_names f = d_names (w_dist w) /\ f_measure f = lab alpha /\
  exists T X q mu cost mr cols, scenario_data sim w T X q /\ prob_vec T q /\ cvar_cost N T X q alpha (iw_of w k) (pc_of w k) cost /\
    f_ret f = map (fun l => dot N mu (wts l)) (f_cols f) /\ nondecreasing (f_ret f) /\
    Permutation (f_cols f) cols /\
    nearly_max e F Fn (dot N (scenario_mean T X q)) mr /\ Fn (wts (nth 0 cols [])) /\ within slack F cost (wts (nth 0 cols [])) /\
    ((frontier_collapses num (dot N (scenario_mean T X q) (wts (nth 0 cols []))) mr /\ List.length cols = 1%nat) \/
     nearly_efficient d slack F Fn cost (dot N (scenario_mean T X q)) mr (Z.to_nat num) (map wts cols)) /\
    (exists risks, In (raw alpha, risks) (f_alt f) /\ (enf = false -> f_risk f = risks) /\ (enf = true -> nondecreasing (f_risk f)) /\
       Forall2 (fun l r => exists v, cvar_of N T X q alpha (wts l) v /\ r = Rabs v) (f_cols f) risks).
Proof.
  intros HE HD HC HF Hpc H N F Fn slack. pose proof (constructed_good w c HC) as G.
  apply cvar_frontier_inv in H as (T & X & q & mu & m & cols & risks & cols' & ret' & risk' & vols' & raw' & Hs & Hm & Hx & Hr & EP & ->).
  destruct (scenario_inputs_l sim w c T X q mu G Hs) as (Hd & Hq & Hmu).
  destruct HE as (Hqp & Hlp & Hcone & Hch & Hso). change (assets w) with N in Hx, Hr, EP |- *.
  destruct (abs_cvar_l E _ T X q alpha cols risks Hso Hq Hr) as (Ha & FF).
  cbn [f_n f_names f_measure f_ret f_cols f_alt f_risk]. split; [exact Ha|]. split; [reflexivity|]. split; [reflexivity|]. split; [reflexivity|].
  pose proof (cost_of_cvar E N T X q alpha (iw_of w k) (pc_of w k) Hso Hq Ha) as Hcost.
  set (cost := cost_of E N T X q alpha (iw_of w k) (pc_of w k)) in *.
  assert (Ha' : 0 < alpha <= 1) by lra.
  destruct (cvar_frontier_inexact (e_lp E) N T X q alpha _ _ _ _ num cols cost d e Hlp Hq Ha' (proj1 HD) (pc_nth w k N Hpc) Hcost Hx) as (mr & Hmax & Hfirst & Hwi & D).
  assert (HFi : forall y, constrained N (rows_G m) (rows_A m) y <-> F y).
  { intros y. unfold F, N. apply (resolve_in_force w c arg m y G HF Hm). }
  assert (HFn : forall y, near_constrained d N (rows_G m) (rows_A m) y -> Fn y).
  { intros y. unfold Fn, N. apply (near_in_force d w c arg m y HD G HF Hm). }
  assert (FA : forall x y, agree N x y -> Fn x -> Fn y) by (intros x y; apply near_allowed_agree).
  assert (CA : forall x y, agree N x y -> cost x = cost y).
  { intros x y E0. unfold cost, cost_of. rewrite (turnover_agree N _ _ x y E0). f_equal. f_equal. f_equal. unfold to_list. apply map_ext. intros t. apply dot_agree. exact E0. }
  assert (A0 : agree N (nth 0 cols zrow) (wts (nth 0 (map (vlist N) cols) []))).
  { pose proof (cols_agree N cols 0) as A. unfold cols_of in A. destruct cols as [|x cols]; [intros [|i] _; reflexivity|exact A]. }
  unfold cvar_post in EP. injection EP as <- <- <- _ <-.
  set (o := e_sort E (map (dot N mu) cols)) in *.
  pose proof (Hso (map (dot N mu) cols)) as [Ho Hsorted]. fold o in Ho, Hsorted. rewrite map_length in Ho.
  pose proof (Forall2_len _ _ _ FF) as HLr.
  assert (Hi : forall i, In i o -> (i < List.length cols)%nat).
  { intros i Hin. apply (Permutation_in _ Ho) in Hin. apply in_seq in Hin. lia. }
  exists T, X, q, mu, cost, mr, (map (vlist N) cols). split; [exact Hd|]. split; [exact Hq|]. split; [exact Hcost|].
  split.
  { unfold take. rewrite map_map. apply map_ext_in. intros i Hin. specialize (Hi i Hin).
    rewrite (nth_map_lt (dot N mu) cols i zrow 0 Hi), (nth_map_lt (vlist N) cols i zrow [] Hi). apply dot_agree, agree_wts. }
  split; [apply sorted_nth; exact Hsorted|].
  split; [apply take_perm; rewrite map_length; exact Ho|].
  split; [exact (max_near d e N _ _ F Fn _ mr HFi HFn Hmax)|].
  split; [exact (FA _ _ A0 (HFn _ Hfirst))|].
  split; [exact (within_agree N slack _ F cost _ _ (fun y => proj2 (HFi y)) CA A0 Hwi)|].
  split.
  { rewrite <- (dot_agree N _ _ _ A0). rewrite map_length. destruct D as [D|D]; [left; exact D|right].
    exact (eff_near N d slack _ _ F Fn _ cost mr _ cols HFi HFn FA CA D). }
  exists (take 0 (map Rabs risks) o). split; [apply in_or_app; right; left; reflexivity|]. split; [intros ->; reflexivity|].
  split; [intros ->; apply out_nondecreasing; [rewrite !take_length; reflexivity|apply sorted_nth; exact Hsorted]|].
  unfold take. assert (K : forall i, In i o -> exists v, cvar_of N T X q alpha (wts (nth i (map (vlist N) cols) [])) v /\ nth i (map Rabs risks) 0 = Rabs v).
  { intros i Hin. specialize (Hi i Hin). rewrite (nth_map_lt (vlist N) cols i zrow [] Hi), (nth_map_lt Rabs risks i 0 0) by lia.
    destruct (Forall2_nth _ _ _ zrow 0 FF i) as (v & Hv & Ev); [lia|]. exists v. rewrite Ev, Rabs_Rabsolu. split; [|reflexivity].
    exact (cvar_of_agree _ _ _ _ _ _ _ _ (agree_wts N _) Hv). }
  clear - K. induction o as [|i o IH]; simpl; constructor; [apply K; left; reflexivity|apply IH; intros j Hj; apply K; right; exact Hj].
Qed.

(** * Robust frontier *)
Lemma robust_frontier_w_near d e E w c arg k num mx lams rc f lam' mu cov : approx_env d e E -> 0 <= d < 1 -> constructed w c -> in_force c arg (assets w) -> moments w mu cov ->
  robust_lambda_frontier E w num mx lams rc arg k = Ok (f, lam') ->
  let N := assets w in let F y := allowed (effective c arg) N y in
  f_n f = N /\ f_names f = d_names (w_dist w) /\ f_measure f = robust_measure /\
  List.length lam' = List.length (f_cols f) /\ List.length (f_risk f) = List.length (f_cols f) /\ nondecreasing (f_risk f) /\
  f_ret f = map (fun l => dot N (fst (in_reports w mu cov)) (wts l)) (f_cols f) /\
  (exists grid, penalties num mx lams grid /\ Permutation lam' grid) /\
  exists L, root_of N (uncertainty w cov) L /\
    forall i, (i < List.length lam')%nat ->
      let x := wts (nth i (f_cols f) []) in
      0 <= nth i lam' 0 /\ near_allowed d (effective c arg) N x /\
      within (e + nth i lam' 0 * d) F (fun y => - dot N mu y + nth i lam' 0 * norm2 N (mv N L y)) x /\
      norm2 N (mv N L x) <= nth i (f_risk f) 0 + d.
Proof.
  intros HE HD HC HF Hmc H N F. pose proof (constructed_good w c HC) as G.
  apply robust_lambda_inv' in H as (mu' & cov' & m & grid & rets & risks & cols & Hmc' & Hm & Hg & Hr & order & Eo & -> & ->).
  apply require_ok in Hmc, Hmc'. rewrite Hmc in Hmc'. injection Hmc' as <- <-. change (assets w) with N in Hr |- *.
  destruct (robust_frontier_near _ _ _ _ _ _ _ _ _ _ _ _ _ d e (proj1 (proj2 (proj2 HE))) (proj1 (proj2 (proj2 (proj2 HE)))) Hr) as (L & j & Hj & _ & HL & _ & _ & L1 & L2 & Hk).
  pose proof (ordered_perm d e E risks HE) as Ho. rewrite <- Eo in Ho.
  assert (Lo : List.length order = List.length grid) by (apply Permutation_length in Ho; rewrite seq_length in Ho; lia).
  assert (Hi : forall i, (i < List.length grid)%nat -> (nth i order 0 < List.length grid)%nat).
  { intros i Hi. assert (In (nth i order 0%nat) (seq 0 (List.length risks))) as K by (apply (Permutation_in _ Ho), nth_In; lia). apply in_seq in K. lia. }
  assert (HFi : forall y, constrained N (rows_G m) (rows_A m) y <-> F y).
  { intros y. unfold F, N. apply (resolve_in_force w c arg m y G HF Hm). }
  cbn [f_n f_names f_measure f_ret f_cols f_alt f_risk]. split; [reflexivity|]. split; [reflexivity|]. split; [reflexivity|].
  rewrite !take_length. split; [reflexivity|]. split; [reflexivity|].
  split.
  { rewrite Eo. destruct (Nat.ltb_spec 1 (List.length risks)) as [Hlt|Hlt].
    - apply sorted_nth. apply (proj2 (proj2 (proj2 (proj2 (proj2 HE))) risks)).
    - intros a b Hab. rewrite take_length, seq_length in Hab. assert (a = b) by lia. subst. lra. }
  split.
  { unfold take. rewrite map_map. apply map_ext_in. intros i Hin. assert (i < List.length cols)%nat.
    { apply (Permutation_in _ Ho), in_seq in Hin. lia. }
    rewrite (nth_map_lt (dot N _) cols i zrow 0 H), (nth_map_lt (vlist N) cols i zrow [] H). apply dot_agree, agree_wts. }
  split; [exists grid; split; [apply lambda_grid_iff; exact Hg|apply take_perm; rewrite <- L2; exact Ho]|].
  exists L. split; [exists j; split; [exact Hj|exact HL]|].
  intros i Hlt. cbv zeta. rewrite !take_nth_in by exact Hlt. rewrite Lo in Hlt. specialize (Hi i Hlt). set (q := nth i order 0%nat) in *.
  rewrite (nth_map_lt (vlist N) cols q zrow []) by lia. destruct (Hk q Hi) as (K1 & K2 & K3 & K4).
  pose proof (agree_wts N (nth q cols zrow)) as A0. rewrite <- (norm_agree N L _ _ A0). split; [exact K1|].
  split; [apply (near_allowed_agree d _ N _ _ A0); apply (near_in_force d w c arg m _ HD G HF Hm); exact K2|]. split; [|exact K4].
  eapply (within_agree N); [exact (fun y => proj2 (HFi y))| |exact A0|exact K3].
  intros a b Eab. rewrite (dot_agree N mu a b Eab), (norm_agree N L a b Eab). reflexivity.
Qed.

Lemma gamma_near d e E w c arg k gm gs p mu cov : approx_env d e E -> 0 <= d < 1 -> constructed w c -> in_force c arg (assets w) -> moments w mu cov ->
  solve_robust_gamma E w gm gs arg k = Ok p ->
  let N := assets w in let F y := allowed (effective c arg) N y in let x := wts (p_weights p) in
  0 <= gm /\ 0 <= gs /\ List.length (p_weights p) = N /\ p_names p = d_names (w_dist w) /\ p_return p = dot N mu x /\
  near_allowed d (effective c arg) N x /\
  exists L, root_of N (uncertainty w cov) L /\
    norm2 N (mv N L x) <= sqrt gs + 2 * d /\
    within (e + gm * d) (fun y => F y /\ norm2 N (mv N L y) <= sqrt gs) (fun y => - dot N mu y + gm * norm2 N (mv N L y)) x.
Proof.
  intros HE HD HC HF Hmc H N F x. pose proof (constructed_good w c HC) as G.
  apply gamma_inv in H as (mu' & cov' & m & r & Hmc' & Hm & Hr & ->).
  apply require_ok in Hmc, Hmc'. rewrite Hmc in Hmc'. injection Hmc' as <- <-. cbn [p_weights p_names p_return p_risk] in *.
  destruct (robust_gamma_inexact _ _ _ _ _ _ _ _ _ _ _ _ d e (proj1 (proj2 (proj2 HE))) (proj1 (proj2 (proj2 (proj2 HE)))) Hr) as (Hgm & Hgs & L & j & Hj & HL & Hn & Er & Hrk & Hmin).
  change (assets w) with N in HL, Er, Hrk, Hmin, Hn |- *. pose proof (agree_wts N (r_weights r)) as A0. change (agree N (r_weights r) x) in A0.
  split; [exact Hgm|]. split; [exact Hgs|]. split; [apply to_list_length|]. split; [reflexivity|]. split; [rewrite Er; apply dot_agree; exact A0|].
  split; [apply (near_allowed_agree d _ N _ _ A0); apply (near_in_force d w c arg m _ HD G HF Hm); exact Hn|].
  exists L. split; [exists j; split; [exact Hj|exact HL]|]. rewrite <- (norm_agree N L _ _ A0).
  assert (HFi : forall y, constrained N (rows_G m) (rows_A m) y <-> F y).
  { intros y. unfold F, N. apply (resolve_in_force w c arg m y G HF Hm). }
  split; [lra|].
  eapply (within_agree N); [| |exact A0|exact Hmin].
  - intros y [B1 B2]. split; [apply HFi, B1|exact B2].
  - intros a b Eab. rewrite (dot_agree N mu a b Eab), (norm_agree N L a b Eab). reflexivity.
Qed.
