From Coq Require Import String Classical_Prop.
From Verif Require Import RBase QpBase SortLib RiskModel RiskSpec RiskProofs RiskProperties ConsModel ConsSpec ConsProperties
  MomModel DistModel DistSpec DistProofs DistProofs2 DistProofs3 ConvModel ConvProperties ProjProofs OptModel OptSpec OptProofs OptProofs2 OptProofs3 OptProofs4 OptProofs5 OptProperties FrModel FrSpec FrProofs FrProofs2 FrProofs3 FrProofs4 FrProperties
  WrModel WrSpec WrProofs WrProofs2 WrProofs3 WrProofs4 WrProofs5 WrProofs6 AxSpec AxProofs AxProofs2 AxProofs3 AxProperties AwSpec AwProofs AwProofs2 AwProofs3.
Open Scope R_scope.
Open Scope list_scope.

Lemma rrp_target_of conelp lp chol n mean cov0 G A rb lam t mt r : rrp_solve conelp lp chol n mean cov0 G A rb lam t mt = Ok r ->
  match t with
  | None => rr_target r = None
  | Some t => exists mx, rr_target r = Some (clip_target mx t mt) /\ rr_max r = Some mx
  end.
Proof.
  intros H. unfold rrp_solve in H. apply bind_ok in H as (L & _ & H). apply bind_ok in H as (bud & _ & H).
  destruct (Rltb lam 0); [discriminate|]. apply bind_ok in H as (mtv & HM & H). destruct (conelp _) as [x|]; [|discriminate]. injection H as <-. cbn [rr_target rr_max].
  destruct t as [t|].
  - apply bind_ok in HM as (mx & _ & E1). injection E1 as <-. exists mx. split; reflexivity.
  - injection HM as <-. reflexivity.
Qed.

Lemma near_constrained_agree d n G A x y : agree n x y -> near_constrained d n G A x -> near_constrained d n G A y.
Proof. intros E [H1 H2]. split; intros g h Hi; rewrite <- (dot_agree n g x y E); auto. Qed.
Lemma near_rrp_agree d n mean cov L bud lam G A t x y m psi g rho : agree n x y ->
  near_rrp d n mean cov L bud lam G A t x m psi g rho -> near_rrp d n mean cov L bud lam G A t y m psi g rho.
Proof.
  intros E [P1 P2 P3 P4 P5 P6 P7 P8 P9].
  assert (M : forall Q i, mv n Q y i = mv n Q x i) by (intros Q i; symmetry; apply mv_agree; exact E).
  constructor.
  - intros i Hi. rewrite <- (E i Hi). auto.
  - intros i Hi. rewrite M. auto.
  - exact P3.
  - exact (near_constrained_agree d n G A x y E P4).
  - intros H. rewrite <- (sumn_ext n x y E). exact (P5 H).
  - unfold near_meets in *. destruct t; [rewrite <- (dot_agree n mean x y E); exact P6|exact I].
  - intros i Hi. rewrite <- (E i Hi). exact (P7 i Hi).
  - rewrite <- (norm_agree n L x y E). exact P8.
  - intros H. rewrite (sumn_ext n (fun i => Rmax (cov i i) 0 * y i ^ 2) (fun i => Rmax (cov i i) 0 * x i ^ 2)) by (intros i Hi; rewrite <- (E i Hi); reflexivity). exact (P9 H).
Qed.

Lemma rp_solution_near d e E w c arg m mu cov rb lam t mt r : approx_env d e E -> 0 <= d < 1 -> good_wrapper w c -> in_force c arg (assets w) -> resolve_mats w arg = Ok m ->
  rp_optimizer E w (mu, cov) m rb lam t mt = Ok r ->
  let N := assets w in
  0 <= lam /\
  near_risk_parity d e N mu cov (fun y => allowed (effective c arg) N y) (fun y => near_allowed d (effective c arg) N y) rb lam (rr_target r) (wts (vlist N (rr_weights r))) (rr_marginal r) /\
  match t with
  | None => rr_target r = None
  | Some t => exists cl mx, rr_target r = Some cl /\ cl = clip_target mx t mt /\ cl - d <= dot N mu (wts (vlist N (rr_weights r)))
  end.
Proof.
  intros HE HD G HF Hm H N. destruct HE as (_ & Hlp & Hc & Hch & _). unfold rp_optimizer in H. cbn [fst snd] in H. fold (assets w) in H. change (assets w) with N in H.
  pose proof (rrp_target_of _ _ _ _ _ _ _ _ _ _ _ _ _ H) as Ht.
  destruct (rrp_inexact _ _ _ _ _ _ _ _ _ _ _ _ _ d e Hc Hch (proj1 HD) H) as (L & bud & j & Hb & Hl & Hj & HL & P & Ho & Hopt).
  pose proof (agree_wts N (rr_weights r)) as A0.
  split; [exact Hl|]. split.
  - exists L, bud, (rows_G m), (rows_A m), (rr_psi r), (rr_gamma r), (rr_rho r).
    split; [exists j; split; [exact Hj|exact HL]|].
    split; [intros y; apply (resolve_in_force w c arg m y G HF Hm)|]. split; [intros y; apply (near_in_force d w c arg m y HD G HF Hm)|]. split; [exact Hb|].
    split; [exact (near_rrp_agree _ _ _ _ _ _ _ _ _ _ _ _ _ _ _ _ A0 P)|].
    intros y a b f Hy. rewrite <- Ho. exact (Hopt y a b f Hy).
  - destruct t as [t|]; [|exact Ht]. destruct Ht as (mx & E2 & E3). exists (clip_target mx t mt), mx. split; [exact E2|]. split; [reflexivity|].
    pose proof (nr_target _ _ _ _ _ _ _ _ _ _ _ _ _ _ _ P) as K. rewrite E2 in K. simpl in K. rewrite <- (dot_agree N mu _ _ A0). exact K.
Qed.

Lemma relaxed_near d e E w c arg m mu cov rb lam t lower r b : approx_env d e E -> 0 <= d < 1 -> good_wrapper w c -> in_force c arg (assets w) -> resolve_mats w arg = Ok m ->
  solve_relaxed (rp_optimizer E w (mu, cov) m rb lam) (Some t) lower = Ok (r, b) ->
  let N := assets w in let x := wts (vlist N (rr_weights r)) in
  0 <= lam /\
  near_risk_parity d e N mu cov (fun y => allowed (effective c arg) N y) (fun y => near_allowed d (effective c arg) N y) rb lam (rr_target r) x (rr_marginal r) /\
  (b = true -> rr_target r = None) /\
  (b = false -> exists cl, rr_target r = Some cl /\ cl - d <= dot N mu x /\ lower <= cl <= Rmax t lower).
Proof.
  intros HE HD G HF Hm H N x. destruct (solve_relaxed_spec (rp_optimizer E w (mu, cov) m rb lam) t lower) as [(i & _ & _ & _ & E1)|[_ E1]]; rewrite E1 in H;
    apply bind_ok in H as (r' & Hr & H); injection H as <- <-; destruct (rp_solution_near d e E w c arg m mu cov rb lam _ _ _ HE HD G HF Hm Hr) as (H0 & H1 & H2).
  - split; [exact H0|]. split; [exact H1|]. split; [discriminate|]. intros _. destruct H2 as (cl & mx & E2 & -> & K). exists (clip_target mx (attempt t lower i) (Some lower)).
    split; [exact E2|]. split; [exact K|]. pose proof (clip_le mx (attempt t lower i) lower) as [C1 C2]. split; [exact C2|]. eapply Rle_trans; [exact C1|].
    pose proof (attempt_le t lower i). apply Rmax_lub; [exact H|apply Rmax_r].
  - split; [exact H0|]. split; [exact H1|]. split; [intros _; exact H2|discriminate].
Qed.

Lemma rrp_portfolio_near d e E w c arg k lam mlt target rb p g mu cov : approx_env d e E -> 0 <= d < 1 -> constructed w c -> in_force c arg (assets w) -> moments w mu cov ->
  relaxed_risk_parity E w lam mlt target rb arg k = Ok (p, g) ->
  let N := assets w in let F y := allowed (effective c arg) N y in let Fn y := near_allowed d (effective c arg) N y in let x := wts (p_weights p) in
  let rmu := fst (in_reports w mu cov) in let rcov := snd (in_reports w mu cov) in
  let lower := Rmax (g_rp_return g) 0 in
  List.length (p_weights p) = N /\ p_names p = d_names (w_dist w) /\ p_return p = dot N rmu x /\ p_risk p = sqrt (quad N rcov x) /\ g_variance g = quad N rcov x /\
  0 <= lam /\
  (exists marg, near_risk_parity d e N mu cov F Fn rb 0 None (wts (g_rp_weights g)) marg) /\ g_rp_return g = dot N rmu (wts (g_rp_weights g)) /\
  g_requested g = match target, mlt with Some t, _ => Some t | None, Some q => Some (q * lower) | None, None => None end /\
  (exists marg, near_risk_parity d e N mu cov F Fn rb lam (g_target g) x marg /\ g_contrib g = map (fun i => x i * marg i) (seq 0 N)) /\
  (g_warning g = true -> g_requested g <> None /\ g_target g = None) /\
  (forall t, g_warning g = false -> g_requested g = Some t ->
     exists cl, g_target g = Some cl /\ cl - d <= dot N mu x /\ lower <= cl <= Rmax t lower).
Proof.
  intros HE HD HC HF Hmc H N F Fn x rmu rcov lower. pose proof (constructed_good w c HC) as G.
  unfold relaxed_risk_parity in H. apply bind_ok in H as (mc & Hmc' & H). apply require_ok in Hmc. rewrite Hmc in Hmc'. injection Hmc' as <-.
  apply bind_ok in H as (m & Hm & H). apply bind_ok in H as (base & Hb & H). cbv zeta in H. apply bind_ok in H as ([[req sol] warned] & Hs & H).
  injection H as <- <-. fold (assets w) in x, lower, Hs |- *. cbn [p_weights p_names p_return p_risk g_requested g_target g_clipped g_max g_rp_return g_variance g_contrib g_pct g_rp_weights g_warning] in *.
  rewrite report_eq in *. change (assets w) with N in x, lower, Hs |- *. fold rmu in lower, Hs |- *. fold rcov.
  pose proof (agree_wts N (rr_weights sol)) as A0. change (agree N (rr_weights sol) x) in A0.
  destruct (rp_solution_near d e E w c arg m mu cov rb 0 None None base HE HD G HF Hm Hb) as (_ & B1 & B2). cbv zeta in B1. rewrite B2 in B1. change (assets w) with N in B1.
  assert (D : 0 <= lam /\ near_risk_parity d e N mu cov F Fn rb lam (rr_target sol) x (rr_marginal sol) /\
    req = match target, mlt with Some t, _ => Some t | None, Some q => Some (q * lower) | None, None => None end /\
    (warned = true -> req <> None /\ rr_target sol = None) /\
    (forall t, warned = false -> req = Some t -> exists cl, rr_target sol = Some cl /\ cl - d <= dot N mu x /\ lower <= cl <= Rmax t lower)).
  { destruct target as [t|]; [|destruct mlt as [q|]].
    - apply bind_ok in Hs as ([s b] & Hs & E1). injection E1 as <- <- <-. cbn [fst snd] in *.
      destruct (relaxed_near d e E w c arg m mu cov rb lam t lower s b HE HD G HF Hm Hs) as (R0 & R1 & R2 & R3).
      split; [exact R0|]. split; [exact R1|]. split; [reflexivity|]. split; [intros Hw; split; [discriminate|exact (R2 Hw)]|].
      intros t' Hw E2. injection E2 as <-. exact (R3 Hw).
    - destruct (Rltb_spec q 0) as [|Hq]; [discriminate|]. apply bind_ok in Hs as ([s b] & Hs & E1). injection E1 as <- <- <-. cbn [fst snd] in *.
      destruct (relaxed_near d e E w c arg m mu cov rb lam (q * lower) lower s b HE HD G HF Hm Hs) as (R0 & R1 & R2 & R3).
      split; [exact R0|]. split; [exact R1|]. split; [reflexivity|]. split; [intros Hw; split; [discriminate|exact (R2 Hw)]|].
      intros t' Hw E2. injection E2 as <-. exact (R3 Hw).
    - destruct (Reqb lam 0) eqn:El; [|discriminate]. apply Reqb_true in El. injection Hs as <- <- <-.
      destruct (rp_solution_near d e E w c arg m mu cov rb 0 None None base HE HD G HF Hm Hb) as (Z0 & Z1 & Z2). subst lam.
      split; [lra|]. split; [exact Z1|]. split; [reflexivity|]. split; discriminate. }
  destruct D as (D0 & D1 & D2 & D4 & D5).
  split; [apply to_list_length|]. split; [reflexivity|]. split; [apply dot_agree; exact A0|]. split; [f_equal; apply quad_ext_n; exact A0|]. split; [apply quad_ext_n; exact A0|].
  split; [exact D0|].
  split; [exists (rr_marginal base); exact B1|]. split; [apply dot_agree, agree_wts|]. split; [exact D2|].
  split; [exists (rr_marginal sol); split; [exact D1|]; apply map_ext_in; intros i Hi; apply in_seq in Hi; rewrite (A0 i) by lia; reflexivity|].
  split; [exact D4|exact D5].
Qed.

Lemma rrp_frontier_near d e E w c arg k num mx lam mults inc rb f meta mu cov : approx_env d e E -> 0 <= d < 1 -> constructed w c -> in_force c arg (assets w) -> moments w mu cov ->
  relaxed_risk_parity_frontier E w num mx lam mults inc rb arg k = Ok (f, meta) ->
  let N := assets w in let F y := allowed (effective c arg) N y in let Fn y := near_allowed d (effective c arg) N y in
  let rmu := fst (in_reports w mu cov) in let rcov := snd (in_reports w mu cov) in
  0 <= lam /\ f_n f = N /\ f_names f = d_names (w_dist w) /\ f_measure f = "Volatility (Relaxed RP)"%string /\
  describes f (dot N rmu) (fun x => sqrt (Rmax (quad N rcov x) 0)) /\
  List.length meta = List.length (f_cols f) /\
  exists anchor grid marg, near_risk_parity d e N mu cov F Fn rb 0 None (wts anchor) marg /\ multipliers num mx mults grid /\
    map t_mult meta = (if inc then [None] else []) ++ map Some grid /\
    let lower := Rmax (dot N rmu (wts anchor)) 0 in
    forall i, (i < List.length meta)%nat ->
      let en := nth i meta (mkMeta None None None false) in let x := wts (nth i (f_cols f) []) in
      match t_mult en with
      | None => nth i (f_cols f) [] = anchor /\ t_requested en = None /\ t_effective en = None /\ t_warning en = false
      | Some q => t_requested en = Some (q * lower) /\
                  (exists marg, near_risk_parity d e N mu cov F Fn rb lam (t_effective en) x marg) /\
                  (t_warning en = true -> t_effective en = None) /\
                  (t_warning en = false -> exists cl, t_effective en = Some cl /\ cl - d <= dot N mu x /\ lower <= cl <= Rmax (q * lower) lower)
      end.
Proof.
  intros HE HD HC HF Hmc H N F Fn rmu rcov. pose proof (constructed_good w c HC) as G.
  unfold relaxed_risk_parity_frontier in H. apply bind_ok in H as (mc & Hmc' & H). apply require_ok in Hmc. rewrite Hmc in Hmc'. injection Hmc' as <-.
  destruct (Rltb_spec lam 0) as [|Hl]; [discriminate|]. apply bind_ok in H as (m & Hm & H). apply bind_ok in H as (base & Hb & H). cbv zeta in H.
  apply bind_ok in H as (grid & Hg & H). apply bind_ok in H as (pts & Hp & H). apply bind_ok in H as (f' & Hf & H). injection H as <- <-.
  apply make_frontier_ok in Hf as [_ ->]. fold (assets w) in Hp |- *. rewrite report_eq in *. change (assets w) with N in Hp |- *. fold rmu in Hp |- *. fold rcov.
  set (all := if inc then _ else pts). cbn [f_n f_names f_measure f_cols f_alt].
  split; [lra|]. split; [reflexivity|]. split; [reflexivity|]. split; [reflexivity|].
  split; [apply describes_map; [apply dot_agree|intros a b Eab; rewrite (quad_ext_n N rcov a b Eab); reflexivity]|].
  split; [rewrite !map_length; reflexivity|].
  destruct (rp_solution_near d e E w c arg m mu cov rb 0 None None base HE HD G HF Hm Hb) as (_ & B1 & B2). cbv zeta in B1. rewrite B2 in B1. change (assets w) with N in B1.
  exists (vlist N (rr_weights base)), grid, (rr_marginal base). split; [exact B1|]. split; [apply multiplier_grid_iff; exact Hg|].
  set (lower := Rmax (dot N rmu (rr_weights base)) 0) in *. rewrite <- (dot_agree N rmu _ _ (agree_wts N (rr_weights base))). fold lower.
  apply mapM_ok_forall2 in Hp.
  assert (Hm1 : map t_mult (map snd pts) = map Some grid).
  { clear - Hp. induction Hp as [|a b la lb Hab Hp IH]; [reflexivity|]. simpl. apply bind_ok in Hab as (s & _ & E1). injection E1 as <-. cbn [snd t_mult]. rewrite IH. reflexivity. }
  split; [unfold all; destruct inc; simpl; rewrite Hm1; reflexivity|]. cbv zeta.
  set (good := fun (v : vec) (en : rp_meta) => match t_mult en with
      | None => vlist N v = vlist N (rr_weights base) /\ t_requested en = None /\ t_effective en = None /\ t_warning en = false
      | Some q => t_requested en = Some (q * lower) /\
                  (exists marg, near_risk_parity d e N mu cov F Fn rb lam (t_effective en) (wts (vlist N v)) marg) /\
                  (t_warning en = true -> t_effective en = None) /\
                  (t_warning en = false -> exists cl, t_effective en = Some cl /\ cl - d <= dot N mu (wts (vlist N v)) /\ lower <= cl <= Rmax (q * lower) lower)
      end).
  assert (Hpts : Forall (fun y => good (fst y) (snd y)) pts).
  { clear all Hm1 Hg. induction Hp as [|a b la lb Hab Hp IH]; constructor; [|exact IH].
    apply bind_ok in Hab as ([s b'] & Hs & E1). injection E1 as <-. unfold good. cbn [fst snd t_mult t_requested t_effective t_warning].
      destruct (relaxed_near d e E w c arg m mu cov rb lam _ lower s b' HE HD G HF Hm Hs) as (_ & R1 & R2 & R3). split; [reflexivity|]. split; [eexists; exact R1|]. auto. }
  assert (Hall : Forall (fun y => good (fst y) (snd y)) all).
  { unfold all. destruct inc; [constructor; [|exact Hpts]|exact Hpts]. unfold good. cbn [fst snd t_mult t_requested t_effective t_warning]. auto. }
  intros i Hi. rewrite map_length in Hi.
  rewrite (nth_map_lt snd all i (zrow, mkMeta None None None false)) by exact Hi.
  rewrite (map_map fst (vlist N)), (nth_map_lt (fun y => vlist N (fst y)) all i (zrow, mkMeta None None None false)) by exact Hi.
  exact (proj1 (Forall_forall _ _) Hall _ (nth_In all _ Hi)).
Qed.
