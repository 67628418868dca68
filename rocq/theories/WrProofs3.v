From Coq Require Import String Classical_Prop.
From Verif Require Import RBase QpBase SortLib RiskModel RiskSpec RiskProofs RiskProperties ConsModel ConsSpec ConsProperties
  MomModel DistModel DistSpec DistProofs DistProofs2 DistProofs3 ConvModel ConvProperties ProjProofs OptModel OptSpec OptProofs OptProofs2 OptProofs3 OptProofs4 FrModel FrSpec FrProofs FrProofs2 FrProperties WrModel WrSpec WrProofs WrProofs2.
Open Scope R_scope.
Open Scope list_scope.

Definition agree (n : nat) (x y : vec) : Prop := forall i, (i < n)%nat -> x i = y i.
Lemma agree_wts n x : agree n x (wts (vlist n x)).
Proof. intros i Hi. rewrite wts_vlist by exact Hi. reflexivity. Qed.
Lemma minimises_agree n (F : vec -> Prop) f x y : (forall x y, agree n x y -> F x -> F y) -> (forall x y, agree n x y -> f x = f y) ->
  agree n x y -> minimises F f x -> minimises F f y.
Proof.
  intros HF Hf E [H1 H2]. split; [apply (HF x y E H1)|]. intros z Hz. rewrite <- (Hf x y E). apply H2. exact Hz.
Qed.
Lemma minimises_iff (F F' : vec -> Prop) f x : (forall y, F y <-> F' y) -> minimises F f x -> minimises F' f x.
Proof. intros E [H1 H2]. split; [apply E; exact H1|]. intros y Hy. apply H2, E, Hy. Qed.

Lemma allowed_agree c n x y : agree n x y -> allowed c n x -> allowed c n y.
Proof.
  intros E H. unfold allowed in *. replace (to_list n y) with (to_list n x); [exact H|]. unfold to_list. apply map_ext_in. intros i Hi.
  apply in_seq in Hi. apply E. lia.
Qed.
Lemma mv_cost_agree n cov w0 lam x y : agree n x y -> mv_cost n cov w0 lam x = mv_cost n cov w0 lam y.
Proof.
  intros E. unfold mv_cost. rewrite (quad_ext_n n cov x y E). f_equal. unfold impact. destruct w0, lam; auto. apply sumn_ext. intros i Hi. rewrite (E i Hi). reflexivity.
Qed.
Lemma turnover_agree n w0 c x y : agree n x y -> turnover_cost n w0 c x = turnover_cost n w0 c y.
Proof. intros E. unfold turnover_cost. destruct w0, c; auto. apply sumn_ext. intros i Hi. rewrite (E i Hi). reflexivity. Qed.
Lemma dot_agree n u x y : agree n x y -> dot n u x = dot n u y.
Proof. intros E. apply dot_ext_r. exact E. Qed.
Lemma dot_self_agree n x y : agree n x y -> dot n x x = dot n y y.
Proof. intros E. apply dot_ext; exact E. Qed.

(** * Minimum variance at a return *)
Lemma mic_length w c k l : good_wrapper w c -> (forall kk l, k = Some kk -> k_mic kk = Some l -> List.length l = assets w) ->
  mic_of w k = Some l -> List.length l = assets w.
Proof. intros G H E. destruct k as [kk|]; simpl in E; [exact (H kk l eq_refl E)|exact (gw_mic w c G l E)]. Qed.

Lemma min_variance_l E w c arg k target p mu cov : exact_env E -> constructed w c -> in_force c arg (assets w) -> moments w mu cov ->
  (forall kk l, k = Some kk -> k_mic kk = Some l -> List.length l = assets w) ->
  min_variance_at_return E w target arg k = Ok p ->
  let N := assets w in let x := wts (p_weights p) in
  let F y := allowed (effective c arg) N y /\ target <= dot N mu y in
  let cost := mv_cost N cov (iw_of w k) (mic_of w k) in
  List.length (p_weights p) = N /\ p_names p = d_names (w_dist w) /\
  p_return p = dot N (fst (in_reports w mu cov)) x /\ p_risk p = sqrt (quad N (snd (in_reports w mu cov)) x) /\
  exists r, 0 <= r /\ minimises F (fun y => cost y + r / 2 * dot N y y) x /\
    (complete_qp (e_qp E) -> (exists y, minimises F cost y) -> r = 0).
Proof.
  intros HE HC HF Hmc Hlen H N x F cost. pose proof (constructed_good w c HC) as G.
  apply min_variance_inv in H as (mu' & cov' & m & x0 & Hmc' & Hm & Hx & ->).
  apply require_ok in Hmc, Hmc'. rewrite Hmc in Hmc'. injection Hmc' as <- <-. cbn [p_weights p_names p_return p_risk] in *.
  assert (HL : forall l, mic_of w k = Some l -> iw_of w k <> None -> List.length l = N) by (intros l El _; exact (mic_length w c k l G Hlen El)).
  pose proof (agree_wts N x0) as A0. fold (assets w) in x. fold N in x. change (agree N x0 x) in A0.
  split; [apply to_list_length|]. split; [reflexivity|]. split; [apply dot_agree; exact A0|].
  split; [unfold vol; f_equal; apply quad_ext_n; exact A0|].
  destruct (mv_portfolio_l (e_qp E) N mu cov _ _ _ _ _ x0 (proj1 HE) HL Hx) as (r & Hr & Hmin & Hr0). exists r. split; [exact Hr|].
  assert (HFi : forall y, constrained N (rows_G m) (rows_A m) y /\ meets N mu (Some target) y <-> F y).
  { intros y. unfold F, N. rewrite (resolve_in_force w c arg m y G HF Hm). reflexivity. }
  split.
  - apply (minimises_agree N F _ x0 x).
    + intros a b Eab [H1 H2]. split; [exact (allowed_agree _ _ _ _ Eab H1)|]. rewrite <- (dot_agree N mu a b Eab). exact H2.
    + intros a b Eab. unfold cost. rewrite (mv_cost_agree N cov _ _ a b Eab), (dot_self_agree N a b Eab). reflexivity.
    + exact A0.
    + exact (minimises_iff _ F _ x0 HFi Hmin).
  - intros Hcomp [y Hy]. unfold mv_portfolio in Hx. apply bind_ok in Hx as ([P q] & Ht & _).
    apply (Hr0 P q Ht). apply (Hcomp _ y). apply (qp_of_minimiser N mu cov (iw_of w k) (mic_of w k)); [exact HL|exact Ht|].
    exact (minimises_iff F _ _ y (fun y => iff_sym (HFi y)) Hy).
Qed.

Lemma min_variance_errors E w c arg k target mu cov : exact_env E -> constructed w c -> in_force c arg (assets w) -> moments w mu cov ->
  costs_fit (assets w) k -> ConsSpec.well_formed (effective c arg) (Z.of_nat (assets w)) ->
  let N := assets w in
  let F y := allowed (effective c arg) N y /\ target <= dot N mu y in
  let cost := mv_cost N cov (iw_of w k) (mic_of w k) in
  ((exists p, min_variance_at_return E w target arg k = Ok p) \/ min_variance_at_return E w target arg k = Err InfeasibleError) /\
  ((forall y, ~ F y) -> min_variance_at_return E w target arg k = Err InfeasibleError) /\
  (complete_qp (e_qp E) -> (exists y, minimises F cost y) -> exists p, min_variance_at_return E w target arg k = Ok p).
Proof.
  intros HE HC HF Hmc Hk Hwf N F cost. pose proof (constructed_good w c HC) as G.
  destruct (proj2 (resolve_total w c arg G) Hwf) as [m Hm].
  assert (HL : forall a l, iw_of w k = Some a -> mic_of w k = Some l -> List.length a = N /\ List.length l = N).
  { intros a l Ea El. destruct k as [kk|]; simpl in Ea, El.
    - destruct (Hk kk eq_refl) as (K1 & K2 & _). injection Ea as <-. split; [exact K1|exact (K2 l El)].
    - split; [exact (gw_iw w c G a Ea)|exact (gw_mic w c G l El)]. }
  destruct (mv_terms_total N cov _ _ HL) as (P & q & Ht).
  assert (HL' : forall l, mic_of w k = Some l -> iw_of w k <> None -> List.length l = N).
  { intros l El Hn. destruct (iw_of w k) as [a|] eqn:Ea; [|contradiction]. exact (proj2 (HL a l eq_refl El)). }
  assert (HFi : forall y, constrained N (rows_G m) (rows_A m) y /\ meets N mu (Some target) y <-> F y).
  { intros y. unfold F, N. rewrite (resolve_in_force w c arg m y G HF Hm). reflexivity. }
  unfold min_variance_at_return. rewrite (require_ok w mu cov Hmc). cbn [bind fst snd]. rewrite Hm. cbn [bind]. rewrite resolve_costs_eq.
  fold (assets w). fold N. rewrite Ht. cbn [bind].
  destruct (mv_solve_target (e_qp E) N mu P q (rows_G m) (rows_A m) (Some target)) as [x|e] eqn:Es; cbn [as_infeasible bind].
  - split; [left; eexists; reflexivity|]. split; [|intros _ _; eexists; reflexivity].
    intros Hn. exfalso. apply (Hn x), HFi. exact (mv_solve_constrained _ _ _ _ _ _ _ _ _ (proj1 HE) Es).
  - assert (Ee : e = RuntimeError /\ e_qp E (mv_qp N mu P q (rows_G m) (rows_A m) (Some target)) = None).
    { unfold mv_solve_target in Es. destruct (e_qp E (mv_qp N mu P q _ _ _)); [discriminate|]. destruct (e_qp E _); [discriminate|]. injection Es as <-. auto. }
    destruct Ee as [-> En]. cbn [runtime_err]. split; [right; reflexivity|]. split; [reflexivity|].
    intros Hc [y Hy]. exfalso. refine (Hc _ y _ En). apply (qp_of_minimiser N mu cov (iw_of w k) (mic_of w k)); [exact HL'|exact Ht|].
    exact (minimises_iff F _ _ y (fun y => iff_sym (HFi y)) Hy).
Qed.

(** Reported return. *)
Lemma dot_le_nonneg n u v x : (forall i, (i < n)%nat -> 0 <= x i) -> (forall i, (i < n)%nat -> u i <= v i) -> dot n u x <= dot n v x.
Proof. intros Hx Hu. unfold dot. apply sumn_le. intros i Hi. apply Rmult_le_compat_r; auto. Qed.

Lemma report_ge w mu cov x N : N = assets w -> (w_log w = true -> (forall i, (i < N)%nat -> 0 <= x i /\ 0 <= cov i i)) ->
  dot N mu x <= dot N (fst (in_reports w mu cov)) x.
Proof.
  intros EN H. unfold in_reports. destruct (w_log w); [|simpl; lra]. apply dot_le_nonneg.
  - intros i Hi. apply (H eq_refl i Hi).
  - intros i Hi. apply log2simple_mean_bounds. apply (H eq_refl i Hi).
Qed.

(** * Scenarios *)
Lemma as_vec_real a s f k : real_array a s f -> (k < nd_size a)%nat -> as_vec a k = f k.
Proof. intros [_ H] Hk. unfold as_vec. rewrite H by exact Hk. reflexivity. Qed.
Lemma prob_vec_ext T p q : (forall t, (t < T)%nat -> p t = q t) -> prob_vec T p -> prob_vec T q.
Proof. intros E [H1 H2]. split; [intros t Ht; rewrite <- E by exact Ht; auto|]. rewrite <- H2. apply sumn_ext. intros; symmetry; auto. Qed.

Lemma clean_probs_prob a T q : real_array a [T] q -> prob_vec T q -> clean_probs a = Ok (as_vec a) /\ prob_vec T (as_vec a).
Proof.
  intros Ha Hq. pose proof (size1 a T (proj1 Ha)) as Ez.
  assert (E : forall t, (t < T)%nat -> as_vec a t = q t) by (intros t Ht; apply (as_vec_real a [T] q t Ha); lia).
  assert (Hp : prob_vec T (as_vec a)) by (apply (prob_vec_ext T q); [intros; symmetry; auto|exact Hq]).
  split; [|exact Hp]. unfold clean_probs.
  assert (En : nd_any p_lt0 a = false).
  { apply Bool.not_true_is_false. intros K. apply existsb_exists in K as (k & Hk & K). apply in_seq in Hk. rewrite (proj2 Ha) in K by lia. simpl in K.
    apply Rltb_true in K. pose proof (proj1 Hq k ltac:(lia)). lra. }
  rewrite En. rewrite nd_sum_real.
  2:{ intros k Hk. rewrite (proj2 Ha) by exact Hk. unfold as_vec. rewrite (proj2 Ha) by exact Hk. reflexivity. }
  rewrite Ez. destruct Hp as [_ ->]. destruct (Rleb_spec 1 0); [lra|]. unfold risclose. rewrite Rminus_eq_0, Rabs_R0.
  destruct (Rleb_spec 0 (1 / 100000000 + 1 / 100000 * Rabs 1)) as [|K]; [reflexivity|]. rewrite Rabs_R1 in K. lra.
Qed.

Lemma inr5000 : INR (5 * 1000) = 5000.
Proof. rewrite mult_INR. rewrite (INR_IZR_INZ 1000). change (Z.of_nat 1000) with 1000%Z. simpl INR. lra. Qed.
Lemma uniform5000 : exists a, uniform_probs (5 * 1000) = Ok a /\ real_array a [(5 * 1000)%nat] (fun _ => 1 / 5000) /\ forall t, as_vec a t = 1 / 5000.
Proof.
  exists (mkND [(5 * 1000)%nat] (fun _ => Fin (1 / INR (5 * 1000)))). split.
  - unfold uniform_probs. rewrite (proj2 (Nat.eqb_neq (5 * 1000) 0)) by lia. reflexivity.
  - split; [split; [reflexivity|]|]; intros; unfold as_vec; cbn [nd_at val]; rewrite inr5000; reflexivity.
Qed.
Lemma prob5000 : prob_vec (5 * 1000) (fun _ => 1 / 5000).
Proof. split; [intros; lra|]. rewrite sumn_const, inr5000. lra. Qed.

Lemma scenario_inputs_l sim w c T X p mu : good_wrapper w c -> scenario_inputs sim w = Ok (T, X, p, mu) ->
  scenario_data sim w T X p /\ prob_vec T p /\
  match d_mu (w_dist w) with
  | None => forall i, mu i = scenario_mean T X p i
  | Some m => exists cov, mu = fst (in_reports w (as_vec m) cov) /\ (w_log w = true -> moments w (as_vec m) cov)
  end.
Proof.
  intros G H. unfold scenario_inputs in H. fold (assets w) in H. apply bind_ok in H as ([[T0 X0] p0] & H0 & H). apply bind_ok in H as (p1 & Hp & H). apply bind_ok in H as (mu1 & Hmu & H).
  injection H as <- <- <- <-. pose proof (vd_scen _ (gw_dist w c G)) as V.
  assert (A : scenario_data sim w T0 X0 p1 /\ prob_vec T0 p1).
  { unfold scenario_data. destruct (d_scen (w_dist w)) as [S|].
    - destruct (d_probs (w_dist w)) as [pr|]; [|contradiction]. destruct (d_T (w_dist w)) as [T|]; [|contradiction].
      destruct V as (HT & [f HX] & _ & _ & q & Hq & Pq). cbn [bind] in H0. injection H0 as <- <- <-.
      destruct (clean_probs_prob pr T q Hq Pq) as [E1 E2]. rewrite E1 in Hp. injection Hp as <-.
      rewrite (proj1 HX). cbn [hd]. split; [|exact E2]. exists pr. auto.
    - destruct (d_mu (w_dist w)) as [mm|]; [|discriminate]. destruct (d_cov (w_dist w)) as [cc|]; [|discriminate].
      destruct uniform5000 as (a & Ea & Ra & Va). rewrite Ea in H0. cbn [bind] in H0. injection H0 as <- <- <-.
      destruct (clean_probs_prob a _ _ Ra prob5000) as [E1 E2]. rewrite E1 in Hp. injection Hp as <-.
      split; [|exact E2]. split; [lia|]. split; [reflexivity|exact Va]. }
  destruct A as [A1 A2]. split; [exact A1|]. split; [exact A2|].
  destruct (d_mu (w_dist w)) as [mm|] eqn:Em.
  - destruct (w_log w) eqn:Eg.
    + destruct (d_cov (w_dist w)) as [cc|] eqn:Ec; [|discriminate]. injection Hmu as <-. exists (as_mat (assets w) cc). unfold in_reports. rewrite Eg.
      split; [reflexivity|]. intros _. exists mm, cc. auto.
    + injection Hmu as <-. exists (fun _ _ => 0). unfold in_reports. rewrite Eg. split; [reflexivity|discriminate].
  - injection Hmu as <-. intros i. unfold scenario_mean. apply sumn_ext. intros; ring.
Qed.

(** * CVaR *)
Lemma rdot_vlist n u v : rdot (vlist n u) (vlist n v) = dot n u v.
Proof.
  rewrite vlist_to_list, (vlist_to_list n v). rewrite (rdot_dot n) by apply to_list_length. apply dot_ext; auto. intros i Hi. unfold of_list, to_list. rewrite nth_map_seq by exact Hi. reflexivity.
Qed.
Lemma pnl_scen N T X x : scenario_pnl (scen_rows N T X) (vlist N x) = to_list T (fun t => dot N (X t) x).
Proof. unfold scenario_pnl, scen_rows, to_list. rewrite map_map. apply map_ext. intros t. apply rdot_vlist. Qed.
Lemma scen_rows_len N T X : List.length (scen_rows N T X) = T.
Proof. unfold scen_rows. rewrite map_length, seq_length. reflexivity. Qed.

Lemma abs_cvar_l E N T X p alpha cols risks : sorts Rle 0 (e_sort E) -> prob_vec T p -> abs_cvar E N T X p alpha cols = Ok risks ->
  0 < alpha < 1 /\ Forall2 (fun x r => exists v, cvar_of N T X p alpha x v /\ r = Rabs v) cols risks.
Proof.
  intros Hs Hp H. unfold abs_cvar in H. apply bind_ok in H as (cs & Hc & H). injection H as <-.
  assert (Ha : 0 < alpha < 1).
  { unfold portfolio_cvar, portfolio_risk in Hc. destruct (Rltb_spec 0 (1 - alpha)); [|discriminate]. destruct (Rltb_spec (1 - alpha) 1); [|discriminate]. lra. }
  split; [exact Ha|].
  pose proof (prob_vec_list T p Hp) as Hv.
  assert (Hpo : p_ok (Some (vlist T p)) (List.length (scen_rows N T X))) by (simpl; rewrite scen_rows_len; exact Hv).
  pose proof (cvar_is_rockafellar_uryasev (e_sort E) _ _ _ _ _ _ Hs Hpo Hc) as F.
  cbn [eff_p eff_conf risk_pnl] in F. replace (1 - (1 - alpha)) with alpha in F by ring.
  clear Hc. revert cs F. induction cols as [|x cols IH]; intros cs F; inversion F; subst; simpl; constructor.
  - exists y. split; [|reflexivity]. rewrite pnl_scen in H1. exact H1.
  - apply IH. assumption.
Qed.

Definition cost_of (E : env) N T X p alpha w0 c (x : vec) : R :=
  - cvar_pnl (e_sort E) alpha (to_list T (fun t => dot N (X t) x)) (to_list T p) + turnover_cost N w0 c x.
Lemma cost_of_cvar E N T X p alpha w0 c : sorts Rle 0 (e_sort E) -> prob_vec T p -> 0 < alpha < 1 ->
  cvar_cost N T X p alpha w0 c (cost_of E N T X p alpha w0 c).
Proof.
  intros Hs Hp Ha x. unfold cost_of. match goal with |- is_cvar _ _ _ ?v => replace v with (- cvar_pnl (e_sort E) alpha (to_list T (fun t => dot N (X t) x)) (to_list T p)) by ring end.
  apply cvar_pnl_is_cvar; auto; [|lra]. rewrite to_list_length. apply prob_vec_list. exact Hp.
Qed.

Lemma cvar_of_agree N T X p alpha x y v : agree N x y -> cvar_of N T X p alpha x v -> cvar_of N T X p alpha y v.
Proof.
  intros E H. unfold cvar_of in *. replace (to_list T (fun t => dot N (X t) y)) with (to_list T (fun t => dot N (X t) x)); [exact H|].
  unfold to_list. apply map_ext. intros t. apply dot_agree. exact E.
Qed.

Lemma pc_nth w k N : pc_nonneg w k -> forall c, pc_of w k = Some c -> forall i, (i < N)%nat -> 0 <= nth i c 0.
Proof.
  intros H c Ec i _. destruct (Nat.lt_ge_cases i (List.length c)) as [L|L]; [apply (H c Ec), nth_In, L|]. rewrite nth_overflow by exact L. lra.
Qed.

Lemma min_cvar_l E sim w c arg k target alpha p : exact_env E -> constructed w c -> in_force c arg (assets w) -> pc_nonneg w k ->
  min_cvar_at_return E sim w target alpha arg k = Ok p ->
  let N := assets w in let x := wts (p_weights p) in
  0 < alpha < 1 /\ List.length (p_weights p) = N /\ p_names p = d_names (w_dist w) /\
  exists T X q mu v, scenario_data sim w T X q /\ prob_vec T q /\
    let F y := allowed (effective c arg) N y /\ target <= dot N (scenario_mean T X q) y in
    F x /\ cvar_of N T X q alpha x v /\ p_risk p = Rabs v /\ p_return p = dot N mu x /\
    (forall y v', F y -> cvar_of N T X q alpha y v' -> v + turnover_cost N (iw_of w k) (pc_of w k) x <= v' + turnover_cost N (iw_of w k) (pc_of w k) y) /\
    match d_mu (w_dist w) with
    | None => forall i, mu i = scenario_mean T X q i
    | Some m => exists cov, mu = fst (in_reports w (as_vec m) cov) /\ (w_log w = true -> moments w (as_vec m) cov)
    end.
Proof.
  intros HE HC HF Hpc H N x. pose proof (constructed_good w c HC) as G.
  apply min_cvar_inv in H as (T & X & q & mu & m & x0 & risk & Hs & Hm & Hx & Hr & ->). cbn [p_weights p_names p_return p_risk] in *.
  destruct (scenario_inputs_l sim w c T X q mu G Hs) as (Hd & Hq & Hmu).
  destruct HE as (Hqp & Hlp & Hcone & Hch & Hso).
  destruct (abs_cvar_l E _ T X q alpha [x0] risk Hso Hq Hr) as (Ha & FF). inversion FF as [|a b la lb (v & Hv & Ev) FF' E1 E2]. subst. inversion FF'. subst.
  pose proof (agree_wts N x0) as A0. change (agree N x0 x) in A0.
  split; [exact Ha|]. split; [apply to_list_length|]. split; [reflexivity|]. exists T, X, q, mu, v. split; [exact Hd|]. split; [exact Hq|].
  set (F := fun y : vec => allowed (effective c arg) N y /\ target <= dot N (scenario_mean T X q) y). pose proof (cost_of_cvar E N T X q alpha (iw_of w k) (pc_of w k) Hso Hq Ha) as Hcost.
  pose proof (cvar_portfolio_l (e_lp E) N T X q alpha _ _ _ _ _ x0 _ Hlp Hq (proj1 Ha) (pc_nth w k N Hpc) Hcost Hx) as Hmin.
  assert (HFi : forall y, constrained N (rows_G m) (rows_A m) y /\ meets N (cvar_mean T q X) (Some target) y <-> F y).
  { intros y. unfold F, N. rewrite (resolve_in_force w c arg m y G HF Hm). reflexivity. }
  apply (minimises_iff _ F _ x0 HFi) in Hmin. destruct Hmin as [M1 M2].
  assert (M1' : F x). { destruct M1 as [B1 B2]. split; [exact (allowed_agree _ _ _ _ A0 B1)|]. rewrite <- (dot_agree N _ x0 x A0). exact B2. }
  split; [exact M1'|]. split; [exact (cvar_of_agree _ _ _ _ _ _ _ _ A0 Hv)|]. split; [reflexivity|]. split; [apply dot_agree; exact A0|]. split; [|exact Hmu].
  intros y v' Hy Hv'. specialize (M2 y Hy). unfold cost_of in M2.
  pose proof (Hcost x0) as K1. pose proof (Hcost y) as K2.
  apply (cvar_unique _ _ _ _ _ Hv) in K1. apply (cvar_unique _ _ _ _ _ Hv') in K2. rewrite <- (turnover_agree N _ _ x0 x A0). unfold cost_of in *. lra.
Qed.
