From Coq Require Import String Classical_Prop.
From Verif Require Import RBase QpBase SortLib RiskModel RiskSpec RiskProofs RiskProperties ConsModel ConsSpec ConsProperties
  MomModel DistModel DistSpec DistProofs DistProofs2 DistProofs3 ConvModel ConvProperties ProjProofs OptModel OptSpec OptProofs OptProofs2 OptProofs3 OptProofs4 OptProperties FrModel FrSpec FrProofs FrProofs2 FrProofs3 FrProofs4 FrProperties WrModel WrSpec WrProofs WrProofs2 WrProofs3 WrProofs4.
Open Scope R_scope.
Open Scope list_scope.

(** * Grids *)
Lemma linspace_length lo hi num : List.length (linspace lo hi num) = Z.to_nat num.
Proof. unfold linspace. rewrite map_length, seq_length. reflexivity. Qed.
Lemma linspace_nth lo hi num k : (k < Z.to_nat num)%nat -> nth k (linspace lo hi num) 0 = lo + INR k * ((hi - lo) / (IZR num - 1)).
Proof. intros H. unfold linspace. rewrite nth_map_seq by exact H. reflexivity. Qed.
Lemma list_nth_eq (l l' : list R) : List.length l = List.length l' -> (forall k, (k < List.length l)%nat -> nth k l 0 = nth k l' 0) -> l = l'.
Proof. intros HL H. apply (nth_ext l l' 0 0 HL). exact H. Qed.

Lemma neg_existsb l : existsb (fun x => Rltb x 0) l = false <-> forall x, In x l -> 0 <= x.
Proof.
  split.
  - intros H x Hx. destruct (Rltb_spec x 0) as [L|L]; [|lra]. exfalso. assert (existsb (fun x => Rltb x 0) l = true); [|congruence].
    apply existsb_exists. exists x. split; [exact Hx|]. apply Rltb_true. exact L.
  - intros H. apply Bool.not_true_is_false. intros K. apply existsb_exists in K as (x & Hx & K). apply Rltb_true in K. specialize (H x Hx). lra.
Qed.
Lemma given_grid l grid : (if Nat.eqb (List.length l) 0 then Err ValueError else if existsb (fun x => Rltb x 0) l then Err ValueError else Ok l) = Ok grid <->
  grid = l /\ l <> [] /\ forall x, In x l -> 0 <= x.
Proof.
  destruct l as [|a l]; simpl Nat.eqb; cbv iota; [split; [discriminate|intros (_ & H & _); contradiction]|].
  destruct (existsb (fun x => Rltb x 0) (a :: l)) eqn:E.
  - split; [discriminate|]. intros (_ & _ & H). apply neg_existsb in H. congruence.
  - split; [intros H; injection H as <-|intros (-> & _); reflexivity]. split; [reflexivity|]. split; [discriminate|]. apply neg_existsb. exact E.
Qed.
Lemma lambda_grid_iff num mx lams grid : lambda_grid num mx lams = Ok grid <-> penalties num mx lams grid.
Proof.
  unfold lambda_grid, penalties. destruct lams as [l|]; [apply given_grid|].
  destruct (Z.leb_spec num 0) as [Hn|Hn]; [split; [discriminate|intros (H & _); lia]|].
  destruct (Rltb_spec mx 0) as [Hm|Hm]; [split; [discriminate|intros (_ & H & _); lra]|].
  destruct (Z.eqb_spec num 1) as [En|En].
  - split; [intros H; injection H as <-; split; [lia|]; split; [lra|]; left; auto|].
    intros (_ & _ & [[_ ->]|[(H & _)|(H & _)]]); [reflexivity|lia|lia].
  - destruct (Reqb mx 0) eqn:Em.
    + apply Reqb_true in Em. split; [intros H; injection H as <-; split; [lia|]; split; [lra|]; right; left; split; [lia|auto]|].
      intros (_ & _ & [[H _]|[(_ & _ & ->)|(_ & H & _)]]); [lia|reflexivity|lra].
    + assert (Hp : 0 < mx). { destruct (Rtotal_order mx 0) as [K|[K|K]]; [lra| |lra]. exfalso. assert (Reqb mx 0 = true) by (apply Reqb_true; exact K). congruence. }
      split.
      * intros H; injection H as <-. split; [lia|]. split; [lra|]. right; right. split; [lia|]. split; [exact Hp|]. split; [apply linspace_length|].
        intros k Hk. rewrite linspace_nth by exact Hk. rewrite Rminus_0_r. ring.
      * intros (_ & _ & [[H _]|[(_ & H & _)|(_ & _ & HL & H)]]); [lia|lra|]. f_equal. apply list_nth_eq; [rewrite linspace_length; auto|].
        intros k Hk. rewrite linspace_length in Hk. rewrite H, linspace_nth by exact Hk. rewrite Rminus_0_r. ring.
Qed.
Lemma multiplier_grid_iff num mx mults grid : multiplier_grid num mx mults = Ok grid <-> multipliers num mx mults grid.
Proof.
  unfold multiplier_grid, multipliers. destruct mults as [l|]; [apply given_grid|].
  destruct (Z.leb_spec num 0) as [Hn|Hn]; [split; [discriminate|intros (H & _); lia]|].
  destruct (Rltb_spec mx 1) as [Hm|Hm]; [split; [discriminate|intros (_ & H & _); lra]|].
  destruct (Z.eqb_spec num 1) as [En|En].
  - rewrite (Rmax_right 1 mx) by lra. split; [intros H; injection H as <-; split; [lia|]; split; [lra|]; left; auto|].
    intros (_ & _ & [[_ ->]|(H & _)]); [reflexivity|lia].
  - split.
    + intros H; injection H as <-. split; [lia|]. split; [lra|]. right. split; [lia|]. split; [apply linspace_length|]. intros k Hk. apply linspace_nth. exact Hk.
    + intros (_ & _ & [[H _]|(_ & HL & H)]); [lia|]. f_equal. apply list_nth_eq; [rewrite linspace_length; auto|].
      intros k Hk. rewrite linspace_length in Hk. rewrite H, linspace_nth by exact Hk. reflexivity.
Qed.
Lemma grid_nonneg num mx lams grid : penalties num mx lams grid -> forall x, In x grid -> 0 <= x.
Proof.
  unfold penalties. destruct lams as [l|]; [intros (-> & _ & H); exact H|]. intros (Hn & Hm & [[_ ->]|[(_ & _ & ->)|(H1 & H2 & HL & H)]]) x Hx.
  - destruct Hx as [<-|[]]. lra.
  - destruct Hx as [<-|[]]. lra.
  - apply (In_nth _ _ 0) in Hx as (k & Hk & <-). rewrite H by lia. apply Rmult_le_pos; [apply pos_INR|]. unfold Rdiv. apply Rmult_le_pos; [lra|].
    apply Rlt_le, Rinv_0_lt_compat. assert (2 <= IZR num) by (apply IZR_le; lia). lra.
Qed.

(** * Robust frontier *)
Lemma mv_agree n M x y i : agree n x y -> mv n M x i = mv n M y i.
Proof. intros E. unfold mv. apply dot_agree. exact E. Qed.
Lemma norm_agree n L x y : agree n x y -> norm2 n (mv n L x) = norm2 n (mv n L y).
Proof. intros E. unfold norm2. f_equal. apply dot_ext; intros i Hi; apply mv_agree; exact E. Qed.

Lemma take_nth_in {A} (d : A) l o k : (k < List.length o)%nat -> nth k (take d l o) d = nth (nth k o 0%nat) l d.
Proof. intros H. unfold take. rewrite (nth_map_lt (fun i => nth i l d) o k 0%nat d H). reflexivity. Qed.

Lemma robust_frontier_l E w c arg k num mx lams rc f lam' mu cov : exact_env E -> constructed w c -> in_force c arg (assets w) -> moments w mu cov ->
  robust_lambda_frontier E w num mx lams rc arg k = Ok (f, lam') ->
  let N := assets w in let F y := allowed (effective c arg) N y in
  f_n f = N /\ f_names f = d_names (w_dist w) /\ f_measure f = robust_measure /\
  List.length lam' = List.length (f_cols f) /\ List.length (f_risk f) = List.length (f_cols f) /\ nondecreasing (f_risk f) /\
  f_ret f = map (fun l => dot N (fst (in_reports w mu cov)) (wts l)) (f_cols f) /\
  (exists grid, penalties num mx lams grid /\ Permutation lam' grid) /\
  (exists L, root_of N (uncertainty w cov) L /\
    (forall i, (i < List.length lam')%nat ->
      let x := wts (nth i (f_cols f) []) in
      0 <= nth i lam' 0 /\ minimises F (fun y => - dot N mu y + nth i lam' 0 * norm2 N (mv N L y)) x /\
      norm2 N (mv N L x) <= nth i (f_risk f) 0 /\ (0 < nth i lam' 0 -> nth i (f_risk f) 0 = norm2 N (mv N L x))) /\
    (forall i j, (i <= j < List.length lam')%nat ->
      let x := wts (nth i (f_cols f) []) in let y := wts (nth j (f_cols f) []) in
      dot N mu x <= dot N mu y /\ (norm2 N (mv N L x) < norm2 N (mv N L y) -> nth j lam' 0 <= nth i lam' 0))) /\
  (forall lab v, In (lab, v) (f_alt f) -> lab = "Volatility"%string \/ (lab = "CVaR (95%)"%string /\ cvar95_column w (f_cols f) v)) /\
  (rc = None -> w_unc w <> None -> lookup "Volatility" (f_alt f) = Some (map (fun l => vol N cov (wts l)) (f_cols f))).
Proof.
  intros HE HC HF Hmc H N F. pose proof (constructed_good w c HC) as G.
  apply robust_lambda_inv in H as (mu' & cov' & m & grid & rets & risks & cols & Hmc' & Hm & Hg & Hr & order & Eo & -> & ->); [|exact HE].
  apply require_ok in Hmc, Hmc'. rewrite Hmc in Hmc'. injection Hmc' as <- <-. change (assets w) with N in Hr |- *.
  destruct (robust_frontier_inv _ _ _ _ _ _ _ _ _ _ _ _ _ (proj1 (proj2 (proj2 HE))) (proj1 (proj2 (proj2 (proj2 HE)))) Hr) as (L & j & Hj & _ & HL & _ & _ & L1 & L2 & Hk).
  pose proof (ordered_lt E risks HE) as Ho. rewrite <- Eo in Ho.
  assert (Lo : List.length order = List.length grid) by (apply Permutation_length in Ho; rewrite seq_length in Ho; lia).
  assert (Hi : forall i, (i < List.length grid)%nat -> (nth i order 0 < List.length grid)%nat).
  { intros i Hi. assert (In (nth i order 0%nat) (seq 0 (List.length risks))) as K by (apply (Permutation_in _ Ho), nth_In; lia). apply in_seq in K. lia. }
  assert (HFi : forall y, constrained N (rows_G m) (rows_A m) y <-> F y).
  { intros y. unfold F, N. apply (resolve_in_force w c arg m y G HF Hm). }
  assert (FA : forall x y, agree N x y -> F x -> F y) by (intros x y; apply allowed_agree).
  cbn [f_n f_names f_measure f_ret f_cols f_alt f_risk]. split; [reflexivity|]. split; [reflexivity|]. split; [reflexivity|].
  rewrite !take_length. split; [reflexivity|]. split; [reflexivity|].
  assert (Hsorted : nondecreasing (take 0 risks order)).
  { rewrite Eo. destruct (Nat.ltb_spec 1 (List.length risks)) as [Hlt|Hlt].
    - apply sorted_nth. apply (proj2 (proj2 (proj2 (proj2 (proj2 HE))) risks)).
    - intros a b Hab. rewrite take_length, seq_length in Hab. assert (a = b) by lia. subst. lra. }
  split; [exact Hsorted|].
  split.
  { unfold take. rewrite map_map. apply map_ext_in. intros i Hin. assert (i < List.length cols)%nat.
    { apply (Permutation_in _ Ho), in_seq in Hin. lia. }
    rewrite (nth_map_lt (dot N _) cols i zrow 0 H), (nth_map_lt (vlist N) cols i zrow [] H). apply dot_agree, agree_wts. }
  split; [exists grid; split; [apply lambda_grid_iff; exact Hg|apply take_perm; rewrite <- L2; exact Ho]|].
  assert (X : forall i, (i < List.length order)%nat -> let x := wts (nth i (take [] (map (vlist N) cols) order) []) in
    let lam := nth i (take 0 grid order) 0 in let t := nth i (take 0 risks order) 0 in
    0 <= lam /\ minimises F (fun y => - dot N mu y + lam * norm2 N (mv N L y)) x /\
      norm2 N (mv N L x) <= t /\ (0 < lam -> t = norm2 N (mv N L x))).
  { intros i Hlt. cbv zeta. rewrite !take_nth_in by exact Hlt. rewrite Lo in Hlt. specialize (Hi i Hlt). set (q := nth i order 0%nat) in *.
    rewrite (nth_map_lt (vlist N) cols q zrow []) by lia. destruct (Hk q Hi) as (K1 & K2 & K3 & K4).
    pose proof (agree_wts N (nth q cols zrow)) as A0. rewrite <- (norm_agree N L _ _ A0). split; [exact K1|]. split; [|split; assumption].
    apply (minimises_agree N F _ (nth q cols zrow)); [exact FA| |exact A0|exact (minimises_iff _ F _ _ HFi K2)].
    intros a b Eab. rewrite (dot_agree N mu a b Eab), (norm_agree N L a b Eab). reflexivity. }
  split.
  { exists L. split; [exists j; split; [exact Hj|exact HL]|]. split; [exact X|].
    intros i i' Hii. cbv zeta. destruct (X i ltac:(lia)) as (A1 & [A2 A2'] & A3 & A4). destruct (X i' ltac:(lia)) as (B1 & [B2 B2'] & B3 & B4).
    cbv zeta in A2, A2', A3, A4, B2, B2', B3, B4. specialize (A2' _ B2). specialize (B2' _ A2).
    pose proof (Hsorted i i') as Hs'. rewrite take_length in Hs'. specialize (Hs' ltac:(lia)).
    set (x := wts (nth i (take [] (map (vlist N) cols) order) [])) in *. set (y := wts (nth i' (take [] (map (vlist N) cols) order) [])) in *.
    set (la := nth i (take 0 grid order) 0) in *. set (lb := nth i' (take 0 grid order) 0) in *.
    set (nx := norm2 N (mv N L x)) in *. set (ny := norm2 N (mv N L y)) in *. split.
    - destruct B1 as [B1|B1]; [|rewrite <- B1 in B2'; lra]. rewrite (B4 B1) in Hs'. assert (0 <= lb * (ny - nx)) by (apply Rmult_le_pos; lra). lra.
    - intros Hlt. destruct (Rle_or_lt lb la) as [K|K]; [exact K|]. exfalso. assert (0 < (lb - la) * (ny - nx)) by (apply Rmult_lt_0_compat; lra). lra. }
  split.
  - intros lab v Hin. apply in_map_iff in Hin as ([l u] & E1 & Hin). injection E1 as <- <-. cbn [fst snd]. unfold robust_overlays in Hin.
    apply in_app_or in Hin as [Hin|Hin].
    + left. fold (assets w) in Hin. fold N in Hin. match type of Hin with In _ (match ?s with Some _ => _ | None => _ end) => destruct s as [M|]; [|destruct Hin] end.
      destruct Hin as [Hin|[]]. injection Hin as <- _. reflexivity.
    + right. destruct (overlay_l E w c cols l u HE G Hin) as [E1 (T & X0 & p & S1 & S2 & S3)]. split; [exact E1|]. exists T, X0, p. split; [exact S1|]. split; [exact S2|].
      change (assets w) with N in S3 |- *. unfold take.
      assert (K : forall i, In i order -> exists cv, cvar_of N T X0 p (5 / 100) (wts (nth i (map (vlist N) cols) [])) cv /\ nth i u 0 = Rabs cv).
      { intros i Hin'. apply (Permutation_in _ Ho), in_seq in Hin'. apply (Forall2_nth _ _ _ [] 0 S3). rewrite map_length. lia. }
      clear - K. induction order as [|i o IH]; simpl; constructor; [apply K; left; reflexivity|apply IH; intros i' Hi'; apply K; right; exact Hi'].
  - intros -> Hu. unfold robust_overlays. destruct (w_unc w) as [u|]; [|contradiction]. simpl map. cbn [lookup String.eqb Ascii.eqb Bool.eqb fst snd app].
    f_equal. unfold take. rewrite map_map. apply map_ext_in. intros i Hin. apply (Permutation_in _ Ho), in_seq in Hin. fold (assets w). change (assets w) with N.
    rewrite (nth_map_lt (vol N cov) cols i zrow 0) by lia. rewrite (nth_map_lt (vlist N) cols i zrow []) by lia. apply vol_agree, agree_wts.
Qed.

(** * Gamma portfolio *)
Lemma gamma_l E w c arg k gm gs p mu cov : exact_env E -> constructed w c -> in_force c arg (assets w) -> moments w mu cov ->
  solve_robust_gamma E w gm gs arg k = Ok p ->
  let N := assets w in let F y := allowed (effective c arg) N y in let x := wts (p_weights p) in
  0 <= gm /\ 0 <= gs /\ List.length (p_weights p) = N /\ p_names p = d_names (w_dist w) /\ p_return p = dot N mu x /\
  exists L, root_of N (uncertainty w cov) L /\
    (norm2 N (mv N L x)) ^ 2 <= p_risk p <= gs /\
    minimises (fun y => F y /\ norm2 N (mv N L y) <= sqrt gs) (fun y => - dot N mu y + gm * norm2 N (mv N L y)) x.
Proof.
  intros HE HC HF Hmc H N F x. pose proof (constructed_good w c HC) as G.
  apply gamma_inv in H as (mu' & cov' & m & r & Hmc' & Hm & Hr & ->).
  apply require_ok in Hmc, Hmc'. rewrite Hmc in Hmc'. injection Hmc' as <- <-. cbn [p_weights p_names p_return p_risk] in *.
  destruct (robust_gamma_worst_case _ _ _ _ _ _ _ _ _ _ _ _ (proj1 (proj2 (proj2 HE))) (proj1 (proj2 (proj2 (proj2 HE)))) Hr) as (Hgm & Hgs & L & j & Hj & _ & HL & Er & Hn & Hmin).
  change (assets w) with N in HL, Er, Hn, Hmin |- *. pose proof (agree_wts N (r_weights r)) as A0. change (agree N (r_weights r) x) in A0.
  split; [exact Hgm|]. split; [exact Hgs|]. split; [apply to_list_length|]. split; [reflexivity|]. split; [rewrite Er; apply dot_agree; exact A0|].
  exists L. split; [exists j; split; [exact Hj|exact HL]|]. rewrite <- (norm_agree N L _ _ A0).
  assert (HFi : forall y, constrained N (rows_G m) (rows_A m) y <-> F y).
  { intros y. unfold F, N. apply (resolve_in_force w c arg m y G HF Hm). }
  split.
  - pose proof (norm2_nonneg N (mv N L (r_weights r))) as P. set (t := r_risk r) in *. set (nn := norm2 N (mv N L (r_weights r))) in *.
    assert (Ht : t * t <= gs). { rewrite <- (sqrt_sqrt gs Hgs) at 1. apply Rmult_le_compat; lra. }
    destruct (Rltb_spec gs (t * t)); [lra|]. split; [|lra]. simpl. rewrite Rmult_1_r. apply Rmult_le_compat; lra.
  - apply (minimises_agree N _ _ (r_weights r)).
    + intros a b Eab [B1 B2]. split; [exact (allowed_agree _ _ _ _ Eab B1)|]. rewrite <- (norm_agree N L a b Eab). exact B2.
    + intros a b Eab. rewrite (dot_agree N mu a b Eab), (norm_agree N L a b Eab). reflexivity.
    + exact A0.
    + apply (minimises_iff (fun y => constrained N (rows_G m) (rows_A m) y /\ norm2 N (mv N L y) <= sqrt gs)); [|exact Hmin].
      intros y. rewrite HFi. reflexivity.
Qed.
