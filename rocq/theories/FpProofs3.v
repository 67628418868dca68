(** CVaR accuracy, and the call as a whole. *)
From Verif Require Import RBase SortLib RiskModel RiskSpec RiskProofs FpLib FpModel FpSpec FpProofs FpProofs2.
Open Scope R_scope.

Lemma in_map2_iff {A B C} (f : A -> B -> C) l m z : In z (map2 f l m) -> exists a b, In a l /\ In b m /\ z = f a b.
Proof.
  revert m. induction l as [|a l IH]; intros [|b m] H; try (destruct H; fail). cbn [map2] in H. destruct H as [<-|H].
  - exists a, b. repeat split; left; reflexivity.
  - destruct (IH m H) as (a' & b' & H1 & H2 & ->). exists a', b'. repeat split; try (right; assumption).
Qed.
Lemma map2_len {A B C} (f : A -> B -> C) l m : length l = length m -> length (map2 f l m) = length l.
Proof. revert m. induction l as [|a l IH]; intros [|b m] H; try discriminate H; simpl; auto. Qed.

(** The computed value against the exact expression at the same VaR. *)
Lemma f_cvar_local npsum argsort t x p M : sums npsum -> length p = length x -> x <> [] -> INR (length x) * ur <= 1 / 8 ->
  (forall w, In w p -> 0 <= w /\ isf w) -> rsum p <= 9 / 8 -> 0 < t <= 9 / 8 -> isf t ->
  (forall y, In y x -> Rabs y <= M) -> In (f_var_pnl argsort t x p) x ->
  let q := f_var_pnl argsort t x p in
  Rabs (- f_cvar_pnl npsum argsort t x p - ru p x t (- q)) <= ((5 * INR (length x) + 15) * ur * M + (2 * INR (length x) + 5) * eta) / t.
Proof.
  intros Hs Hl Hne HT Hp Hsum Ht Ft HX Hin q. fold q in Hin. rewrite <- (tail_value_ru p x t q Hl (proj1 Ht)). unfold tail_value, f_cvar_pnl. fold q.
  change (map2 (fun w y => if Rltb y q then w else 0) p x) with (strict_p p x q). change (map2 (fun w y => if Rltb y q then fmul w y else 0) p x) with (strict_fs p x q).
  change (map2 (fun w y => if Rltb y q then w * y else 0) p x) with (strict_s p x q). change (prob p x (fun y => Rltb y q)) with (rsum (strict_p p x q)).
  assert (HM : 0 <= M) by (eapply Rle_trans; [apply Rabs_pos|apply (HX q Hin)]).
  assert (HT1 : 1 <= INR (length x)) by (apply (le_INR 1); destruct x; [congruence|simpl; lia]).
  assert (Hn : forall w, In w p -> 0 <= w) by (intros w Hw; apply Hp; exact Hw).
  destruct (strict_p_abs p x q Hl Hn) as (E1 & B1). destruct (strict_s_abs p x q M HM Hl Hn HX) as (C1 & C2 & C3).
  destruct (small_terms (length x) HT) as (HTe & HG & HG4).
  assert (Fp : forall w, In w (strict_p p x q) -> isf w). { intros w Hw. apply in_map2_iff in Hw as (a & b & Ha & _ & ->). destruct (Rltb b q); [apply Hp; exact Ha|apply isf_0]. }
  assert (Fs : forall w, In w (strict_fs p x q) -> isf w). { intros w Hw. apply in_map2_iff in Hw as (a & b & Ha & _ & ->). destruct (Rltb b q); [apply rnd_isf|apply isf_0]. }
  destruct (fsum_err _ _ (Hs _ Fp) Fp) as (D1 & I1). destruct (fsum_err _ _ (Hs _ Fs) Fs) as (D2 & I2).
  assert (L1 : length (strict_p p x q) = length p) by (apply map2_len; exact Hl). assert (L2 : length (strict_fs p x q) = length p) by (apply map2_len; exact Hl). rewrite L1 in D1. rewrite L2 in D2. rewrite E1 in D1.
  set (sp' := npsum (strict_p p x q)) in *. set (ss' := npsum (strict_fs p x q)) in *.
  set (sp := rsum (strict_p p x q)) in *. set (ss := rsum (strict_s p x q)) in *. set (G := gam (length x)).
  assert (GG : gam (length p - 1) <= G) by (apply gam_mono; lia). pose proof (gam_ge0 (length p - 1)) as G0. pose proof ur_pos. pose proof eta_pos.
  assert (Sn : 0 <= rsum p) by (apply rsum_nonneg; exact Hn).
  match goal with |- Rabs (- ?a - - ?b) <= _ => replace (- a - - b) with (- (a - b)) by ring end. rewrite Rabs_Ropp.
  apply (cvar_arith (INR (length x)) (rsum p) M G t q sp sp' ss ss' (fsub t sp') (fmul q (fsub t sp')) (fadd ss' (fmul q (fsub t sp')))); try assumption; try (split; assumption); try (apply HX; assumption).
  - apply gam_ge0.
  - eapply Rle_trans; [exact D1|]. apply Rmult_le_compat; lra.
  - replace (ss' - ss) with ((ss' - rsum (strict_fs p x q)) + (rsum (strict_fs p x q) - ss)) by ring. eapply Rle_trans; [apply Rabs_triang|].
    rewrite Hl in C2, C3.
    assert (gam (length p - 1) * rsum (map Rabs (strict_fs p x q)) <= G * ((1 + ur) * (M * rsum p) + INR (length x) * eta)).
    { apply Rmult_le_compat; auto. apply rsum_nonneg. intros y Hy. apply in_map_iff in Hy as (z & <- & _). apply Rabs_pos. }
    replace (M * rsum p * (ur + G * (1 + ur)) + INR (length x) * eta * (1 + G)) with (G * ((1 + ur) * (M * rsum p) + INR (length x) * eta) + (ur * (M * rsum p) + INR (length x) * eta)) by ring. lra.
  - apply (fadd_abs t (- sp') Ft (isf_opp _ I1)).
  - apply rnd_abs.
  - apply fadd_abs; [exact I2|apply rnd_isf].
  - apply rnd_abs.
Qed.

Lemma expect_rnd p x f B : length p = length x -> (forall q, In q p -> 0 <= q) -> (forall y, In y x -> 0 <= f y <= B) ->
  Rabs (expect (map rnd p) x f - expect p x f) <= B * (ur * rsum p + INR (length p) * eta).
Proof.
  unfold expect. revert x. induction p as [|w p IH]; intros [|y x] Hl Hn HX; try discriminate Hl; [simpl; rewrite Rminus_0_r, Rabs_R0; lra|].
  assert (Hw : 0 <= w) by (apply Hn; left; reflexivity). assert (Hy : 0 <= f y <= B) by (apply HX; left; reflexivity).
  specialize (IH x ltac:(simpl in Hl; lia) (fun z Hz => Hn z (or_intror Hz)) (fun z Hz => HX z (or_intror Hz))).
  cbn [map map2 length]. rewrite !rsum_cons, S_INR. pose proof (rnd_abs w) as Hr. rewrite (Rabs_pos_eq w Hw) in Hr. pose proof ur_pos. pose proof eta_pos.
  set (s1 := rsum (map2 (fun q y => q * f y) (map rnd p) x)) in *. set (s2 := rsum (map2 (fun q y => q * f y) p x)) in *.
  replace (rnd w * f y + s1 - (w * f y + s2)) with ((rnd w - w) * f y + (s1 - s2)) by ring. eapply Rle_trans; [apply Rabs_triang|].
  rewrite Rabs_mult, (Rabs_pos_eq (f y)) by lra. assert (Rabs (rnd w - w) * f y <= (ur * w + eta) * B) by (apply Rmult_le_compat; try lra; apply Rabs_pos). lra.
Qed.

Lemma expect_shortfall p x q M : length p = length x -> (forall w, In w p -> 0 <= w) -> Rabs q <= M -> (forall y, In y x -> Rabs y <= M) ->
  0 <= expect p x (fun y => Rmax 0 (- y - - q)) <= 2 * M * prob p x (fun y => Rltb y q).
Proof.
  unfold expect, prob. intros Hl Hn Hq. revert x Hl. induction p as [|w p IH]; intros [|y x] Hl HX; try discriminate Hl; [simpl; lra|].
  assert (Hw : 0 <= w) by (apply Hn; left; reflexivity). assert (Hy : Rabs y <= M) by (apply HX; left; reflexivity).
  specialize (IH (fun z Hz => Hn z (or_intror Hz)) x ltac:(simpl in Hl; lia) (fun z Hz => HX z (or_intror Hz))).
  cbn [map2]. rewrite !rsum_cons. apply Rabs_bd in Hq. apply Rabs_bd in Hy. destruct (Rltb_spec y q).
  - rewrite Rmax_right by lra. nra.
  - rewrite Rmax_left by lra. lra.
Qed.

(** Accuracy against the exact CVaR of exact probabilities and level, at the computed P&L. *)
Lemma f_cvar_close npsum argsort c x p M v : sums npsum -> sorts Rle 0 argsort -> prob_vector p (length x) -> x <> [] -> 0 < c < 1 -> rnd c < 1 ->
  INR (length x) * ur <= 1 / 8 -> slack (length x) <= c -> slack (length x) <= 1 - c -> (forall y, In y x -> Rabs y <= M) ->
  is_cvar p x (1 - c) v ->
  Rabs (- f_cvar_pnl npsum argsort (fsub 1 (rnd c)) x (map rnd p) - v) <= cvar_bound (length x) M (1 - c).
Proof.
  intros Hs Ha HP Hne Hc Hc1 HT Hsl Hsl2 HX Hv. pose proof HP as (Hl & Hn & Hsum).
  destruct (f_var_quantile argsort c x p Ha HP Hne Hc Hc1 HT Hsl) as (b & Hb & HQ).
  destruct (small_terms (length x) HT) as (HTe & HG & HG4). destruct (tail_err c Hc Hc1) as (Ht & Ht0).
  assert (HT1 : 1 <= INR (length x)) by (apply (le_INR 1); destruct x; [congruence|simpl; lia]).
  pose proof ur_pos as Hu. pose proof ur_small as Hus. pose proof eta_pos as He. assert (He8 : eta <= ur / 8) by nra. pose proof (sum_rnd p Hn) as Hsr. rewrite Hsum, Hl in Hsr.
  set (T := INR (length x)) in *. unfold slack in *. fold T in Hsl, Hsl2, Hb.
  pose proof (f_cvar_local npsum argsort (fsub 1 (rnd c)) x (map rnd p) M Hs ltac:(rewrite map_length; exact Hl) Hne HT) as L.
  assert (HTu8 : 8 * ur <= 1 - c) by nra.
  apply Rabs_bd in Hsr. apply Rabs_bd in Ht. cbv zeta in L.
  set (t := fsub 1 (rnd c)) in *. set (q := f_var_pnl argsort t x (map rnd p)) in *. set (r := f_cvar_pnl npsum argsort t x (map rnd p)) in *.
  assert (Hin : In q x) by apply HQ. assert (HM : 0 <= M) by (eapply Rle_trans; [apply Rabs_pos|apply (HX q Hin)]).
  assert (L' : Rabs (- r - ru (map rnd p) x t (- q)) <= ((5 * T + 15) * ur * M + (2 * T + 5) * eta) / t).
  { apply L; auto.
    - intros w Hw. apply in_map_iff in Hw as (z & <- & Hz). split; [apply rnd_ge0, Hn, Hz|apply rnd_isf].
    - lra. - lra. - apply rnd_isf. }
  clear L. set (a := 1 - c) in *. assert (Ha0 : 0 < a) by (unfold a; lra). assert (Hta : 5 / 8 * a <= t) by lra.
  (* same VaR, exact probabilities and level *)
  assert (HR : Rabs (ru (map rnd p) x t (- q) - ru p x a (- q)) <= 15 * (ur * M) / t).
  { unfold ru. set (f := fun y => Rmax 0 (- y - - q)).
    assert (Hf : forall y, In y x -> 0 <= f y <= 2 * M). { intros y Hy. unfold f. pose proof (HX y Hy) as H1. pose proof (HX q Hin) as H2. apply Rabs_bd in H1. apply Rabs_bd in H2. unfold Rmax. destruct (Rle_dec 0 (- y - - q)); lra. }
    pose proof (expect_rnd p x f (2 * M) Hl Hn Hf) as X1. rewrite Hsum, Hl in X1. fold T in X1.
    pose proof (expect_shortfall p x q M Hl Hn (HX q Hin) HX) as X2. fold f in X2. destruct HQ as (_ & Q1 & Q2). set (E' := expect (map rnd p) x f) in *. set (E := expect p x f) in *.
    assert (X3 : E <= 4 * M * a). { apply Rabs_bd in Hb. assert (prob p x (fun y => Rltb y q) <= 2 * a) by lra. nra. }
    replace (- q + E' / t - (- q + E / a)) with ((E' - E) / t + E / a * ((a - t) / t)) by (field; lra).
    assert (Hit : 0 < / t) by (apply Rinv_0_lt_compat; lra). unfold Rdiv. eapply Rle_trans; [apply Rabs_triang|]. rewrite !Rabs_mult, !(Rabs_pos_eq (/ t)) by lra.
    assert (Hia : 0 < / a) by (apply Rinv_0_lt_compat; lra). rewrite (Rabs_pos_eq E), (Rabs_pos_eq (/ a)) by lra.
    assert (E * / a <= 4 * M). { apply Rmult_le_reg_r with a; [lra|]. rewrite Rmult_assoc, Rinv_l by lra. lra. }
    assert (Rabs (a - t) <= 3 * ur) by (apply Rabs_le; lra). pose proof (Rabs_pos (a - t)) as Hat. assert (0 <= E * / a) by (apply Rmult_le_pos; lra).
    assert (E * / a * Rabs (a - t) <= 4 * M * (3 * ur)) by (apply Rmult_le_compat; lra).
    assert (Rabs (E' - E) <= 3 * (ur * M)) by nra.
    rewrite <- Rmult_assoc, <- Rmult_plus_distr_r. apply Rmult_le_compat_r; [lra|]. lra. }
  (* nearly a quantile: nearly the minimum *)
  destruct (cvar_pnl_is_cvar (argsort_by Rleb 0) a x p argsort_Rleb_sorts HP) as (Hcv & Ecv); [unfold a; lra|].
  pose proof (cvar_unique _ _ _ _ _ Hv Hcv) as Ev. rewrite Ecv in Ev.
  pose proof (var_is_quantile (argsort_by Rleb 0) a x p argsort_Rleb_sorts HP ltac:(unfold a; lra)) as HQ'. set (q' := var_pnl (argsort_by Rleb 0) a x p) in *.
  assert (Hb0 : 0 < b). { destruct HQ as (_ & Q1 & _). pose proof (prob_mono p x (fun _ => false) (fun y => Rltb y q) Hn ltac:(discriminate)) as P0.
    assert (E0 : prob p x (fun _ => false) = 0) by (rewrite prob_combine; clear; induction (combine p x); simpl; lra). cbv beta in P0. lra. }
  assert (HV : 0 <= ru p x a (- q) - v <= 2 * M * ((2 * T + 6) * ur) / a).
  { split; [destruct Hv as (Hv1 & _); specialize (Hv1 (- q)); lra|]. rewrite Ev.
    pose proof (ru_min p x b q (- q') Hl Hn Hb0 HQ) as RM. unfold ru in *. set (E := expect p x (fun y => Rmax 0 (- y - - q))) in *. set (E' := expect p x (fun y => Rmax 0 (- y - - q'))) in *.
    assert (RM' : E <= E' + b * (q - q')). { apply Rmult_le_reg_r with (/ b); [apply Rinv_0_lt_compat; lra|]. replace ((E' + b * (q - q')) * / b) with (E' / b + (q - q')) by (field; lra). unfold Rdiv in *. lra. }
    apply Rmult_le_reg_r with a; [lra|]. replace ((- q + E / a - (- q' + E' / a)) * a) with (E - E' - a * (q - q')) by (field; lra).
    replace (2 * M * ((2 * T + 6) * ur) / a * a) with (2 * M * ((2 * T + 6) * ur)) by (field; lra).
    assert (Hqq : Rabs (q - q') <= 2 * M). { pose proof (HX q Hin) as H1. pose proof (HX q' (proj1 HQ')) as H2. apply Rabs_bd in H1. apply Rabs_bd in H2. apply Rabs_le; lra. }
    assert ((b - a) * (q - q') <= ((2 * T + 6) * ur) * (2 * M)); [|lra]. eapply Rle_trans; [apply Rle_abs|]. rewrite Rabs_mult. apply Rmult_le_compat; auto using Rabs_pos. }
  (* collect *)
  unfold cvar_bound. fold T.
  assert (Hit : 0 < / t) by (apply Rinv_0_lt_compat; lra). assert (Hia : 0 < / a) by (apply Rinv_0_lt_compat; lra).
  assert (Hinv : / t <= 8 / 5 * / a). { replace (8 / 5 * / a) with (/ (5 / 8 * a)) by (field; lra). apply Rinv_le_contravar; lra. }
  replace (- r - v) with ((- r - ru (map rnd p) x t (- q)) + (ru (map rnd p) x t (- q) - ru p x a (- q)) + (ru p x a (- q) - v)) by ring.
  eapply Rle_trans; [apply Rabs_triang|]. rewrite (Rabs_pos_eq (ru p x a (- q) - v)) by lra.
  pose proof (Rabs_triang (- r - ru (map rnd p) x t (- q)) (ru (map rnd p) x t (- q) - ru p x a (- q))) as TT.
  unfold Rdiv in *. set (A := (5 * T + 15) * ur * M + (2 * T + 5) * eta) in *. assert (HuM : 0 <= ur * M) by nra. assert (0 <= T * (ur * M)) by nra. assert (0 <= T * eta) by nra.
  assert (A0 : 0 <= A + 15 * (ur * M)) by (unfold A; nra).
  assert (S1 : (A + 15 * (ur * M)) * / t <= (A + 15 * (ur * M)) * (8 / 5 * / a)) by (apply Rmult_le_compat_l; [exact A0|lra]).
  apply Rle_trans with (((A + 15 * (ur * M)) * (8 / 5) + 2 * M * ((2 * T + 6) * ur)) * / a); [lra|].
  apply Rmult_le_compat_r; [lra|]. unfold A. nra.
Qed.

(** ** The calls *)
Lemma map_rnd_repeat v n : map rnd (repeat v n) = repeat (rnd v) n.
Proof. induction n; simpl; congruence. Qed.
Lemma f_risk_inv column T X p conf out : f_portfolio_risk column T X (option_map (map rnd) p) (option_map rnd conf) = Ok out ->
  T <> 0%nat /\ 0 < rnd (eff_conf conf) < 1 /\
  (length (eff_p T p) = T -> out = map (fun x => - column (fsub 1 (rnd (eff_conf conf))) x (map rnd (eff_p T p))) X).
Proof.
  unfold f_portfolio_risk. assert (Ec : match option_map rnd conf with None => rnd (95 / 100) | Some c => c end = rnd (eff_conf conf)) by (destruct conf; reflexivity).
  rewrite Ec. intros H. destruct (Rltb_spec 0 (rnd (eff_conf conf))); [|discriminate H]. destruct (Rltb_spec (rnd (eff_conf conf)) 1); [|discriminate H].
  cbn [negb andb] in H. destruct T as [|T].
  { destruct (f_default_p 0 (option_map (map rnd) p)) as [p'|]; cbn [bind] in H; [|discriminate H]. destruct (broadcast_p 0 p'); cbn [bind] in H; discriminate H. }
  split; [lia|]. split; [lra|]. intros Hl.
  assert (Ep : f_default_p (S T) (option_map (map rnd) p) = Ok (map rnd (eff_p (S T) p))).
  { destruct p as [p|]; cbn [option_map f_default_p eff_p]; [reflexivity|]. f_equal. unfold fdiv. symmetry. apply map_rnd_repeat. }
  rewrite Ep in H. cbn [bind] in H. unfold broadcast_p in H. rewrite map_length, Hl, Nat.eqb_refl in H. cbn [bind] in H. injection H as <-. reflexivity.
Qed.

Lemma Forall2_of_map {A B C} (f : A -> B) (Rel : A -> C -> Prop) (Q : C -> B -> Prop) X Y :
  Forall2 Rel X Y -> (forall x y, In x X -> Rel x y -> Q y (f x)) -> Forall2 Q Y (map f X).
Proof. induction 1 as [|x y X Y H HF IH]; intros HQ; constructor; [apply HQ; [left; reflexivity|exact H]|apply IH; intros; apply HQ; [right|]; assumption]. Qed.

Lemma f_var_api_l argsort T X Y p conf out eps : sorts Rle 0 argsort -> p_ok p T -> 0 < eff_conf conf < 1 -> INR T * ur <= 1 / 8 -> slack T <= eff_conf conf ->
  (forall x, In x X -> length x = T) -> Forall2 (within eps) X Y ->
  f_portfolio_var argsort T X (option_map (map rnd) p) (option_map rnd conf) = Ok out ->
  Forall2 (fun y v => exists b q, Rabs (b - (1 - eff_conf conf)) <= slack T /\ is_quantile (eff_p T p) y b q /\ Rabs (- v - q) <= eps) Y out.
Proof.
  intros Hs Hp Hc HT Hsl HX HW H. destruct (f_risk_inv _ _ _ _ _ _ H) as (HT0 & Hc1 & E). pose proof (eff_p_vector p T Hp HT0) as HV. rewrite (E (proj1 HV)). clear E H.
  eapply Forall2_of_map; [exact HW|]. intros x y Hx Hxy. specialize (HX x Hx).
  destruct (f_var_quantile argsort (eff_conf conf) x (eff_p T p) Hs) as (b & Hb & HQ); rewrite ?HX; auto; try tauto.
  { intros ->. simpl in HX. lia. }
  rewrite HX in Hb. destruct (quantile_shift (eff_p T p) x y b _ eps ltac:(rewrite HX; exact HV) Hxy HQ) as (q & Hq & Hd).
  exists b, q. rewrite Ropp_involutive. auto.
Qed.

Lemma f_cvar_api_l npsum argsort T X Y p conf out eps M : sums npsum -> sorts Rle 0 argsort -> p_ok p T -> 0 < eff_conf conf < 1 -> INR T * ur <= 1 / 8 ->
  slack T <= eff_conf conf <= 1 - slack T -> (forall x, In x X -> length x = T /\ forall y, In y x -> Rabs y <= M) -> Forall2 (within eps) X Y ->
  f_portfolio_cvar npsum argsort T X (option_map (map rnd) p) (option_map rnd conf) = Ok out ->
  Forall2 (fun y v => forall v', is_cvar (eff_p T p) y (1 - eff_conf conf) v' -> Rabs (v - v') <= eps + cvar_bound T M (1 - eff_conf conf)) Y out.
Proof.
  intros Hs Ha Hp Hc HT Hsl HX HW H. destruct (f_risk_inv _ _ _ _ _ _ H) as (HT0 & Hc1 & E). pose proof (eff_p_vector p T Hp HT0) as HV. rewrite (E (proj1 HV)). clear E H.
  eapply Forall2_of_map; [exact HW|]. intros x y Hx Hxy. destruct (HX x Hx) as (HL & HM). intros v' Hv'.
  destruct (cvar_pnl_is_cvar (argsort_by Rleb 0) (1 - eff_conf conf) x (eff_p T p) argsort_Rleb_sorts) as (Hv & _); [rewrite HL; exact HV|lra|].
  set (v := - cvar_pnl (argsort_by Rleb 0) (1 - eff_conf conf) x (eff_p T p)) in *.
  pose proof (f_cvar_close npsum argsort (eff_conf conf) x (eff_p T p) M v Hs Ha ltac:(rewrite HL; exact HV)) as HC. rewrite HL in HC.
  assert (Hne : x <> []) by (intros ->; simpl in HL; lia).
  specialize (HC Hne Hc (proj2 Hc1) HT (proj1 Hsl) ltac:(lra) HM Hv).
  assert (Hal : 0 < 1 - eff_conf conf) by lra. pose proof (cvar_shift (eff_p T p) x y (1 - eff_conf conf) v v' eps ltac:(rewrite HL; exact HV) Hxy Hal Hv Hv') as HD.
  match goal with |- Rabs (?a - v') <= _ => replace (a - v') with ((a - v) + (v - v')) by ring end. eapply Rle_trans; [apply Rabs_triang|]. lra.
Qed.

(** ** One entry of the P&L *)
Lemma f_dot_err npsum row w : sums npsum -> length row = length w ->
  Rabs (f_dot npsum row w - rdot row w) <= (gam (length w) * (rsum (map2 (fun a b => Rabs (a * b)) row w)) + INR (length w) * eta * (1 + gam (length w))).
Proof.
  intros Hs Hl. unfold f_dot, rdot. assert (F : forall z, In z (map2 fmul row w) -> isf z) by (intros z Hz; apply in_map2_iff in Hz as (a & b & _ & _ & ->); apply rnd_isf).
  destruct (fsum_err _ _ (Hs _ F) F) as (D & _). rewrite map2_len in D by exact Hl.
  set (A := rsum (map2 (fun a b => Rabs (a * b)) row w)) in *. pose proof ur_pos. pose proof eta_pos.
  assert (B : Rabs (rsum (map2 fmul row w) - rsum (map2 Rmult row w)) <= ur * A + INR (length w) * eta /\ rsum (map Rabs (map2 fmul row w)) <= (1 + ur) * A + INR (length w) * eta /\ 0 <= A).
  { unfold A. clear D F A. revert w Hl. induction row as [|a row IH]; intros [|b w] Hl; try discriminate Hl; [simpl; rewrite Rminus_0_r, Rabs_R0; lra|].
    destruct (IH w ltac:(simpl in Hl; lia)) as (H1 & H2 & H3). cbn [map2 map length]. rewrite !rsum_cons, S_INR. pose proof (rnd_abs (a * b)) as Hr. change (fmul a b) with (rnd (a * b)).
    pose proof (Rabs_pos (a * b)). repeat split.
    - match goal with |- Rabs (?u + ?v - (?y + ?z)) <= _ => replace (u + v - (y + z)) with ((u - y) + (v - z)) by ring end. eapply Rle_trans; [apply Rabs_triang|]. lra.
    - assert (Rabs (rnd (a * b)) <= Rabs (a * b) + (ur * Rabs (a * b) + eta)); [|lra].
      replace (rnd (a * b)) with (a * b + (rnd (a * b) - a * b)) at 1 by ring. eapply Rle_trans; [apply Rabs_triang|]. lra.
    - lra. }
  destruct B as (B1 & B2 & B3). set (n := length w) in *. assert (n = 0%nat \/ exists m, n = S m) as [En|(m & En)] by (destruct n; eauto).
  - assert (row = []) as -> by (destruct row; [reflexivity|simpl in Hl; lia]). cbn [map2] in *. cbn [rsum fold_right] in *. rewrite En in *. simpl (INR 0) in *. simpl in D. unfold gam in *. simpl in *.
    replace (npsum [] - 0) with (npsum []) in * by ring. unfold A. lra.
  - rewrite Hl, En in D. replace (S m - 1)%nat with m in D by lia. rewrite En. pose proof (gam_ge0 m) as G0. assert (EG : gam (S m) = gam m + ur * (1 + gam m)) by (unfold gam; cbn [pow]; ring).
    rewrite <- En. assert (D' : Rabs (npsum (map2 fmul row w) - rsum (map2 fmul row w)) <= gam m * ((1 + ur) * A + INR n * eta)) by (eapply Rle_trans; [exact D|]; apply Rmult_le_compat_l; lra).
    match goal with |- Rabs (?u - ?v) <= _ => replace (u - v) with ((u - rsum (map2 fmul row w)) + (rsum (map2 fmul row w) - v)) by ring end. eapply Rle_trans; [apply Rabs_triang|].
    rewrite En at 1. rewrite EG. assert (gam m <= gam n) by (apply gam_mono; lia). assert (0 <= INR n * eta) by (apply Rmult_le_pos; [apply pos_INR|lra]). nra.
Qed.
