(** The top-up loop in binary64: when it stops nothing worth buying is affordable.  The reported weights and tracking error. *)
From Flocq Require Import Core.
From Verif Require Import RBase FpLib FpSpec FpProofs FaModel FaSpec FaProofs FaProofs2 FaProofs3.
Open Scope R_scope.

Lemma f_argmax_from_max l : forall best bi i L, length L = i -> (bi < i)%nat -> nth bi L 0 = best -> (forall x, In x L -> x <= best) ->
  forall x, In x (L ++ l) -> x <= nth (f_argmax_from best bi i l) (L ++ l) 0.
Proof.
  induction l as [|y l IH]; intros best bi i L HL Hb Hn HM x Hx; cbn [f_argmax_from].
  - rewrite app_nil_r in *. rewrite Hn. auto.
  - replace (L ++ y :: l) with ((L ++ [y]) ++ l) in * by (rewrite <- app_assoc; reflexivity).
    destruct (Rltb_spec best y) as [K|K].
    + apply (IH y i (S i) (L ++ [y])); auto.
      * rewrite app_length. simpl. lia.
      * rewrite app_nth2 by lia. rewrite HL, Nat.sub_diag. reflexivity.
      * intros z Hz. apply in_app_or in Hz as [Hz|[<-|[]]]; [specialize (HM z Hz); lra|lra].
    + apply (IH best bi (S i) (L ++ [y])); auto.
      * rewrite app_length. simpl. lia.
      * rewrite app_nth1 by lia. exact Hn.
      * intros z Hz. apply in_app_or in Hz as [Hz|[<-|[]]]; [auto|lra].
Qed.
Lemma f_maximum_max l x : In x l -> x <= f_maximum l.
Proof.
  destruct l as [|y l]; [intros []|]. intros Hx. unfold f_maximum, f_argmax. apply (f_argmax_from_max l y 0 1 [y]); auto.
  intros z [<-|[]]. lra.
Qed.

(** Marked positions are beyond reach. *)
Definition stop_inv (l : list fasset) (s : fstate) : Prop :=
  isf (fg_cash s) /\ map fp_asset (fg_pos s) = l /\
  forall p, In p (fg_pos s) -> fp_unaff p = true -> fadd (fg_cash s) f_tol < flot_cost (fp_asset p).

Lemma mark_in k ps p : In p (f_mark k ps) -> In p ps \/ ((k < length ps)%nat /\ p = (fst (nth k ps f_dummy), true)).
Proof. intros H. apply (f_upd_in _ _ _ f_dummy) in H. exact H. Qed.

Lemma at_least_one c b : 0 < c -> c <= b -> (1 <= ffloor (fdiv b c))%Z.
Proof.
  intros Hc H. unfold ffloor, fdiv. apply Zfloor_lub. rewrite <- (rnd_id 1 isf_1). apply rnd_le.
  apply Rmult_le_reg_r with c; [exact Hc|]. unfold Rdiv. rewrite Rmult_assoc, Rinv_l by lra. lra.
Qed.

Lemma floor_pass_stop V l : forall cash, isf cash -> let '(ps, cash') := f_floor_pass V cash l in
  isf cash' /\ map fp_asset ps = l /\ forall p, In p ps -> fp_unaff p = false.
Proof.
  induction l as [|a l IH]; intros cash Hc; cbn [f_floor_pass]; [repeat split; auto; contradiction|].
  match goal with |- context [f_floor_pass V ?c l] => specialize (IH c); destruct (f_floor_pass V c l) as [ps cash''] end.
  destruct IH as (I1 & I2 & I3); [destruct (_ =? 0)%Z; [exact Hc|apply rnd_isf]|]. split; [exact I1|]. split; [cbn [map]; rewrite I2; reflexivity|].
  intros p [<-|Hp]; [reflexivity|auto].
Qed.

(** What is left at the end of a step that breaks, or of a loop whose guard fails. *)
Definition nothing_left (V : R) (s : fstate) : Prop :=
  forall p, In p (fg_pos s) -> fadd (fg_cash s) f_tol < flot_cost (fp_asset p) \/ f_deficit V p <= f_tol.

Lemma step_stop V l s : (forall a, In a l -> 0 < flot_cost a) -> stop_inv l s ->
  match f_step V s with inl s' => stop_inv l s' | inr s' => stop_inv l s' /\ nothing_left V s' end.
Proof.
  intros Hpos (C & Ha & Hm). unfold f_step. set (ds := map (f_deficit V) (fg_pos s)).
  destruct (Rleb (f_maximum ds) f_tol) eqn:EM.
  - split; [split; [exact C|split; [exact Ha|exact Hm]]|]. intros p Hp. right. cbn [fg_pos] in Hp.
    apply (fun H => Rle_trans _ _ _ H (proj1 (Rleb_true _ _) EM)), f_maximum_max. unfold ds. apply in_map. exact Hp.
  - set (k := f_argmax ds). destruct (candidate V (fg_pos s) EM) as [K1 K2]. fold ds in K1, K2. fold k in K1, K2.
    set (c := flot_cost (fp_asset (nth k (fg_pos s) f_dummy))).
    assert (Hc : 0 < c).
    { apply Hpos. rewrite <- Ha. apply in_map, nth_In. exact K1. }
    set (un := if forallb fp_unaff (f_mark k (fg_pos s)) then inr (mkFG (f_mark k (fg_pos s)) (fg_cash s) (fg_iter s) ds true)
               else inl (mkFG (f_mark k (fg_pos s)) (fg_cash s) (fg_iter s) ds false) : fstate + fstate).
    assert (U : fadd (fg_cash s) f_tol < c -> match un with inl s' => stop_inv l s' | inr s' => stop_inv l s' /\ nothing_left V s' end).
    { intros Hlt. assert (SI : forall b, stop_inv l (mkFG (f_mark k (fg_pos s)) (fg_cash s) (fg_iter s) ds b)).
      { intros b. split; [exact C|]. split; [cbn [fg_pos]; rewrite mark_assets; exact Ha|].
        cbn [fg_pos fg_cash]. intros p Hp Hu. apply mark_in in Hp as [Hp|(_ & ->)]; [auto|]. exact Hlt. }
      unfold un. destruct (forallb fp_unaff _) eqn:EF; [|apply SI]. split; [apply SI|]. intros p Hp. left. cbn [fg_pos fg_cash] in *.
      rewrite forallb_forall in EF. destruct (SI true) as (_ & _ & Q). apply Q; auto. }
    destruct (Rltb_spec (fadd (fg_cash s) f_tol) c) as [Hlt|Hge]; [exact (U Hlt)|].
    set (target := if Rltb 0 c then ffloor (fdiv (fmul (nth k ds 0) V) c) else 0%Z).
    pose proof (at_least_one c (fadd (fg_cash s) f_tol) Hc ltac:(lra)) as P1.
    cbv zeta. destruct (Z.leb_spec (Z.min (ffloor (fdiv (fadd (fg_cash s) f_tol) c)) (Z.max target 1)) 0) as [Z0|Z0]; [lia|].
    set (n := Z.min (ffloor (fdiv (fadd (fg_cash s) f_tol) c)) (Z.max target 1)) in *.
    assert (Hn : 0 <= fmul (fint n) c).
    { apply rnd_ge0, Rmult_le_pos; [|lra]. apply rnd_ge0. apply IZR_le. lia. }
    assert (Hcash : fsub (fg_cash s) (fmul (fint n) c) <= fg_cash s).
    { unfold fsub. apply Rle_trans with (rnd (fg_cash s)); [apply rnd_le; lra|]. rewrite rnd_id by exact C. lra. }
    split; [apply rnd_isf|]. split; [cbn [fg_pos]; rewrite buy_assets; exact Ha|]. cbn [fg_pos fg_cash]. intros p Hp Hu.
    apply (f_upd_in _ _ _ f_dummy) in Hp as [Hp|(_ & ->)]; [|discriminate Hu].
    apply Rle_lt_trans with (fadd (fg_cash s) f_tol); [|auto]. apply rnd_le. lra.
Qed.

Lemma loop_stop_inv V l mc mi fuel : (forall a, In a l -> 0 < flot_cost a) -> (forall a, In a l -> mc <= flot_cost a) ->
  forall s s', stop_inv l s -> f_loop fuel V mc mi s = Some s' ->
  stop_inv l s' /\ ((mi <= fg_iter s')%Z \/ nothing_left V s').
Proof.
  intros Hpos Hmc. induction fuel as [|fuel IH]; intros s s' Hi H; cbn [f_loop] in H;
    destruct (Rleb_spec mc (fadd (fg_cash s) f_tol)) as [K|K]; cbn [andb] in H.
  - destruct (Z.ltb_spec (fg_iter s) mi); [discriminate|]. injection H as <-. split; [exact Hi|left; assumption].
  - injection H as <-. split; [exact Hi|]. right. intros p Hp. left. destruct Hi as (_ & Ha & _).
    assert (mc <= flot_cost (fp_asset p)) by (apply Hmc; rewrite <- Ha; apply in_map; exact Hp). lra.
  - destruct (Z.ltb_spec (fg_iter s) mi); [|injection H as <-; split; [exact Hi|left; assumption]].
    pose proof (step_stop V l s Hpos Hi) as St. destruct (f_step V s) as [s1|s1].
    + eapply IH; eauto.
    + injection H as <-. split; [apply St|]. right. apply St.
  - injection H as <-. split; [exact Hi|]. right. intros p Hp. left. destruct Hi as (_ & Ha & _).
    assert (mc <= flot_cost (fp_asset p)) by (apply Hmc; rewrite <- Ha; apply in_map; exact Hp). lra.
Qed.

Lemma f_min_list_le d l : f_min_list d l <= d /\ forall x, In x l -> f_min_list d l <= x.
Proof.
  induction l as [|y l [I1 I2]]; cbn [f_min_list]; [split; [lra|contradiction]|].
  destruct (Rleb_spec y (f_min_list d l)) as [K|K]; (split; [lra|]); intros x [<-|Hx]; try (specialize (I2 x Hx)); lra.
Qed.
Lemma f_min_cost_le l a : In a l -> f_min_cost l <= flot_cost a.
Proof.
  destruct l as [|b l]; [intros []|]. cbn [f_min_cost]. destruct (f_min_list_le (flot_cost b) (map flot_cost l)) as [H1 H2].
  intros [<-|H]; [exact H1|]. apply H2, in_map, H.
Qed.

(** ** The reported weights *)
Lemma value_weight V sh price : (Z.abs sh <= 2 ^ 53)%Z -> 1 <= V ->
  Rabs (fdiv (f_value sh price) V - IZR sh * price / V) <= 3 * ur * Rabs (IZR sh * price / V) + 3 * eta.
Proof.
  intros Hs HV. unfold f_value, fdiv, fmul. rewrite (fint_id sh Hs). set (x := IZR sh * price).
  pose proof (rnd_abs x) as E1. pose proof (rnd_abs (rnd x / V)) as E2. pose proof ur_pos. pose proof ur_small. pose proof eta_pos.
  assert (D : Rabs (rnd x / V - x / V) <= ur * Rabs (x / V) + eta).
  { replace (rnd x / V - x / V) with ((rnd x - x) / V) by (field; lra). unfold Rdiv. rewrite !Rabs_mult, (Rabs_right (/ V)) by (apply Rle_ge, Rlt_le, Rinv_0_lt_compat; lra).
    assert (I1 : 0 < / V <= 1) by (split; [apply Rinv_0_lt_compat; lra|rewrite <- Rinv_1; apply Rinv_le_contravar; lra]).
    apply Rle_trans with ((ur * Rabs x + eta) * / V); [apply Rmult_le_compat_r; lra|]. nra. }
  assert (A : Rabs (rnd x / V) <= (1 + ur) * Rabs (x / V) + eta).
  { replace (rnd x / V) with (x / V + (rnd x / V - x / V)) by ring. eapply Rle_trans; [apply Rabs_triang|]. lra. }
  replace (rnd (rnd x / V) - x / V) with ((rnd (rnd x / V) - rnd x / V) + (rnd x / V - x / V)) by ring.
  eapply Rle_trans; [apply Rabs_triang|]. pose proof (Rabs_pos (x / V)).
  assert (ur * Rabs (rnd x / V) <= ur * ((1 + ur) * Rabs (x / V) + eta)) by (apply Rmult_le_compat_l; lra).
  assert (ur * eta <= 1 * eta) by (apply Rmult_le_compat_r; lra).
  assert (ur * ur * Rabs (x / V) <= ur * 1 * Rabs (x / V)) by (apply Rmult_le_compat_r; [lra|apply Rmult_le_compat_l; lra]).
  nra.
Qed.

Lemma map2_map_r {A B C} (f : A -> B -> C) (g : A -> B) l : map2 f l (map g l) = map (fun x => f x (g x)) l.
Proof. induction l as [|a l IH]; cbn; [reflexivity|]. rewrite IH. reflexivity. Qed.

Definition wt (V : R) (p : fpos) : R := fdiv (f_value (fp_shares p) (fa_price (fp_asset p))) V.

Lemma build_fields npsum V ps r : f_build_result npsum V ps = Ok r ->
  fr_shares r = filter (fun ks => negb (snd ks =? 0)%Z) (map (fun p => (fa_name (fp_asset p), fp_shares p)) ps) /\
  fr_achieved r = map (fun p => (fa_name (fp_asset p), wt V p)) ps /\
  fr_tracking r = npsum (map (fun p => Rabs (fsub (fa_w (fp_asset p)) (wt V p))) ps).
Proof.
  unfold f_build_result. rewrite map_map. rewrite !(map2_map_r _ (fun p => fdiv (f_value (fp_shares p) (fa_price (fp_asset p))) V)).
  set (X := npsum (map (fun p => Rabs _) ps)). destruct (Rltb _ 0); [destruct (Rltb _ _); [|discriminate]|]; intros H; injection H as <-; cbn [fr_shares fr_achieved fr_tracking]; auto.
Qed.

Lemma tracking_l npsum V ps : sums npsum -> moderate ps -> 1 <= V -> (forall p, In p ps -> isf (fa_w (fp_asset p))) ->
  Rabs (npsum (map (fun p => Rabs (fsub (fa_w (fp_asset p)) (wt V p))) ps) - exact_tracking V ps) <=
  tracking_error (length ps) (exact_tracking V ps) (gross_value ps / V).
Proof.
  intros Hs Hm HV Hw. set (f := fun p => Rabs (fsub (fa_w (fp_asset p)) (wt V p))).
  pose proof ur_pos. pose proof ur_small. pose proof eta_pos.
  set (D := term_error (length ps) (exact_tracking V ps) (gross_value ps / V)).
  assert (T1 : forall p, In p ps -> Rabs (f p - Rabs (fa_w (fp_asset p) - exact_weight V p)) <=
    ur * Rabs (fa_w (fp_asset p) - exact_weight V p) + 2 * (3 * ur * Rabs (exact_weight V p) + 3 * eta)).
  { intros p Hp. unfold f. pose proof (value_weight V (fp_shares p) (fa_price (fp_asset p)) (Hm p Hp) HV) as E. fold (wt V p) in E.
    fold (exact_weight V p) in E. destruct (sub_err (fa_w (fp_asset p)) (wt V p) (Hw p Hp) (rnd_isf _)) as (e & He & Ee). rewrite Ee.
    set (w := fa_w (fp_asset p)) in *. set (a := wt V p) in *. set (x := exact_weight V p) in *. clearbody w a x.
    eapply Rle_trans; [apply Rabs_triang_inv2|]. replace ((w - a) * (1 + e) - (w - x)) with ((w - x) * e + (x - a) * (1 + e)) by ring.
    eapply Rle_trans; [apply Rabs_triang|]. rewrite !Rabs_mult. pose proof (Rabs_pos (w - x)). rewrite (Rabs_minus_sym x a).
    assert (Rabs (1 + e) <= 2) by (apply Rabs_bd in He; apply Rabs_le; lra). pose proof (Rabs_pos (a - x)). pose proof (Rabs_pos (1 + e)).
    assert (Rabs (w - x) * Rabs e <= Rabs (w - x) * ur) by (apply Rmult_le_compat_l; auto).
    assert (Rabs (a - x) * Rabs (1 + e) <= (3 * ur * Rabs x + 3 * eta) * 2) by (apply Rmult_le_compat; auto). lra. }
  assert (TD : Rabs (rsum (map f ps) - exact_tracking V ps) <= D).
  { unfold D, term_error, exact_tracking, gross_value. clear Hs Hm Hw D. induction ps as [|p ps IH]; cbn [map length].
    - cbn [rsum fold_right INR]. rewrite Rminus_diag_eq, Rabs_R0 by reflexivity. cbn. lra.
    - rewrite !rsum_cons, S_INR.
      replace (f p + rsum (map f ps) - (Rabs (fa_w (fp_asset p) - exact_weight V p) + rsum (map (fun p0 => Rabs (fa_w (fp_asset p0) - exact_weight V p0)) ps)))
        with ((f p - Rabs (fa_w (fp_asset p) - exact_weight V p)) + (rsum (map f ps) - rsum (map (fun p0 => Rabs (fa_w (fp_asset p0) - exact_weight V p0)) ps))) by ring.
      eapply Rle_trans; [apply Rabs_triang|]. specialize (IH (fun q Hq => T1 q (or_intror Hq))). specialize (T1 p (or_introl eq_refl)).
      replace (Rabs (exact_weight V p)) with (Rabs (IZR (fp_shares p) * fa_price (fp_asset p)) / V) in T1.
      + unfold Rdiv in *. lra.
      + unfold exact_weight, Rdiv. rewrite (Rabs_mult (IZR (fp_shares p) * fa_price (fp_asset p)) (/ V)), (Rabs_right (/ V)); [reflexivity|]. apply Rle_ge, Rlt_le, Rinv_0_lt_compat. lra. }
  assert (IF : forall x, In x (map f ps) -> isf x).
  { intros x Hx. apply in_map_iff in Hx as (p & <- & _). unfold f. apply generic_format_abs, rnd_isf. }
  destruct (fsum_err _ _ (Hs (map f ps) IF) IF) as [E _]. rewrite map_length in E.
  assert (AB : rsum (map Rabs (map f ps)) = rsum (map f ps)) by (rewrite map_map; f_equal; apply map_ext; intros; unfold f; apply Rabs_Rabsolu).
  rewrite AB in E. change (map (fun p => Rabs (fsub (fa_w (fp_asset p)) (wt V p))) ps) with (map f ps).
  replace (npsum (map f ps) - exact_tracking V ps) with ((npsum (map f ps) - rsum (map f ps)) + (rsum (map f ps) - exact_tracking V ps)) by ring.
  eapply Rle_trans; [apply Rabs_triang|]. unfold tracking_error. fold D.
  assert (rsum (map f ps) <= exact_tracking V ps + D) by (apply Rabs_bd in TD; lra).
  assert (0 <= rsum (map f ps)) by (apply rsum_nonneg; intros x Hx; apply in_map_iff in Hx as (p & <- & _); apply Rabs_pos).
  pose proof (gam_mono (length ps - 1) (length ps) ltac:(lia)). pose proof (gam_ge0 (length ps - 1)).
  assert (gam (length ps - 1) * rsum (map f ps) <= gam (length ps) * (exact_tracking V ps + D)) by (apply Rmult_le_compat; auto). lra.
Qed.
