(** C155-C156: what the binary64 share allocator reports, and when it stops. *)
From Coq Require String.
From Flocq Require Import Core.
From Verif Require Import RBase FpLib FpSpec FpProofs FaModel FaSpec FaProofs FaProofs2 FaProofs3 FaProofs4.
Open Scope R_scope.

(** C155.  For any positions (below 2^53 shares, long or short) and any budget of at least one unit: the share table lists exactly
    the non-zero positions, each reported weight is [shares * price / budget] up to three roundings, and the tracking error is the sum of the absolute
    weight differences up to its accumulated roundings. *)
Theorem fa_report_faithful : forall npsum V ps r, sums npsum -> moderate ps -> 1 <= V -> (forall p, In p ps -> isf (fa_w (fp_asset p))) ->
  f_build_result npsum V ps = Ok r ->
  (forall k z, In (k, z) (fr_shares r) <-> z <> 0%Z /\ exists p, In p ps /\ fa_name (fp_asset p) = k /\ fp_shares p = z) /\
  Forall2 (fun p kw => fst kw = fa_name (fp_asset p) /\ Rabs (snd kw - exact_weight V p) <= 3 * ur * Rabs (exact_weight V p) + 3 * eta)
    ps (fr_achieved r) /\
  Rabs (fr_tracking r - exact_tracking V ps) <= tracking_error (length ps) (exact_tracking V ps) (gross_value ps / V).
Proof.
  intros npsum V ps r Hs Hm HV Hw H. destruct (build_fields npsum V ps r H) as (E1 & E2 & E3). split; [|split].
  - intros k z. rewrite E1, filter_In, in_map_iff. cbn [snd]. rewrite Bool.negb_true_iff, Z.eqb_neq. split.
    + intros ((p & E & Hp) & Hz). injection E as <- <-. eauto.
    + intros (Hz & p & Hp & <- & <-). split; [exists p; auto|exact Hz].
  - rewrite E2. assert (G : forall l, (forall p, In p l -> In p ps) -> Forall2 (fun p kw => fst kw = fa_name (fp_asset p) /\ Rabs (snd kw - exact_weight V p) <= 3 * ur * Rabs (exact_weight V p) + 3 * eta)
      l (map (fun p => (fa_name (fp_asset p), wt V p)) l)).
    { induction l as [|p l IH]; intros Hl; cbn [map]; constructor; [|apply IH; intros; apply Hl; right; assumption].
      cbn [fst snd]. split; [reflexivity|]. apply value_weight; [apply Hm, Hl; left; reflexivity|exact HV]. }
    apply G. auto.
  - rewrite E3. apply tracking_l; auto.
Qed.
Print Assumptions fa_report_faithful.

(** C156.  When the purchase loop ends before its iteration limit, every asset is either out of reach (one lot costs more than the remaining
    cash plus 1e-12) or no further than 1e-12 below its target weight, all in binary64 arithmetic. *)
Theorem fa_greedy_exhausts : forall V l mi s, isf V -> (forall a, In a l -> 0 < flot_cost a) -> f_greedy_loop V l mi = Some s ->
  map fp_asset (fg_pos s) = l /\
  ((fg_iter s < mi)%Z -> forall p, In p (fg_pos s) ->
     fadd (fg_cash s) f_tol < flot_cost (fp_asset p) \/
     fsub (fa_w (fp_asset p)) (fdiv (f_value (fp_shares p) (fa_price (fp_asset p))) V) <= f_tol).
Proof.
  intros V l mi s HV Hp H. unfold f_greedy_loop in H. pose proof (floor_pass_stop V l V HV) as F. destruct (f_floor_pass V V l) as [ps cash].
  destruct F as (F1 & F2 & F3).
  assert (SI : stop_inv l (mkFG ps cash 0 (map fa_w l) false)).
  { split; [exact F1|]. split; [exact F2|]. cbn [fg_pos fg_cash]. intros p Hi Hu. rewrite (F3 p Hi) in Hu. discriminate. }
  destruct (loop_stop_inv V l (f_min_cost l) mi _ Hp (f_min_cost_le l) _ _ SI H) as ((_ & Ha & Hmk) & K). split; [exact Ha|].
  intros Hi p Hin. destruct K as [K|K]; [lia|]. destruct (K p Hin) as [L|L]; [left; exact L|].
  destruct (fp_unaff p) eqn:U; [left; apply Hmk; auto|]. right. unfold f_deficit in L. rewrite U in L.
  destruct (Rltb_spec (fsub (fa_w (fp_asset p)) (fdiv (f_value (fp_shares p) (fa_price (fp_asset p))) V)) 0) as [N|N]; [pose proof tol_bounds; lra|exact L].
Qed.
Print Assumptions fa_greedy_exhausts.

(** 250 in one share at 100: two shares, and the hypotheses of both theorems hold. *)
Example fa_small_case : let a := mkFA String.EmptyString 1 100 1 in
  isf 250 /\ 0 < flot_cost a /\ isf (fa_w a) /\ moderate [(a, 2%Z, false)] /\
  exists r, f_build_result (lsum_f 0) 250 [(a, 2%Z, false)] = Ok r /\ exact_tracking 250 [(a, 2%Z, false)] = 1 / 5.
Proof.
  intros a. assert (I : forall z, (Z.abs z <= 1000)%Z -> isf (IZR z)) by (intros z Hz; apply isf_int; simpl; lia).
  split; [apply (I 250%Z); lia|]. split.
  { unfold a, flot_cost, fmul. cbn [fa_price fa_lot]. rewrite fint_id by lia. rewrite Rmult_1_r, (rnd_id 100) by (apply (I 100%Z); lia). lra. }
  split; [apply isf_1|]. split; [intros p [<-|[]]; unfold fp_shares; simpl; lia|].
  assert (E : f_value 2 100 = 200). { unfold f_value, fmul. rewrite fint_id by lia. replace (2 * 100) with 200 by lra. apply rnd_id, (I 200%Z). lia. }
  assert (S : fsub 250 (lsum_f 0 [f_value 2 100]) = 50).
  { rewrite E. cbn [lsum_f]. unfold fadd, fsub. rewrite Rplus_0_l, (rnd_id 200) by (apply (I 200%Z); lia). replace (250 - 200) with 50 by lra. apply rnd_id, (I 50%Z). lia. }
  eexists. split.
  - unfold f_build_result. cbn [map]. unfold fp_shares, fp_asset, a. cbn [fst snd fa_price]. rewrite S. rewrite (proj2 (Rltb_false 50 0)) by lra. reflexivity.
  - unfold exact_tracking, exact_weight, fp_shares, fp_asset, a. cbn [map fst snd fa_price fa_w]. rewrite rsum_cons. cbn [rsum fold_right]. 
    replace (1 - 2 * 100 / 250) with (1 / 5) by lra. rewrite Rabs_right by lra. cbn. lra.
Qed.
