(** Rounding analysis of the greedy allocator. *)
From Flocq Require Import Core Relative.
From Verif Require Import RBase FpLib FpSpec FpModel FpProofs FpProofs3 FaModel FaSpec.
Open Scope R_scope.

Lemma fint_id z : (Z.abs z <= 2 ^ 53)%Z -> fint z = IZR z.
Proof. intros H. apply rnd_id, isf_int, H. Qed.

Lemma values_dot ps : moderate ps ->
  map (fun p => f_value (fp_shares p) (fa_price (fp_asset p))) ps = map2 fmul (map (fun p => IZR (fp_shares p)) ps) (map (fun p => fa_price (fp_asset p)) ps).
Proof.
  induction ps as [|p ps IH]; intros H; [reflexivity|]. cbn [map map2]. rewrite IH by (intros q Hq; apply H; right; exact Hq).
  f_equal. unfold f_value. rewrite fint_id by (apply H; left; reflexivity). reflexivity.
Qed.
Lemma dot_cost ps : rdot (map (fun p => IZR (fp_shares p)) ps) (map (fun p => fa_price (fp_asset p)) ps) = exact_cost ps.
Proof. unfold rdot, exact_cost. induction ps as [|p ps IH]; [reflexivity|]. cbn [map map2]. rewrite !rsum_cons, IH. reflexivity. Qed.
Lemma dot_gross ps : rsum (map2 (fun a b => Rabs (a * b)) (map (fun p => IZR (fp_shares p)) ps) (map (fun p => fa_price (fp_asset p)) ps)) = gross_value ps.
Proof. unfold gross_value. induction ps as [|p ps IH]; [reflexivity|]. cbn [map map2]. rewrite !rsum_cons, IH. reflexivity. Qed.

(** The computed portfolio value. *)
Lemma f_pv_err npsum ps : sums npsum -> moderate ps ->
  let pv := npsum (map (fun p => f_value (fp_shares p) (fa_price (fp_asset p))) ps) in
  Rabs (pv - exact_cost ps) <= sum_error (length ps) (gross_value ps) /\ isf pv.
Proof.
  intros Hs Hm pv. split.
  - unfold pv. rewrite (values_dot ps Hm), <- dot_cost. pose proof (f_dot_err npsum (map (fun p => IZR (fp_shares p)) ps) (map (fun p => fa_price (fp_asset p)) ps) Hs) as D.
    rewrite !map_length in D. specialize (D eq_refl). unfold f_dot in D. rewrite dot_gross in D. exact D.
  - unfold pv. assert (F : forall x, In x (map (fun p => f_value (fp_shares p) (fa_price (fp_asset p))) ps) -> isf x) by (intros x Hx; apply in_map_iff in Hx as (p & <- & _); apply rnd_isf).
    apply (fsum_err _ _ (Hs _ F) F).
Qed.

Lemma eps8_bounds : 99999999 / 10000000000000000 <= f_eps8 <= 100000001 / 10000000000000000.
Proof.
  unfold f_eps8. pose proof (rnd_abs (1 / 100000000)) as H. rewrite (Rabs_pos_eq (1 / 100000000)) in H by lra. pose proof ur_small. pose proof ur_pos. pose proof eta_ur. pose proof eta_pos.
  apply Rabs_bd in H. assert (ur * ur <= 1 / 1000000000000000 * (1 / 1000000000000000)) by (apply Rmult_le_compat; lra). lra.
Qed.
Lemma tol_bounds : 0 < f_tol <= 2 / 1000000000000.
Proof.
  unfold f_tol. pose proof (rnd_abs (1 / 1000000000000)) as H. rewrite (Rabs_pos_eq (1 / 1000000000000)) in H by lra. pose proof ur_small. pose proof ur_pos. pose proof eta_ur. pose proof eta_pos.
  apply Rabs_bd in H. assert (ur * ur <= 1 / 1000000000000000 * (1 / 1000000000000000)) by (apply Rmult_le_compat; lra). lra.
Qed.

Lemma f_build_leftover npsum V ps r : sums npsum -> moderate ps -> isf V -> f_build_result npsum V ps = Ok r ->
  0 <= fr_leftover r /\
  Rabs (fr_leftover r - (V - exact_cost ps)) <= f_eps8 + ur * Rabs (V - exact_cost ps) + (1 + ur) * sum_error (length ps) (gross_value ps).
Proof.
  intros Hs Hm HV H. destruct (f_pv_err npsum ps Hs Hm) as (He & Fp). unfold f_build_result in H.
  set (pv := npsum (map (fun p => f_value (fp_shares p) (fa_price (fp_asset p))) ps)) in *. set (E := sum_error (length ps) (gross_value ps)) in *.
  pose proof (fadd_abs V (- pv) HV (isf_opp _ Fp)) as HF. change (fadd V (- pv)) with (fsub V pv) in HF. change (V + - pv) with (V - pv) in HF.
  pose proof ur_pos. assert (K : Rabs (V - pv) <= Rabs (V - exact_cost ps) + E).
  { replace (V - pv) with ((V - exact_cost ps) - (pv - exact_cost ps)) by ring. eapply Rle_trans; [apply Rabs_triang|]. rewrite Rabs_Ropp. lra. }
  assert (K2 : Rabs (fsub V pv - (V - exact_cost ps)) <= ur * Rabs (V - exact_cost ps) + (1 + ur) * E).
  { replace (fsub V pv - (V - exact_cost ps)) with ((fsub V pv - (V - pv)) - (pv - exact_cost ps)) by ring. eapply Rle_trans; [apply Rabs_triang|]. rewrite Rabs_Ropp.
    assert (ur * Rabs (V - pv) <= ur * (Rabs (V - exact_cost ps) + E)) by (apply Rmult_le_compat_l; lra). lra. }
  pose proof eps8_bounds as B8. destruct (Rltb_spec (fsub V pv) 0) as [L|L].
  - destruct (Rltb_spec (Rabs (fsub V pv)) f_eps8) as [L8|L8]; [|discriminate H]. injection H as <-. cbn [fr_leftover]. split; [lra|].
    replace (0 - (V - exact_cost ps)) with (- fsub V pv + (fsub V pv - (V - exact_cost ps))) by ring. eapply Rle_trans; [apply Rabs_triang|]. rewrite Rabs_Ropp. lra.
  - injection H as <-. cbn [fr_leftover]. split; [lra|]. lra.
Qed.

(** ** Relative error away from underflow *)
Lemma rnd_rel x : bpow radix2 (-1022) <= Rabs x -> exists e, Rabs e <= ur /\ rnd x = x * (1 + e).
Proof.
  intros H. destruct (relative_error_N_FLT_ex radix2 (-1074) 53 ltac:(reflexivity) (fun x => negb (Z.even x)) x H) as (e & He & E). exists e. split; [|exact E].
  eapply Rle_trans; [exact He|]. rewrite <- u_ro_ur. unfold u_ro. apply Rle_refl.
Qed.
(** A result of at least [2^-1021] was not an underflow. *)
Lemma rnd_big x : 0 <= x -> bpow radix2 (-1021) <= rnd x -> exists e, Rabs e <= ur /\ rnd x = x * (1 + e).
Proof.
  intros Hx H. apply rnd_rel. rewrite Rabs_pos_eq by assumption. destruct (Rle_lt_dec (bpow radix2 (-1022)) x) as [L|L]; [exact L|exfalso].
  assert (rnd x <= bpow radix2 (-1022)). { rewrite <- (rnd_id (bpow radix2 (-1022))). - apply rnd_le. lra. - apply generic_format_bpow. unfold b64, FLT_exp. lia. }
  assert (bpow radix2 (-1022) < bpow radix2 (-1021)) by (apply bpow_lt; lia). lra.
Qed.
