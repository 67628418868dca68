(** Rounding-error analysis of the quadratic form. *)
From Flocq Require Import Core.
From Verif Require Import RBase FpLib FpModel FpSpec FpProofs FpProofs3 FqModel FqSpec.
Open Scope R_scope.

Lemma map2_comb {A B C} (f : A -> B -> C) x y : map2 f x y = map (fun z => f (fst z) (snd z)) (combine x y).
Proof. revert y. induction x as [|a x IH]; intros [|b y]; simpl; [reflexivity..|]. rewrite IH. reflexivity. Qed.
Lemma vdot_err vdot w col n : dots vdot -> length w = n -> length col = n -> (forall z, In z w -> isf z) -> (forall z, In z col -> isf z) ->
  Rabs (vdot w col - rdot w col) <= dbound n (rsum (map2 (fun a b => Rabs (a * b)) w col)) /\ isf (vdot w col).
Proof.
  intros Hd Hw Hc Fw Fc. destruct (fdot_err _ _ _ (Hd w col ltac:(congruence) Fw Fc)) as (K & F). split; [|exact F]. unfold rdot. rewrite !map2_comb. unfold dexact, dabs in K. rewrite combine_length, Hw, Hc, Nat.min_id in K. exact K.
Qed.
Lemma gross_col_nonneg w col : 0 <= rsum (map2 (fun a b => Rabs (a * b)) w col).
Proof. apply rsum_nonneg. intros x Hx. apply in_map2_iff in Hx as (a & b & _ & _ & ->). apply Rabs_pos. Qed.
Lemma rdot_gross w col : Rabs (rdot w col) <= rsum (map2 (fun a b => Rabs (a * b)) w col).
Proof. unfold rdot. rewrite !map2_comb. apply (dexact_abs (combine w col)). Qed.

Lemma gam_add n m : gam n + (1 + gam n) * gam m = gam (n + m).
Proof. unfold gam. rewrite pow_add. ring. Qed.

Lemma variance_err vdot npsum n w cov : dots vdot -> sums npsum -> float_inputs n w cov ->
  Rabs (f_variance vdot npsum w cov - exact_variance w cov) <= variance_error n w cov /\ isf (f_variance vdot npsum w cov).
Proof.
  intros Hd Hs (Lw & Lc & Fw & Fc). unfold f_variance. set (y := map (fun col => vdot w col) cov). assert (Ly : length y = length w) by (unfold y; rewrite map_length; congruence).
  assert (FI : isf (npsum (map2 fmul y w))). { assert (F : forall z, In z (map2 fmul y w) -> isf z) by (intros z Hz; apply in_map2_iff in Hz as (a & b & _ & _ & ->); apply rnd_isf). destruct (fsum_err _ _ (Hs _ F) F) as (_ & K). exact K. }
  split; [|exact FI]. pose proof (f_dot_err npsum y w Hs Ly) as D. unfold f_dot in D. rewrite Lw in D. set (s := npsum (map2 fmul y w)) in *. clearbody s.
  pose proof (gam_ge0 n) as G0. pose proof ur_pos as Hu. pose proof eta_pos as He. pose proof (pos_INR n) as N0. assert (NE : 0 <= INR n * eta) by (apply Rmult_le_pos; lra).
  (* columns *)
  assert (B : forall cs ws, length cs = length ws -> (forall col, In col cs -> length col = n /\ forall x, In x col -> isf x) ->
    let ys := map (fun col => vdot w col) cs in
    let X := rsum (map2 (fun col wj => rdot w col * wj) cs ws) in
    let G := rsum (map2 (fun col wj => rsum (map2 (fun a b => Rabs (a * b)) w col) * Rabs wj) cs ws) in
    let E := rsum (map Rabs ws) in
    Rabs (rdot ys ws - X) <= gam n * G + INR n * eta * (1 + gam n) * E /\
    rsum (map2 (fun a b => Rabs (a * b)) ys ws) <= (1 + gam n) * G + INR n * eta * (1 + gam n) * E /\ 0 <= G /\ 0 <= E).
  { induction cs as [|c cs IH]; intros [|b ws] HL HC; try discriminate HL; [cbn; rewrite Rminus_0_r, Rabs_R0; lra|]. cbn [map map2]. cbv zeta in *.
    destruct (IH ws ltac:(simpl in HL; lia) (fun z Hz => HC z (or_intror Hz))) as (I1 & I2 & I3 & I4). destruct (HC c (or_introl eq_refl)) as (Hc1 & Hc2). destruct (vdot_err vdot w c n Hd Lw Hc1 Fw Hc2) as (V & _).
    pose proof (rdot_gross w c) as RG. pose proof (gross_col_nonneg w c) as GN. unfold rdot at 1. cbn [map2]. rewrite !rsum_cons. fold (rdot (map (fun col => vdot w col) cs) ws).
    set (g := rsum (map2 (fun a b0 => Rabs (a * b0)) w c)) in *. set (G := rsum (map2 (fun col wj => rsum (map2 (fun a b0 => Rabs (a * b0)) w col) * Rabs wj) cs ws)) in *. unfold dbound in V. pose proof (Rabs_pos b) as Bp.
    assert (V1 : Rabs (vdot w c * b - rdot w c * b) <= gam n * (g * Rabs b) + INR n * eta * (1 + gam n) * Rabs b).
    { replace (vdot w c * b - rdot w c * b) with ((vdot w c - rdot w c) * b) by ring. rewrite Rabs_mult. apply Rle_trans with ((gam n * g + INR n * eta * (1 + gam n)) * Rabs b); [apply Rmult_le_compat_r; assumption|]. lra. }
    assert (V2 : Rabs (vdot w c * b) <= (1 + gam n) * (g * Rabs b) + INR n * eta * (1 + gam n) * Rabs b).
    { replace (vdot w c * b) with ((vdot w c * b - rdot w c * b) + rdot w c * b) by ring. eapply Rle_trans; [apply Rabs_triang|]. rewrite (Rabs_mult (rdot w c)). assert (Rabs (rdot w c) * Rabs b <= g * Rabs b) by (apply Rmult_le_compat_r; assumption). lra. }
    assert (0 <= g * Rabs b) by (apply Rmult_le_pos; assumption). set (X := rsum (map2 (fun col wj => rdot w col * wj) cs ws)) in *. set (Y := rdot (map (fun col => vdot w col) cs) ws) in *.
    split; [|split; [lra|split; lra]]. replace (vdot w c * b + Y - (rdot w c * b + X)) with ((vdot w c * b - rdot w c * b) + (Y - X)) by ring. eapply Rle_trans; [apply Rabs_triang|]. lra. }
  destruct (B cov w ltac:(congruence) Fc) as (B1 & B2 & B3 & B4). clear B. fold y in B1, B2. unfold exact_variance, variance_error. fold (gross_variance w cov) in B1, B2, B3. fold (gross_exposure w) in B1, B2, B4.
  set (X := rsum (map2 (fun col wj => rdot w col * wj) cov w)) in *. set (G := gross_variance w cov) in *. set (E := gross_exposure w) in *. set (A := rsum (map2 (fun a b => Rabs (a * b)) y w)) in *. replace (2 * n)%nat with (n + n)%nat by lia. rewrite <- gam_add.
  replace (s - X) with ((s - rdot y w) + (rdot y w - X)) by ring. eapply Rle_trans; [apply Rabs_triang|].
  assert (gam n * A <= gam n * ((1 + gam n) * G + INR n * eta * (1 + gam n) * E)) by (apply Rmult_le_compat_l; lra).
  assert (0 <= INR n * eta * gam n * (1 + gam n)) by (apply Rmult_le_pos; [apply Rmult_le_pos; lra|lra]). lra.
Qed.

(** ** Square root *)
Lemma sqrt_close s V : 0 <= s -> 0 < V -> Rabs (sqrt s - sqrt V) <= Rabs (s - V) / sqrt V.
Proof.
  intros Hs HV. assert (P : 0 < sqrt V) by (apply sqrt_lt_R0; exact HV). pose proof (sqrt_pos s) as Q. apply Rmult_le_reg_r with (sqrt V); [exact P|]. replace (Rabs (s - V) / sqrt V * sqrt V) with (Rabs (s - V)) by (field; lra).
  apply Rle_trans with (Rabs (sqrt s - sqrt V) * (sqrt s + sqrt V)); [apply Rmult_le_compat_l; [apply Rabs_pos|lra]|].
  rewrite <- (Rabs_pos_eq (sqrt s + sqrt V)) by lra. rewrite <- Rabs_mult. right. f_equal. replace (s - V) with (sqrt s * sqrt s - sqrt V * sqrt V) by (rewrite !sqrt_sqrt by lra; ring). ring.
Qed.
