(** C131-C135: probability vectors in binary64 arithmetic. *)
From Flocq Require Import Core.
From Verif Require Import RBase FpLib FpModel FpSpec FpProofs FaModel FaProofs FaProofs3 FwModel FwSpec FwProofs FwProofs2.
From Coq Require Import Psatz ZArith Lia.
Open Scope R_scope.

(** C131.  A normalised vector has the input's length, non-negative entries, and sums to one up to 1.004e-5; normalising it
    again changes nothing.  An input summing to one within 0.998e-5 is returned as it is; one further than 1.004e-5 away is
    rescaled, every entry to its exact share up to rounding, and then sums to one up to (3n+4) 2^-53. *)
Theorem fw_normalize_valid : forall npsum strict l out,
  sums npsum -> (forall x, In x l -> isf x) -> sizeable (length l) -> f_normalize npsum strict l = Ok out ->
  prob_floats (length l) (1004 / 100000000) out /\
  f_normalize npsum false out = Ok out /\
  (Rabs (rsum l - 1) <= 998 / 100000000 -> out = l) /\
  (1004 / 100000000 < Rabs (rsum l - 1) ->
     prob_floats (length l) (norm_tol (length l)) out /\
     Forall2 (fun x y => Rabs (y - x / rsum l) <= norm_tol (length l) * (x / rsum l) + eta) l out).
Proof.
  intros npsum strict l out Hs Fl Hn H. destruct (normalize_inv npsum strict l out H) as (NE & Nn & _ & Pt & Br). clear H.
  assert (Hl : forall x, In x l -> 0 <= x /\ isf x) by (intros; auto). destruct (sum_nonneg_err npsum l Hs Hl) as (He & Fi & S0); [unfold sizeable in Hn; lra|].
  pose proof ur_pos. assert (G : 0 <= INR (length l) * ur <= 1 / 100000000) by (split; [apply Rmult_le_pos; [apply pos_INR|lra]|exact Hn]). set (g := INR (length l) * ur) in *.
  replace (2 * INR (length l) * ur * rsum l) with (2 * (g * rsum l)) in He by (unfold g; ring). assert (gS : 0 <= g * rsum l <= 1 / 100000000 * rsum l) by (split; [apply Rmult_le_pos; lra|apply Rmult_le_compat_r; lra]). apply Rabs_bd in He.
  destruct Br as [(C & ->)|(C & ->)].
  - pose proof (close_inv _ Fi C) as K. apply Rabs_bd in K. assert (A : Rabs (rsum l - 1) <= 1004 / 100000000) by (apply Rabs_le; lra). split; [split; [reflexivity|split; [exact Hl|exact A]]|]. split; [|split; [reflexivity|lra]].
    unfold f_normalize. cbv iota. rewrite (no_neg l Hl), C. assert (Rleb (npsum l) 0 = false) as -> by (apply Rleb_false; exact Pt). destruct l; [contradiction|reflexivity].
  - pose proof (div_total npsum l Hs Hl Pt Hn) as D. pose proof (norm_tol_small (length l) Hn). split; [destruct D as (D1 & D2 & D3); split; [exact D1|split; [exact D2|lra]]|]. split; [apply (accepted npsum (length l) _ Hs D Hn)|]. split.
    + intros A. apply Rabs_bd in A. rewrite close_true in C; [discriminate|exact Fi|]. apply Rabs_le. lra.
    + intros _. split; [exact D|]. assert (E : forall q, (forall x, In x q -> 0 <= x) -> Forall2 (fun x y => Rabs (y - x / rsum l) <= norm_tol (length l) * (x / rsum l) + eta) q (map (fun x => fdiv x (npsum l)) q)); [|apply E; exact Nn].
      induction q as [|x q IH]; intros Hq; [constructor|]. cbn [map]. constructor; [apply entry_error; auto; apply Hq; left; reflexivity|apply IH; intros; apply Hq; right; assumption].
Qed.

(** The probabilities handed to the CVaR programme are the normalised ones, so they have the same guarantees; they are
    rejected exactly when some is negative or the computed sum is not positive. *)
Theorem fw_scenario_probs_normalised : forall npsum l, l <> [] ->
  f_scenario_probs npsum l = f_normalize npsum false l /\
  (forall e, f_scenario_probs npsum l = Err e <-> e = ValueError /\ ((exists x, In x l /\ x < 0) \/ npsum l <= 0)).
Proof.
  intros npsum l Hl. assert (E : f_scenario_probs npsum l = f_normalize npsum false l).
  { destruct l as [|a l]; [congruence|]. unfold f_scenario_probs, f_normalize. destruct (existsb _ (a :: l)); [reflexivity|]. cbn [orb].
    destruct (Rleb _ 0); [reflexivity|]. destruct (f_close1 _); reflexivity. }
  split; [exact E|]. intros e. unfold f_scenario_probs. destruct (existsb (fun x => Rltb x 0) l) eqn:EX; cbn [orb].
  - split; [|intros [-> _]; reflexivity]. intros H. injection H as <-. split; [reflexivity|]. left. apply existsb_exists in EX as (x & Hx & Hn).
    exists x. split; [exact Hx|]. apply Rltb_true. exact Hn.
  - destruct (Rleb_spec (npsum l) 0) as [K|K].
    + split; [|intros [-> _]; reflexivity]. intros H. injection H as <-. split; [reflexivity|]. right. exact K.
    + split; [discriminate|]. intros (_ & [(x & Hx & Hn)|N]); [|lra]. exfalso. assert (existsb (fun x => Rltb x 0) l = true); [|congruence].
      apply existsb_exists. exists x. split; [exact Hx|]. apply Rltb_true. exact Hn.
Qed.
Print Assumptions fw_scenario_probs_normalised.

(** C132.  With [strictly_positive=True] the returned entries are positive, and the result passes the same check again, when
    no entry is below 2^-1074 times the total. *)
Theorem fw_normalize_positive : forall npsum l out,
  sums npsum -> (forall x, In x l -> isf x) -> sizeable (length l) ->
  (forall x, In x l -> 2 * bpow radix2 (-1074) * rsum l <= x) ->
  f_normalize npsum true l = Ok out -> (forall y, In y out -> 0 < y) /\ f_normalize npsum true out = Ok out.
Proof.
  intros npsum l out Hs Fl Hn Hb H. destruct (normalize_inv npsum true l out H) as (NE & Nn & Sp & Pt & Br). specialize (Sp eq_refl).
  assert (Hl : forall x, In x l -> 0 <= x /\ isf x) by (intros; auto). destruct (sum_nonneg_err npsum l Hs Hl) as (He & Fi & S0); [unfold sizeable in Hn; lra|].
  destruct Br as [(C & ->)|(C & ->)]; [split; [exact Sp|exact H]|].
  assert (P : forall y, In y (map (fun x => fdiv x (npsum l)) l) -> 0 < y).
  { intros y Hy. apply in_map_iff in Hy as (x & <- & Hx). specialize (Hb x Hx). apply Rlt_le_trans with (bpow radix2 (-1074)); [apply bpow_gt_0|].
    unfold fdiv. rewrite <- (rnd_id (bpow radix2 (-1074))). 2:{ apply generic_format_bpow. unfold b64, FLT_exp. lia. }
    apply rnd_le. apply Rmult_le_reg_r with (npsum l); [exact Pt|]. replace (x / npsum l * npsum l) with x by (field; lra). apply Rabs_bd in He. unfold sizeable in Hn. pose proof ur_pos. pose proof (pos_INR (length l)).
    assert (0 <= INR (length l) * ur) by nra. assert (npsum l <= 2 * rsum l) by nra. pose proof (bpow_gt_0 radix2 (-1074)). nra. }
  split; [exact P|]. apply (accepted_strict npsum (length l)); [exact Hs|exact (div_total npsum l Hs Hl Pt Hn)|exact Hn|exact P].
Qed.

(** C132, refuted part: a strictly positive vector can be accepted and returned with a zero entry, and the result then fails
    the check it came from. *)
Lemma sums_two npsum a b : sums npsum -> isf a -> isf b -> npsum [a; b] = fadd a b.
Proof.
  intros Hs Ha Hb. destruct (Hs [a; b]) as [(E & _)|(t & E & <-)]; [intros y [<-|[<-|[]]]; assumption|discriminate E|].
  assert (L : forall t, (1 <= length (leaves t))%nat) by (intros t0; induction t0 as [y|l IHl r IHr]; simpl; [lia|rewrite app_length; lia]).
  assert (One : forall t, length (leaves t) = 1%nat -> exists y, t = Leaf y). { intros [y|l r] K; [eauto|]. simpl in K. rewrite app_length in K. pose proof (L l). pose proof (L r). lia. }
  pose proof (Permutation_length E) as K. cbn in K. destruct t as [y|l r]; [discriminate K|]. cbn [leaves] in K. rewrite app_length in K. pose proof (L l). pose proof (L r).
  destruct (One l ltac:(lia)) as (u & ->). destruct (One r ltac:(lia)) as (v & ->). cbn in E. apply Permutation_length_2 in E. destruct E as [(-> & ->)|(-> & ->)]; cbn; [reflexivity|]. unfold fadd. f_equal. ring.
Qed.
Lemma tiny_isf : isf (bpow radix2 (-1074)).
Proof. apply generic_format_bpow. unfold b64, FLT_exp. lia. Qed.
Theorem fw_strict_zero_refuted : forall npsum, sums npsum ->
  let l := [bpow radix2 (-1074); 4] in
  (forall x, In x l -> 0 < x /\ isf x) /\ f_normalize npsum true l = Ok [0; 1] /\ f_normalize npsum true [0; 1] = Err ValueError.
Proof.
  intros npsum Hs l. assert (I4 : isf 4) by (apply (isf_int 4); simpl; lia). pose proof (bpow_gt_0 radix2 (-1074)) as T0.
  split; [|split].
  - intros x [<-|[<-|[]]]; split; try lra; [apply tiny_isf|exact I4].
  - assert (B : bpow radix2 (-1074) <= bpow radix2 (-60)) by (apply bpow_le; lia).
    assert (E4 : fadd (bpow radix2 (-1074)) 4 = 4).
    { assert (B' : bpow radix2 (-60) = / 1152921504606846976) by reflexivity. rewrite B' in B. revert B T0. generalize (bpow radix2 (-1074)). intros y B T0. unfold fadd. rewrite (rnd_val _ 4503599627370496 (-50)); [simpl; lra|lia|simpl; lra|]. simpl (bpow _ _). apply Rabs_def1; lra. }
    unfold f_normalize, l. cbn [existsb]. rewrite (sums_two npsum _ _ Hs tiny_isf I4), E4. assert (Rleb (bpow radix2 (-1074)) 0 = false) as -> by (apply Rleb_false; exact T0). assert (Rleb 4 0 = false) as -> by (apply Rleb_false; lra). cbn [orb].
    destruct (f_close1 4) eqn:C; [exfalso; apply (close_inv _ I4) in C; apply Rabs_bd in C; lra|]. cbn [map]. f_equal.
    assert (Z0 : fdiv (bpow radix2 (-1074)) 4 = 0).
    { unfold fdiv. apply round_N_small_pos with (-1075)%Z; [|unfold b64, FLT_exp; lia]. replace (bpow radix2 (-1074) / 4) with (bpow radix2 (-1076)). 2:{ change (-1074)%Z with (-1076 + 2)%Z. rewrite bpow_plus. assert (B2 : bpow radix2 2 = 4) by reflexivity. rewrite B2. generalize (bpow radix2 (-1076)). intros y. field. }
      split; [apply bpow_le; lia|apply bpow_lt; lia]. }
    assert (O1 : fdiv 4 4 = 1) by (unfold fdiv; replace (4 / 4) with 1 by field; apply rnd_id, isf_1). rewrite Z0, O1. reflexivity.
  - apply strict_zero with 0; [left; reflexivity|lra].
Qed.

(** C133.  Uniform, exponentially decaying and kernel probabilities, and those AssetsDistribution stores, sum to one up to
    (3n+4) 2^-53; so normalising them, or handing them to the CVaR programme, returns them unchanged whatever the order of
    summation there. *)
Theorem fw_generated_valid : forall npsum npsum' fexp flog2 n half_life v h x_T T probs out,
  sums npsum -> sums npsum' -> exp_like fexp -> 0 <= flog2 -> (forall p, probs = Some p -> forall x, In x p -> isf x) ->
  f_uniform n = Ok out \/ (f_exp_decay npsum fexp flog2 n half_life = Ok out /\ (0 < n)%nat) \/
    (f_kernel npsum fexp v h x_T = Ok out /\ n = length v) \/ (f_dist_probs npsum T probs = Ok out /\ n = T) ->
  sizeable n ->
  prob_floats n (norm_tol n) out /\ f_normalize npsum' false out = Ok out /\ f_scenario_probs npsum' out = Ok out.
Proof.
  intros npsum npsum' fexp flog2 n hl v h x_T T probs out Hs Hs' He Hl Hp H Hn.
  assert (P : prob_floats n (norm_tol n) out); [|split; [exact P|apply (accepted npsum' n); assumption]].
  destruct H as [H|[(H & H0)|[(H & ->)|(H & ->)]]].
  - apply (uniform_ok n out Hn H).
  - unfold f_exp_decay in H. destruct (Rleb_spec hl 0) as [|Hh]; [discriminate|]. assert (Hh' : 0 < hl) by lra.
    destruct (exp_raw_ok fexp flog2 n hl He Hl Hh') as (L & A & O). set (l := f_exp_raw fexp flog2 n hl) in *. assert (out = map (fun x => fdiv x (npsum l)) l) as -> by congruence.
    assert (Hl' : forall x, In x l -> 0 <= x /\ isf x) by (intros x Hx; destruct (A x Hx) as ((A1 & _) & A2); split; assumption).
    rewrite <- L in *. apply div_total; auto. apply npsum_pos with 1; auto; lra.
  - unfold f_kernel in H. destruct (Rleb h 0); [discriminate|]. destruct (Req_EM_T _ 0); [discriminate|].
    set (w := map _ v) in H. destruct (Rleb_spec (npsum w) 0) as [|P]; [discriminate|]. assert (out = map (fun x => fdiv x (npsum w)) w) as -> by congruence.
    assert (L : length w = length v) by apply map_length. rewrite <- L in *. apply div_total; [exact Hs| |lra|exact Hn]. intros x Hx. apply in_map_iff in Hx as (y & <- & _). destruct He as (E1 & _). destruct (E1 (fdiv (- fmul (fsub y x_T) (fsub y x_T)) (fmul 2 (fmul h h)))). split; assumption.
  - unfold f_dist_probs in H. destruct (match probs with None => f_uniform T | Some p => if Nat.eqb (length p) T then Ok p else Err ValueError end) as [q|] eqn:E; [|discriminate]. cbn [bind] in H.
    assert (Q : length q = T /\ forall x, In x q -> isf x).
    { destruct probs as [p|]; [destruct (Nat.eqb_spec (length p) T) as [<-|]; [|discriminate]; assert (q = p) as -> by congruence; split; [reflexivity|exact (Hp p eq_refl)]|].
      destruct (uniform_ok T q Hn E) as ((A & B & _) & _). split; [exact A|intros x Hx; apply B; exact Hx]. }
    destruct Q as (<- & Fq). destruct (existsb (fun x => Rltb x 0) q) eqn:EX; [discriminate|]. destruct (Rleb_spec (npsum q) 0) as [|P]; [discriminate|]. assert (out = map (fun x => fdiv x (npsum q)) q) as -> by congruence.
    apply div_total; [exact Hs| |lra|exact Hn]. intros x Hx. split; [apply (no_neg_inv false q EX x Hx)|apply Fq; exact Hx].
Qed.

(** C134.  Decaying probabilities never give an older observation more weight than a newer one. *)
Theorem fw_exp_decay_monotone : forall npsum fexp flog2 n half_life out i j,
  sums npsum -> exp_like fexp -> 0 <= flog2 -> sizeable n -> f_exp_decay npsum fexp flog2 n half_life = Ok out ->
  (i <= j < n)%nat -> nth i out 0 <= nth j out 0.
Proof.
  intros npsum fexp flog2 n hl out i j Hs He Hl Hn H Hij. unfold f_exp_decay in H. destruct (Rleb_spec hl 0) as [|Hh]; [discriminate|]. assert (Hh' : 0 < hl) by lra.
  destruct (exp_raw_ok fexp flog2 n hl He Hl Hh') as (L & A & O). set (l := f_exp_raw fexp flog2 n hl) in *. assert (out = map (fun x => fdiv x (npsum l)) l) as -> by congruence.
  assert (Hl' : forall x, In x l -> 0 <= x /\ isf x) by (intros x Hx; destruct (A x Hx) as ((A1 & _) & A2); split; assumption). assert (Ln : sizeable (length l)) by (rewrite L; exact Hn).
  assert (Pt : 0 < npsum l) by (apply npsum_pos with 1; auto; [apply O; lia|lra]).
  assert (N : forall k, (k < n)%nat -> nth k (map (fun x => fdiv x (npsum l)) l) 0 = fdiv (nth k l 0) (npsum l)). { intros k Hk. rewrite (nth_indep _ 0 ((fun x => fdiv x (npsum l)) 0)) by (rewrite map_length; lia). exact (map_nth (fun x => fdiv x (npsum l)) l 0 k). }
  rewrite !N by lia. assert (V : forall k, (k < n)%nat -> nth k l 0 = fexp (fmul (fdiv (- flog2) hl) (INR (n - (1 + k))))). { intros k Hk. set (F := fun k => fexp (fmul (fdiv (- flog2) hl) (INR (n - k)))). change l with (map F (seq 1 n)). rewrite (nth_indep _ 0 (F 0%nat)) by (rewrite map_length, seq_length; lia). rewrite map_nth, seq_nth by lia. reflexivity. }
  rewrite !V by lia. apply rnd_le. apply Rmult_le_compat_r; [left; apply Rinv_0_lt_compat; exact Pt|]. destruct He as (_ & _ & M). apply M. apply rnd_le.
  assert (fdiv (- flog2) hl <= 0). { apply rnd_le0. unfold Rdiv. assert (0 < / hl) by (apply Rinv_0_lt_compat; lra). nra. } assert (INR (n - (1 + j)) <= INR (n - (1 + i))) by (apply le_INR; lia). nra.
Qed.

(** C134, refuted part: when the sample spans more than about 1077 half-lives, the oldest observations get probability zero
    and the vector cannot be used as an entropy-pooling prior, which demands strictly positive probabilities. *)
Theorem fw_exp_decay_zero_refuted : forall npsum npsum' fexp flog2 n half_life out,
  sums npsum -> exp_like fexp -> underflows fexp -> 0 < flog2 -> 0 < half_life -> (0 < n)%nat -> sizeable n ->
  747 * half_life <= flog2 * INR (n - 1) ->
  f_exp_decay npsum fexp flog2 n half_life = Ok out ->
  nth 0 out 1 = 0 /\ f_normalize npsum' true out = Err ValueError.
Proof.
  intros npsum npsum' fexp flog2 n hl out Hs He Hu Hl Hh H0 Hn HL H. unfold f_exp_decay in H. destruct (Rleb_spec hl 0) as [|_]; [discriminate|]. set (l := f_exp_raw fexp flog2 n hl) in *. assert (out = map (fun x => fdiv x (npsum l)) l) as -> by congruence.
  assert (Z : nth 0 (map (fun x => fdiv x (npsum l)) l) 1 = 0 /\ In 0 (map (fun x => fdiv x (npsum l)) l)); [|split; [apply Z|apply strict_zero with 0; [apply Z|lra]]].
  unfold l at 2 4, f_exp_raw. destruct n as [|k]; [lia|]. cbn [seq map nth]. set (x0 := fexp _). assert (x0 = 0) as ->; [|unfold fdiv; unfold Rdiv; rewrite Rmult_0_l, rnd_0; split; [reflexivity|left; reflexivity]].
  apply Hu. set (m := INR (S k - 1)) in *. assert (Hm : 0 < m). { apply Rmult_lt_reg_l with flog2; [exact Hl|]. lra. }
  set (c := flog2 / hl). assert (Hc : 0 < c) by (apply Rdiv_lt_0_compat; assumption). assert (cm : 747 <= c * m). { unfold c. apply Rmult_le_reg_r with hl; [exact Hh|]. replace (flog2 / hl * m * hl) with (flog2 * m) by (field; lra). exact HL. }
  replace (fdiv (- flog2) hl) with (- rnd c). 2:{ unfold fdiv, rnd, c. rewrite <- round_NE_opp. f_equal. field. lra. }
  pose proof (rnd_abs c) as K. rewrite (Rabs_pos_eq c) in K by lra. apply Rabs_bd in K. pose proof ur_pos. pose proof ur_small. pose proof eta_pos. pose proof eta_ur.
  assert (Mn : m * ur <= 1 / 100000000). { unfold sizeable in Hn. apply Rle_trans with (INR (S k) * ur); [apply Rmult_le_compat_r; [lra|apply le_INR; lia]|exact Hn]. }
  assert (m * eta <= 1 / 100000000) by (apply Rle_trans with (m * ur * ur); [rewrite Rmult_assoc; apply Rmult_le_compat_l; lra|assert (m * ur * ur <= 1 / 100000000 * ur) by (apply Rmult_le_compat_r; lra); lra]).
  assert (Q : c * m * (1 - ur) - 1 / 100000000 <= rnd c * m). { assert ((c * (1 - ur) - eta) * m <= rnd c * m) by (apply Rmult_le_compat_r; lra). lra. }
  assert (Q2 : 7469 / 10 <= rnd c * m) by nra.
  unfold fmul. pose proof (rnd_abs (- rnd c * m)) as K2. assert (Rabs (- rnd c * m) = rnd c * m) as EA. { rewrite <- Rabs_Ropp. rewrite Rabs_pos_eq; lra. } rewrite EA in K2. apply Rabs_bd in K2. assert (ur * (rnd c * m) <= 1 / 1000000000000000 * (rnd c * m)) by (apply Rmult_le_compat_r; lra). nra.
Qed.

(** C135.  The Herfindahl effective number of scenarios is accurate to (3n+8) 2^-53, relative. *)
Theorem fw_hhi_accurate : forall npsum n p, sums npsum -> prob_floats n (1 / 2) p -> sizeable n ->
  Rabs (f_hhi npsum p - hhi p) <= (3 * INR n + 8) * ur * hhi p.
Proof. intros npsum n p Hs Hp Hn. apply (hhi_err npsum n (1 / 2)); auto. lra. Qed.

Print Assumptions fw_normalize_valid.
Print Assumptions fw_normalize_positive.
Print Assumptions fw_strict_zero_refuted.
Print Assumptions fw_generated_valid.
Print Assumptions fw_exp_decay_monotone.
Print Assumptions fw_exp_decay_zero_refuted.
Print Assumptions fw_hhi_accurate.

(** The hypotheses are met: left-to-right summation, the correctly rounded exponential, concrete vectors. *)
Lemma exp_746 : exp (-746) < bpow radix2 (-1075).
Proof.
  assert (E : forall x k, exp (INR k * x) = exp x ^ k). { intros x. induction k as [|k IH]; [simpl; rewrite Rmult_0_l; apply exp_0|]. rewrite S_INR, Rmult_plus_distr_r, Rmult_1_l, exp_plus, IH. cbn [pow]. ring. }
  assert (PZ : forall z k, IZR z ^ k = IZR (z ^ Z.of_nat k)) by (intros; apply pow_IZR).
  assert (A : 27169 / 10000 <= exp 1).
  { apply Rle_trans with ((1025 / 1024) ^ 1024).
    - unfold Rdiv at 2. rewrite Rpow_mult_distr, pow_inv, !PZ. set (a := (1025 ^ Z.of_nat 1024)%Z). set (b := (1024 ^ Z.of_nat 1024)%Z).
      assert (Hb : 0 < IZR b) by (apply IZR_lt; vm_compute; reflexivity). apply Rmult_le_reg_r with (IZR b); [exact Hb|]. rewrite Rmult_assoc, Rinv_l by lra. rewrite Rmult_1_r.
      apply Rmult_le_reg_r with 10000; [lra|]. replace (27169 / 10000 * IZR b * 10000) with (IZR (27169 * b)) by (rewrite mult_IZR; field). rewrite <- mult_IZR. apply IZR_le. apply Z.leb_le. vm_compute. reflexivity.
    - replace (exp 1) with (exp (1 / 1024) ^ 1024). { apply pow_incr. split; [lra|]. pose proof (exp_ineq1_le (1 / 1024)). lra. }
      rewrite <- E. f_equal. replace (INR 1024) with 1024 by (rewrite INR_IZR_INZ; reflexivity). field. }
  replace (-746) with (- (INR 746 * 1)) by (rewrite INR_IZR_INZ; simpl; ring). rewrite exp_Ropp, E. change (-1075)%Z with (- (1075))%Z. rewrite bpow_opp.
  apply Rinv_lt_contravar; [apply Rmult_lt_0_compat; [apply bpow_gt_0|apply pow_lt; apply exp_pos]|]. apply Rlt_le_trans with ((27169 / 10000) ^ 746); [|apply pow_incr; lra].
  replace (bpow radix2 1075) with (IZR (2 ^ 1075)) by (rewrite <- IZR_Zpower by lia; reflexivity). unfold Rdiv. rewrite Rpow_mult_distr, pow_inv, !PZ. set (a := (27169 ^ Z.of_nat 746)%Z). set (b := (10000 ^ Z.of_nat 746)%Z).
  assert (Hb : 0 < IZR b) by (apply IZR_lt; vm_compute; reflexivity). apply Rmult_lt_reg_r with (IZR b); [exact Hb|]. rewrite Rmult_assoc, Rinv_l by lra. rewrite Rmult_1_r, <- mult_IZR. apply IZR_lt. apply Z.ltb_lt. vm_compute. reflexivity.
Qed.
Lemma rnd_tiny x : 0 <= x < bpow radix2 (-1075) -> rnd x = 0.
Proof.
  intros (H0 & H1). destruct (Req_dec x 0) as [->|N]; [apply rnd_0|]. unfold rnd. assert (M : (mag radix2 x <= -1075)%Z) by (apply mag_le_bpow; [exact N|rewrite Rabs_pos_eq; assumption]).
  apply round_N_small with (mag radix2 x); [|unfold b64, FLT_exp; lia]. destruct (mag radix2 x) as (e & He). cbn [mag_val] in *. apply He. exact N.
Qed.
Example rounded_exp : exp_like (fun x => rnd (exp x)) /\ underflows (fun x => rnd (exp x)).
Proof.
  split; [split; [|split]|].
  - intros x. split; [apply rnd_isf|apply rnd_ge0; left; apply exp_pos].
  - rewrite exp_0. apply rnd_id, isf_1.
  - intros x y H. apply rnd_le. destruct H as [H| ->]; [left; apply exp_increasing; exact H|lra].
  - intros x H. apply rnd_tiny. split; [left; apply exp_pos|]. eapply Rle_lt_trans; [|exact exp_746]. destruct H as [H| ->]; [left; apply exp_increasing; exact H|lra].
Qed.
Example sizeable_million : sizeable (Z.to_nat 1000000).
Proof. unfold sizeable. rewrite INR_IZR_INZ, Z2Nat.id by lia. rewrite ur_val. lra. Qed.
Example fw_normalize_runs : f_normalize (lsum_f 0) true [3; 1] = Ok [3 / 4; 1 / 4].
Proof.
  assert (I : forall z, (Z.abs z <= 4)%Z -> isf (IZR z)) by (intros z Hz; apply isf_int; simpl; lia).
  assert (S : lsum_f 0 [3; 1] = 4). { cbn [lsum_f]. unfold fadd. rewrite Rplus_0_l, (rnd_id 3) by (apply (I 3%Z); lia). replace (3 + 1) with 4 by lra. apply rnd_id, (I 4%Z). lia. }
  unfold f_normalize. rewrite S. cbn [existsb]. assert (Rleb 3 0 = false) as -> by (apply Rleb_false; lra). assert (Rleb 1 0 = false) as -> by (apply Rleb_false; lra). assert (Rleb 4 0 = false) as -> by (apply Rleb_false; lra). cbn [orb].
  destruct (f_close1 4) eqn:C; [exfalso; apply close_inv in C; [apply Rabs_bd in C; lra|apply (I 4%Z); lia]|].
  cbn [map]. unfold fdiv. rewrite (rnd_val (3 / 4) 6755399441055744 (-53)); [|lia|simpl; lra|simpl (bpow _ _); apply Rabs_def1; lra]. rewrite (rnd_val (1 / 4) 4503599627370496 (-54)); [|lia|simpl; lra|simpl (bpow _ _); apply Rabs_def1; lra].
  f_equal. simpl (bpow _ _). f_equal; [lra|]. f_equal. lra.
Qed.
(** Half-life 5, 5400 observations (21 years of daily returns): the hypotheses of the refutation hold. *)
Example fw_exp_decay_daily : exists out, f_exp_decay (lsum_f 0) (fun x => rnd (exp x)) (rnd (693147180559945 / 1000000000000000)) 5400 5 = Ok out /\
  747 * 5 <= rnd (693147180559945 / 1000000000000000) * INR (5400 - 1).
Proof.
  eexists. split. { unfold f_exp_decay. assert (Rleb 5 0 = false) as -> by (apply Rleb_false; lra). reflexivity. }
  replace (INR (5400 - 1)) with 5399 by (rewrite INR_IZR_INZ; reflexivity). pose proof (lit_bounds (693147180559945 / 1000000000000000) ltac:(lra)) as K. apply Rabs_bd in K. lra.
Qed.
