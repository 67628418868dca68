(** Exponential decay, kernel weights and the Herfindahl number in binary64. *)
From Flocq Require Import Core.
From Verif Require Import RBase FpLib FpModel FpSpec FpProofs FaModel FaProofs FaProofs3 FwModel FwSpec FwProofs.
Open Scope R_scope.

Lemma no_neg_inv (strict : bool) l : existsb (fun x => if strict then Rleb x 0 else Rltb x 0) l = false -> forall x, In x l -> 0 <= x.
Proof.
  intros H x Hx. destruct (Rle_lt_dec 0 x) as [|N]; [assumption|exfalso]. assert (E : existsb (fun x => if strict then Rleb x 0 else Rltb x 0) l = true); [|congruence].
  apply existsb_exists. exists x. split; [exact Hx|]. destruct strict; [apply Rleb_true; lra|apply Rltb_true; exact N].
Qed.
Lemma normalize_inv npsum strict l out : f_normalize npsum strict l = Ok out ->
  l <> [] /\ (forall x, In x l -> 0 <= x) /\ (strict = true -> forall x, In x l -> 0 < x) /\ 0 < npsum l /\
  (f_close1 (npsum l) = true /\ out = l \/ f_close1 (npsum l) = false /\ out = map (fun x => fdiv x (npsum l)) l).
Proof.
  unfold f_normalize. intros H. destruct l as [|a l0]; [discriminate|]. set (l := a :: l0) in *. split; [unfold l; discriminate|].
  destruct (existsb (fun x => if strict then Rleb x 0 else Rltb x 0) l) eqn:E; [discriminate|]. split; [apply (no_neg_inv strict l E)|]. split.
  { intros -> x Hx. destruct (Rlt_le_dec 0 x) as [|N]; [assumption|exfalso]. assert (existsb (fun x => Rleb x 0) l = true); [|congruence]. apply existsb_exists. exists x. split; [exact Hx|apply Rleb_true; exact N]. }
  destruct (Rleb_spec (npsum l) 0) as [|P]; [discriminate|]. split; [lra|]. destruct (f_close1 (npsum l)); [left|right]; split; congruence.
Qed.

Lemma entry_error npsum l x : sums npsum -> (forall x, In x l -> 0 <= x /\ isf x) -> 0 < npsum l -> sizeable (length l) -> 0 <= x ->
  Rabs (fdiv x (npsum l) - x / rsum l) <= norm_tol (length l) * (x / rsum l) + eta.
Proof.
  intros Hs Hl Ht Hn Hx. destruct (sum_nonneg_err npsum l Hs Hl) as (He & _ & S0); [unfold sizeable in Hn; lra|]. unfold sizeable in Hn. apply Rabs_bd in He. pose proof ur_pos as Hu. pose proof ur_small. pose proof (pos_INR (length l)) as N0. unfold norm_tol.
  set (n := INR (length l)) in *. set (t := npsum l) in *. set (s := rsum l) in *. assert (Sp : 0 < s) by (assert (0 <= n * ur) by nra; nra).
  pose proof (rnd_abs (x / t)) as K. change (rnd (x / t)) with (fdiv x t) in K. set (y := x / s). assert (Y0 : 0 <= y) by (apply Rmult_le_pos; [exact Hx|left; apply Rinv_0_lt_compat; exact Sp]).
  assert (Ey : x / t = y * (s / t)) by (unfold y; field; lra). rewrite Ey in K.
  assert (Q : Rabs (s / t - 1) <= 2 * n * ur + n * ur / 8).
  { assert (g0 : 0 <= n * ur) by nra. set (g := n * ur) in *. replace (2 * n * ur) with (2 * g) in * by (unfold g; ring). assert (B1 : (1 - 2 * g) * s <= t <= (1 + 2 * g) * s) by lra.
    replace (s / t - 1) with ((s - t) / t) by (field; lra). unfold Rdiv at 1. rewrite Rabs_mult, (Rabs_pos_eq (/ t)) by (left; apply Rinv_0_lt_compat; exact Ht).
    apply Rmult_le_reg_r with t; [exact Ht|]. rewrite Rmult_assoc, Rinv_l, Rmult_1_r by lra. apply Rle_trans with (2 * g * s); [apply Rabs_le; lra|].
    apply Rle_trans with ((2 * g + g / 8) * ((1 - 2 * g) * s)); [|apply Rmult_le_compat_l; lra]. assert (0 <= g * s) by (apply Rmult_le_pos; lra). assert (g * (g * s) <= 1 / 100000000 * (g * s)) by (apply Rmult_le_compat_r; lra). lra. }
  apply Rabs_bd in Q. assert (g0 : 0 <= n * ur) by nra. assert (Z : Rabs (y * (s / t) - y) <= y * (2 * n * ur + n * ur / 8)).
  { replace (y * (s / t) - y) with (y * (s / t - 1)) by ring. rewrite Rabs_mult, (Rabs_pos_eq y) by exact Y0. apply Rmult_le_compat_l; [exact Y0|]. apply Rabs_le. lra. }
  assert (A : Rabs (y * (s / t)) <= y * (9 / 8)). { rewrite Rabs_mult, (Rabs_pos_eq y) by exact Y0. apply Rmult_le_compat_l; [exact Y0|]. apply Rabs_le. lra. }
  replace (fdiv x t - y) with ((fdiv x t - y * (s / t)) + (y * (s / t) - y)) by ring. eapply Rle_trans; [apply Rabs_triang|].
  assert (ur * Rabs (y * (s / t)) <= ur * (y * (9 / 8))) by (apply Rmult_le_compat_l; lra). assert (0 <= n * ur * y) by (apply Rmult_le_pos; lra). assert (0 <= ur * y) by (apply Rmult_le_pos; lra). lra.
Qed.

Lemma exp_raw_ok fexp flog2 n hl : exp_like fexp -> 0 <= flog2 -> 0 < hl -> let l := f_exp_raw fexp flog2 n hl in
  length l = n /\ (forall x, In x l -> 0 <= x <= 1 /\ isf x) /\ ((0 < n)%nat -> In 1 l).
Proof.
  intros (E1 & E2 & E3) H0 Hh l. unfold l, f_exp_raw. split; [rewrite map_length, seq_length; reflexivity|]. split.
  - intros x Hx. apply in_map_iff in Hx as (k & <- & _). destruct (E1 (fmul (fdiv (- flog2) hl) (INR (n - k)))) as (A & B). split; [split; [exact B|]|exact A].
    rewrite <- E2. apply E3. apply rnd_le0. apply Ropp_le_cancel. rewrite Ropp_0. replace (- (fdiv (- flog2) hl * INR (n - k))) with ((- fdiv (- flog2) hl) * INR (n - k)) by ring. apply Rmult_le_pos; [|apply pos_INR].
    assert (fdiv (- flog2) hl <= 0); [|lra]. apply rnd_le0. unfold Rdiv. assert (0 < / hl) by (apply Rinv_0_lt_compat; exact Hh). nra.
  - intros Hn. apply in_map_iff. exists n. split; [|apply in_seq; lia]. rewrite Nat.sub_diag. simpl INR. unfold fmul. rewrite Rmult_0_r, rnd_0. exact E2.
Qed.
Lemma npsum_pos npsum l x : sums npsum -> (forall x, In x l -> 0 <= x /\ isf x) -> sizeable (length l) -> In x l -> 0 < x -> 0 < npsum l.
Proof.
  intros Hs Hl Hn Hx Hp. destruct (sum_nonneg_err npsum l Hs Hl) as (He & _ & S0); [unfold sizeable in Hn; lra|]. unfold sizeable in Hn. apply Rabs_bd in He. pose proof ur_pos. pose proof (pos_INR (length l)). assert (0 <= INR (length l) * ur) by nra.
  assert (x <= rsum l) by (apply rsum_ge_elem; [intros; apply Hl; assumption|exact Hx]). nra.
Qed.

Lemma cauchy_sum l : rsum l * rsum l <= INR (length l) * rsum (map (fun x => x * x) l).
Proof.
  induction l as [|x l IH]; [simpl; lra|]. cbn [map length]. rewrite !rsum_cons, S_INR. set (s := rsum l) in *. set (q := rsum (map (fun x => x * x) l)) in *. pose proof (pos_INR (length l)) as Hn. set (n := INR (length l)) in *.
  assert (0 <= q) by (apply rsum_nonneg; intros y Hy; apply in_map_iff in Hy as (z & <- & _); apply Rle_0_sqr).
  destruct (Req_dec n 0) as [E|E].
  - rewrite E in *. assert (s * s <= 0) by lra. assert (s = 0) by nra. subst. rewrite H1. lra.
  - assert (0 < n) by lra. apply Rmult_le_reg_l with n; [assumption|]. pose proof (Rle_0_sqr (n * x - s)) as K. unfold Rsqr in K. nra.
Qed.

Lemma eta_ur3 : eta <= ur * ur * ur.
Proof. unfold eta, ur. rewrite <- !bpow_plus. apply bpow_le. lia. Qed.
Lemma squares_err l : (forall x, In x l -> 0 <= x /\ isf x) ->
  Rabs (rsum (map (fun x => fmul x x) l) - rsum (map (fun x => x * x) l)) <= ur * rsum (map (fun x => x * x) l) + INR (length l) * eta.
Proof.
  induction l as [|x l IH]; intros Hl; [simpl; rewrite Rminus_0_r, Rabs_R0; lra|]. cbn [map length]. rewrite !rsum_cons, S_INR. specialize (IH (fun z Hz => Hl z (or_intror Hz))).
  pose proof (rnd_abs (x * x)) as K. change (rnd (x * x)) with (fmul x x) in K. pose proof (Rle_0_sqr x) as P. unfold Rsqr in P. rewrite (Rabs_pos_eq (x * x)) in K by exact P. apply Rabs_bd in IH, K. apply Rabs_le. lra.
Qed.
Lemma hhi_err npsum n tol p : sums npsum -> prob_floats n tol p -> tol <= 1 / 2 -> sizeable n ->
  Rabs (f_hhi npsum p - hhi p) <= (3 * INR n + 8) * ur * hhi p.
Proof.
  intros Hs (Ln & Hp & Ht) Htol Hn. subst n. unfold f_hhi, hhi. pose proof (cauchy_sum p) as CS. pose proof (squares_err p Hp) as SE.
  assert (Hm : forall x, In x (map (fun x => fmul x x) p) -> 0 <= x /\ isf x). { intros x Hx. apply in_map_iff in Hx as (y & <- & _). split; [apply rnd_ge0; apply Rle_0_sqr|apply rnd_isf]. }
  pose proof (sum_nonneg_err npsum (map (fun x => fmul x x) p) Hs Hm) as SN. rewrite map_length in SN. unfold sizeable in Hn. specialize (SN ltac:(lra)). destruct SN as (He & _ & S0).
  set (Q := rsum (map (fun x => x * x) p)) in *. set (F := rsum (map (fun x => fmul x x) p)) in *. set (s := npsum (map (fun x => fmul x x) p)) in *. set (n := INR (length p)) in *.
  pose proof (pos_INR (length p)) as N0. fold n in N0. pose proof ur_pos as Hu. pose proof ur_small as Hus. pose proof eta_pos as Hep. pose proof eta_ur3 as Het. apply Rabs_bd in Ht, SE, He.
  assert (R1 : 1 / 4 <= rsum p * rsum p) by (assert (1 / 2 <= rsum p) by lra; nra). assert (Np : 0 < n) by (destruct (Req_dec n 0) as [E|E]; [rewrite E in CS; lra|lra]).
  assert (Qp : 0 < Q) by (apply Rmult_lt_reg_l with n; [exact Np|lra]). set (g := n * ur) in *. assert (g0 : 0 < g) by (unfold g; nra).
  assert (NE : n * eta <= ur * Q / 16).
  { apply Rmult_le_reg_l with n; [exact Np|]. assert (ur * (1 / 4) <= ur * (n * Q)) by (apply Rmult_le_compat_l; lra). assert (n * (n * eta) <= n * (n * (ur * ur * ur))) by (apply Rmult_le_compat_l; [lra|apply Rmult_le_compat_l; lra]).
    replace (n * (n * (ur * ur * ur))) with (g * g * ur) in * by (unfold g; ring). assert (g * g <= 1 / 64) by nra. assert (g * g * ur <= 1 / 64 * ur) by (apply Rmult_le_compat_r; lra). lra. }
  assert (F1 : Rabs (F - Q) <= 17 / 16 * ur * Q) by (apply Rabs_le; lra). apply Rabs_bd in F1.
  assert (UQ : ur * Q <= 1 / 1000000000000000 * Q) by (apply Rmult_le_compat_r; lra). assert (gQ : 0 < g * Q) by (apply Rmult_lt_0_compat; lra).
  assert (S1 : Rabs (s - Q) <= (17 / 8 * g + 9 / 8 * ur) * Q).
  { replace (2 * n * ur * F) with (2 * (g * F)) in He by (unfold g; ring). assert (g * F <= g * (1001 / 1000 * Q)) by (apply Rmult_le_compat_l; lra). apply Rabs_le. lra. }
  set (d := (17 / 8 * g + 9 / 8 * ur)) in *. assert (D : 0 < d <= 3 / 100000000) by (unfold d; lra). apply Rabs_bd in S1. assert (dQ : d * Q <= 3 / 100000000 * Q) by (apply Rmult_le_compat_r; lra). assert (Sp : 0 < s) by lra.
  assert (IQ : 0 < / Q) by (apply Rinv_0_lt_compat; exact Qp). assert (QI : Q * / Q = 1) by (apply Rinv_r; lra).
  assert (V : Rabs (1 / s - / Q) <= (d + d / 100) * / Q).
  { replace (1 / s - / Q) with ((Q - s) * / Q * / s) by (field; lra). rewrite Rabs_mult, Rabs_mult, (Rabs_pos_eq (/ Q)), (Rabs_pos_eq (/ s)) by (left; apply Rinv_0_lt_compat; assumption).
    apply Rmult_le_reg_r with s; [exact Sp|]. rewrite Rmult_assoc, Rinv_l, Rmult_1_r by lra. replace ((d + d / 100) * / Q * s) with ((d + d / 100) * s * / Q) by ring. apply Rmult_le_compat_r; [lra|].
    apply Rle_trans with (d * Q); [apply Rabs_le; lra|]. assert (d * (99 / 100 * Q * (101 / 100)) <= d * (s * (101 / 100))) by (apply Rmult_le_compat_l; lra). assert (d * (Q * (1 - 3 / 100000000) * (101 / 100)) <= d * (s * (101 / 100))) by (apply Rmult_le_compat_l; lra). lra. }
  pose proof (rnd_abs (1 / s)) as K. change (rnd (1 / s)) with (fdiv 1 s) in K. assert (0 < 1 / s) by (apply Rdiv_lt_0_compat; lra). rewrite (Rabs_pos_eq (1 / s)) in K by lra. apply Rabs_bd in V, K.
  assert (HI : 1 / 4 <= / Q). { apply Rmult_le_reg_l with Q; [exact Qp|]. rewrite QI. assert (Q <= 4); [|lra].
    assert (forall l, (forall x, In x l -> 0 <= x /\ isf x) -> rsum (map (fun x => x * x) l) <= rsum l * rsum l).
    { clear. induction l as [|x l IH]; intros Hl; [simpl; lra|]. cbn [map]. rewrite !rsum_cons. specialize (IH (fun z Hz => Hl z (or_intror Hz))). assert (0 <= x) by (apply Hl; left; reflexivity). assert (0 <= rsum l) by (apply rsum_nonneg; intros; apply Hl; right; assumption). nra. }
    pose proof (H0 p Hp) as H1. fold Q in H1. assert (0 <= rsum p <= 3 / 2) by lra. nra. }
  assert (E2 : eta <= ur * / Q / 64). { assert (ur * ur * ur <= ur * (1 / 256)) by (rewrite Rmult_assoc; apply Rmult_le_compat_l; nra). assert (ur * (1 / 4) <= ur * / Q) by (apply Rmult_le_compat_l; lra). lra. }
  assert (dI : d * / Q <= 3 / 100000000 * / Q) by (apply Rmult_le_compat_r; lra). assert (KK : ur * (1 / s) <= ur * (101 / 100 * / Q)) by (apply Rmult_le_compat_l; lra).
  replace ((3 * n + 8) * ur * / Q) with ((3 * g + 8 * ur) * / Q) by (unfold g; ring). assert (DD : d * / Q = 17 / 8 * (g * / Q) + 9 / 8 * (ur * / Q)) by (unfold d; ring). assert (0 < g * / Q) by (apply Rmult_lt_0_compat; lra). assert (0 < ur * / Q) by (apply Rmult_lt_0_compat; lra).
  apply Rabs_le. lra.
Qed.
