(** Accuracy of VaR and CVaR in binary64. *)
From Verif Require Import RBase SortLib RiskModel RiskSpec RiskProofs FpLib FpModel FpSpec FpProofs.
Open Scope R_scope.

Lemma level_between lo hi t d : 0 <= d -> lo < t + d -> t - d <= hi -> lo < hi -> exists b, Rabs (b - t) <= d /\ lo < b <= hi.
Proof.
  intros Hd H1 H2 H3. exists (Rmin hi (t + d)). unfold Rmin. destruct (Rle_dec hi (t + d)).
  - split; [apply Rabs_le; lra|lra].
  - split; [apply Rabs_le; lra|lra].
Qed.

Lemma tail_err c : 0 < c < 1 -> rnd c < 1 -> Rabs (fsub 1 (rnd c) - (1 - c)) <= 2 * ur + eta /\ 0 < fsub 1 (rnd c).
Proof.
  intros Hc H1. destruct (sub_err 1 (rnd c) isf_1 (rnd_isf c)) as (e & He & E). rewrite E.
  pose proof (rnd_abs c) as Hr. rewrite (Rabs_pos_eq c) in Hr by lra. assert (0 <= rnd c) by (apply rnd_ge0; lra).
  pose proof ur_pos. pose proof ur_small. pose proof eta_pos. apply Rabs_bd in He. apply Rabs_bd in Hr. split.
  - apply Rabs_le. nra.
  - apply Rmult_lt_0_compat; lra.
Qed.

Lemma small_terms T : INR T * ur <= 1 / 8 -> INR T * eta <= ur / 8 /\ gam T <= 2 * INR T * ur /\ gam T <= 1 / 4.
Proof.
  intros H. pose proof ur_pos. pose proof eta_ur. pose proof (pos_INR T). assert (gam T <= 2 * INR T * ur) by (apply gam_lin; lra).
  repeat split; nra.
Qed.

Lemma prob_strict p x q : (forall w, In w p -> 0 <= w) ->
  prob (map rnd p) x (fun y => Rltb y q) < prob (map rnd p) x (fun y => Rleb y q) ->
  prob p x (fun y => Rltb y q) < prob p x (fun y => Rleb y q).
Proof.
  unfold prob. revert x. induction p as [|w p IH]; intros x Hn H; [cbn in H; lra|]. destruct x as [|y x]; [cbn in H; lra|].
  assert (Hw : 0 <= w) by (apply Hn; left; reflexivity). assert (Hn' : forall z, In z p -> 0 <= z) by (intros; apply Hn; right; assumption).
  cbn [map map2] in *. rewrite !rsum_cons in *.
  pose proof (prob_mono p x (fun y => Rltb y q) (fun y => Rleb y q) Hn') as Hm. unfold prob in Hm. cbv beta in Hm.
  assert (Hm' : rsum (map2 (fun w y => if Rltb y q then w else 0) p x) <= rsum (map2 (fun w y => if Rleb y q then w else 0) p x)).
  { apply Hm. intros z Hz. apply Rltb_true in Hz. apply Rleb_true. lra. }
  destruct (Rlt_dec (rsum (map2 (fun w y => if Rltb y q then w else 0) (map rnd p) x)) (rsum (map2 (fun w y => if Rleb y q then w else 0) (map rnd p) x))) as [L|L].
  - specialize (IH x Hn' L). destruct (Rltb_spec y q), (Rleb_spec y q); lra.
  - destruct (Rltb_spec y q), (Rleb_spec y q); try lra. assert (0 < w); [|lra].
    destruct (Rle_lt_dec w 0) as [L0|]; [|assumption]. apply rnd_le0 in L0. lra.
Qed.

Lemma f_var_quantile argsort c x p : sorts Rle 0 argsort -> prob_vector p (length x) -> x <> [] -> 0 < c < 1 -> rnd c < 1 ->
  INR (length x) * ur <= 1 / 8 -> slack (length x) <= c ->
  let q := f_var_pnl argsort (fsub 1 (rnd c)) x (map rnd p) in
  exists b, Rabs (b - (1 - c)) <= slack (length x) /\ is_quantile p x b q.
Proof.
  intros Hs (Hl & Hn & Hsum) Hne Hc Hc1 HT Hsl q. set (T := length x) in *. destruct (small_terms T HT) as (HTe & HG & HG4).
  destruct (tail_err c Hc Hc1) as (Ht & Ht0). set (t := fsub 1 (rnd c)) in *. pose proof (sum_rnd p Hn) as Hsr. rewrite Hsum, Hl in Hsr.
  pose proof ur_pos. pose proof ur_small. pose proof eta_pos. pose proof (pos_INR T). pose proof (gam_ge0 T). unfold slack in *.
  assert (HT1 : 1 <= INR T) by (apply (le_INR 1); destruct x; [congruence|unfold T; simpl; lia]).
  assert (eta <= ur / 8) by nra.
  apply Rabs_bd in Hsr. apply Rabs_bd in Ht.
  destruct (f_var_bracket argsort t x (map rnd p) ((2 * INR T + 1) * ur)) as (Hin & Hlt & Hge & Hst).
  - exact Hs. - rewrite map_length. exact Hl. - exact Hne.
  - intros w Hw. apply in_map_iff in Hw as (z & <- & Hz). split; [apply rnd_ge0, Hn, Hz|apply rnd_isf].
  - exact Ht0. - fold T. nra. - nra.
  - fold q in Hin, Hlt, Hge, Hst. apply prob_strict in Hst; [|exact Hn].
    pose proof (prob_rnd p x (fun y => Rltb y q) Hn) as P1. pose proof (prob_rnd p x (fun y => Rleb y q) Hn) as P2. rewrite Hsum, Hl in P1, P2.
    apply Rabs_bd in P1. apply Rabs_bd in P2.
    destruct (level_between (prob p x (fun y => Rltb y q)) (prob p x (fun y => Rleb y q)) (1 - c) ((2 * INR T + 6) * ur)) as (b & Hb & Hbb); [nra|lra|lra|exact Hst|].
    exists b. split; [exact Hb|]. split; [exact Hin|exact Hbb].
Qed.

(** ** Perturbed P&L *)
Lemma prob_mono2 p x y (P Q : R -> bool) Rel : (forall q, In q p -> 0 <= q) -> Forall2 Rel x y ->
  (forall a b, Rel a b -> P a = true -> Q b = true) -> prob p x P <= prob p y Q.
Proof.
  intros Hn HF HPQ. unfold prob. revert p Hn. induction HF as [|a b x y Hab HF IH]; intros p Hn; [destruct p; simpl; lra|].
  destruct p as [|w p]; [simpl; lra|]. cbn [map2]. rewrite !rsum_cons.
  assert (Hw : 0 <= w) by (apply Hn; left; reflexivity). specialize (IH p (fun z Hz => Hn z (or_intror Hz))). specialize (HPQ a b Hab).
  destruct (P a); [rewrite (HPQ eq_refl); lra|]. destruct (Q b); lra.
Qed.
Lemma within_sym eps x y : within eps x y -> within eps y x.
Proof. unfold within. induction 1; constructor; auto. rewrite Rabs_minus_sym. assumption. Qed.
Lemma within_length eps x y : within eps x y -> length x = length y.
Proof. unfold within. induction 1; simpl; auto. Qed.

Lemma argsort_Rleb_sorts : sorts Rle 0 (argsort_by Rleb 0).
Proof.
  intros l. unfold argsort_by. apply isort_argsort.
  - intros a b. destruct (Rleb_spec a b); [auto|discriminate].
  - intros a b H. apply Rleb_false in H. lra.
  - intros a b c H1 H2. lra.
Qed.

Lemma quantile_shift p x y b q eps : prob_vector p (length x) -> within eps x y -> is_quantile p x b q ->
  exists q', is_quantile p y b q' /\ Rabs (q - q') <= eps.
Proof.
  intros HP HW (Hin & Hlt & Hle). pose proof HP as (Hl & Hn & Hsum). pose proof (within_length _ _ _ HW) as EL.
  pose proof (prob_mono p x (fun _ => false) (fun y => Rltb y q) Hn ltac:(discriminate)) as P0.
  pose proof (prob_mono p x (fun y => Rleb y q) (fun _ => true) Hn ltac:(auto)) as P1.
  assert (E0 : prob p x (fun _ => false) = 0). { rewrite prob_combine. clear. induction (combine p x); simpl; lra. }
  assert (E1 : prob p x (fun _ => true) = 1). { rewrite prob_combine. cbv beta. rewrite rsum_fst_combine by auto. exact Hsum. }
  assert (Hq : is_quantile p y b (var_pnl (argsort_by Rleb 0) b y p)). { apply var_is_quantile; [apply argsort_Rleb_sorts|rewrite <- EL; exact HP|lra]. }
  set (q' := var_pnl (argsort_by Rleb 0) b y p) in *. exists q'. split; [exact Hq|]. destruct Hq as (_ & Hlt' & Hle').
  apply Rabs_le. destruct (Rlt_le_dec (q + eps) q') as [G|G]; [exfalso|destruct (Rlt_le_dec q' (q - eps)) as [G'|G']; [exfalso|lra]].
  - assert (prob p x (fun y => Rleb y q) <= prob p y (fun y => Rltb y q')); [|lra].
    eapply prob_mono2; [exact Hn|exact HW|]. cbv beta. intros a b0 Hab Ha. apply Rleb_true in Ha. apply Rltb_true. apply Rabs_bd in Hab. lra.
  - assert (prob p y (fun y => Rleb y q') <= prob p x (fun y => Rltb y q)); [|lra].
    eapply prob_mono2; [exact Hn|apply within_sym; exact HW|]. cbv beta. intros a b0 Hab Ha. apply Rleb_true in Ha. apply Rltb_true. apply Rabs_bd in Hab. lra.
Qed.

(** CVaR moves by at most the largest change of P&L. *)
Lemma ru_shift p x y a c eps : prob_vector p (length x) -> within eps x y -> 0 < a -> ru p y a (c + eps) <= ru p x a c + eps.
Proof.
  intros (Hl & Hn & _) HW Ha. unfold ru. assert (H : expect p y (fun z => Rmax 0 (- z - (c + eps))) <= expect p x (fun z => Rmax 0 (- z - c))).
  { clear Hl. unfold expect. revert p Hn. unfold within in HW. induction HW as [|u v x y Huv HW IH]; intros p Hn; [destruct p; simpl; lra|].
    destruct p as [|w p]; [simpl; lra|]. cbn [map2]. rewrite !rsum_cons. specialize (IH p (fun z Hz => Hn z (or_intror Hz))).
    assert (Hw : 0 <= w) by (apply Hn; left; reflexivity). apply Rabs_bd in Huv.
    assert (Rmax 0 (- v - (c + eps)) <= Rmax 0 (- u - c)) by (apply Rle_max_compat_l; lra). nra. }
  assert (expect p y (fun z => Rmax 0 (- z - (c + eps))) / a <= expect p x (fun z => Rmax 0 (- z - c)) / a).
  { apply Rmult_le_compat_r; [left; apply Rinv_0_lt_compat; exact Ha|exact H]. }
  lra.
Qed.
Lemma cvar_shift p x y a v v' eps : prob_vector p (length x) -> within eps x y -> 0 < a -> is_cvar p x a v -> is_cvar p y a v' -> Rabs (v - v') <= eps.
Proof.
  intros HP HW Ha (H1 & c1 & E1) (H2 & c2 & E2). pose proof (within_length _ _ _ HW) as EL.
  pose proof (ru_shift p x y a c1 eps HP HW Ha). pose proof (ru_shift p y x a c2 eps ltac:(rewrite <- EL; exact HP) (within_sym _ _ _ HW) Ha).
  specialize (H1 (c2 + eps)). specialize (H2 (c1 + eps)). apply Rabs_le. lra.
Qed.

(** ** The CVaR expression *)
Definition strict_p (p x : list R) (q : R) := map2 (fun w y => if Rltb y q then w else 0) p x.
Definition strict_s (p x : list R) (q : R) := map2 (fun w y => if Rltb y q then w * y else 0) p x.
Definition strict_fs (p x : list R) (q : R) := map2 (fun w y => if Rltb y q then fmul w y else 0) p x.

Lemma strict_p_abs p x q : length p = length x -> (forall w, In w p -> 0 <= w) ->
  rsum (map Rabs (strict_p p x q)) = rsum (strict_p p x q) /\ 0 <= rsum (strict_p p x q) <= rsum p.
Proof.
  revert x. unfold strict_p. induction p as [|w p IH]; intros [|y x] Hl Hn; try discriminate Hl; [simpl; lra|].
  assert (Hw : 0 <= w) by (apply Hn; left; reflexivity). destruct (IH x ltac:(simpl in Hl; lia) (fun z Hz => Hn z (or_intror Hz))) as (E & H1).
  cbn [map2 map]. rewrite !rsum_cons, E. destruct (Rltb y q); rewrite ?Rabs_R0, ?Rabs_pos_eq by assumption; lra.
Qed.
Lemma strict_s_abs p x q M : 0 <= M -> length p = length x -> (forall w, In w p -> 0 <= w) -> (forall y, In y x -> Rabs y <= M) ->
  Rabs (rsum (strict_s p x q)) <= M * rsum p /\
  Rabs (rsum (strict_fs p x q) - rsum (strict_s p x q)) <= ur * (M * rsum p) + INR (length p) * eta /\
  rsum (map Rabs (strict_fs p x q)) <= (1 + ur) * (M * rsum p) + INR (length p) * eta.
Proof.
  intros HM. pose proof ur_pos as Hu. pose proof eta_pos as He0. revert x. unfold strict_s, strict_fs.
  induction p as [|w p IH]; intros [|y x] Hl Hn HX; try discriminate Hl; [simpl; rewrite Rminus_0_r, Rabs_R0; lra|].
  assert (Hw : 0 <= w) by (apply Hn; left; reflexivity). assert (Hy : Rabs y <= M) by (apply HX; left; reflexivity).
  destruct (IH x ltac:(simpl in Hl; lia) (fun z Hz => Hn z (or_intror Hz)) (fun z Hz => HX z (or_intror Hz))) as (H1 & H2 & H3).
  cbn [map2 map length]. rewrite !rsum_cons, S_INR. pose proof (rnd_abs (w * y)) as Hr. rewrite Rabs_mult, (Rabs_pos_eq w Hw) in Hr.
  pose proof (Rabs_pos y). assert (K : w * Rabs y <= M * w) by nra. assert (KU : ur * (w * Rabs y) <= ur * (M * w)) by (apply Rmult_le_compat_l; lra).
  assert (0 <= M * w) by nra.
  set (s1 := rsum (map2 (fun w y => if Rltb y q then w * y else 0) p x)) in *. set (s2 := rsum (map2 (fun w y => if Rltb y q then fmul w y else 0) p x)) in *.
  destruct (Rltb y q).
  - change (fmul w y) with (rnd (w * y)). repeat split.
    + eapply Rle_trans; [apply Rabs_triang|]. rewrite Rabs_mult, (Rabs_pos_eq w Hw). lra.
    + replace (rnd (w * y) + s2 - (w * y + s1)) with ((rnd (w * y) - w * y) + (s2 - s1)) by ring. eapply Rle_trans; [apply Rabs_triang|]. lra.
    + assert (Rabs (rnd (w * y)) <= w * Rabs y + (ur * (w * Rabs y) + eta)).
      { replace (rnd (w * y)) with (w * y + (rnd (w * y) - w * y)) by ring. eapply Rle_trans; [apply Rabs_triang|]. rewrite Rabs_mult, (Rabs_pos_eq w Hw). lra. }
      lra.
  - rewrite Rabs_R0. repeat split.
    + rewrite Rplus_0_l. lra.
    + replace (0 + s2 - (0 + s1)) with (s2 - s1) by ring. nra.
    + nra.
Qed.

Lemma cvar_arith T S M G t q sp sp' ss ss' d m num res :
  0 <= M -> 1 <= T -> T * ur <= 1 / 8 -> 0 <= S <= 9 / 8 -> 0 < t <= 9 / 8 -> 0 <= G -> G <= 2 * T * ur -> Rabs q <= M ->
  0 <= sp <= S -> Rabs ss <= M * S ->
  Rabs (sp' - sp) <= G * S -> Rabs (ss' - ss) <= M * S * (ur + G * (1 + ur)) + T * eta * (1 + G) ->
  Rabs (d - (t - sp')) <= ur * Rabs (t - sp') -> Rabs (m - q * d) <= ur * Rabs (q * d) + eta ->
  Rabs (num - (ss' + m)) <= ur * Rabs (ss' + m) -> Rabs (res - num / t) <= ur * Rabs (num / t) + eta ->
  Rabs (res - (ss + q * (t - sp)) / t) <= ((5 * T + 15) * ur * M + (2 * T + 5) * eta) / t.
Proof.
  intros HM HT HTu HS Ht HG0 HG Hq Hsp Hss H1 H2 H3 H4 H5 H6.
  pose proof ur_pos as Hu. pose proof ur_small as Hus. pose proof eta_pos as He. assert (HG4 : G <= 1 / 4) by lra.
  assert (HGS : G * S <= 9 / 32) by nra.
  assert (A1 : Rabs (t - sp') <= 3 / 2). { replace (t - sp') with ((t - sp) - (sp' - sp)) by ring. eapply Rle_trans; [apply Rabs_triang|]. rewrite Rabs_Ropp. assert (Rabs (t - sp) <= 9 / 8) by (apply Rabs_le; lra). lra. }
  assert (A2 : Rabs (d - (t - sp)) <= G * S + 3 / 2 * ur).
  { replace (d - (t - sp)) with ((d - (t - sp')) - (sp' - sp)) by ring. eapply Rle_trans; [apply Rabs_triang|]. rewrite Rabs_Ropp. assert (ur * Rabs (t - sp') <= ur * (3 / 2)) by (apply Rmult_le_compat_l; lra). lra. }
  assert (A3 : Rabs d <= 2). { replace d with ((d - (t - sp')) + (t - sp')) by ring. eapply Rle_trans; [apply Rabs_triang|]. assert (ur * Rabs (t - sp') <= ur * (3 / 2)) by (apply Rmult_le_compat_l; lra). lra. }
  assert (A4 : Rabs (q * d) <= 2 * M). { rewrite Rabs_mult. pose proof (Rabs_pos q). pose proof (Rabs_pos d). nra. }
  assert (A5 : Rabs (m - q * (t - sp)) <= M * (G * S) + 7 / 2 * (ur * M) + eta).
  { replace (m - q * (t - sp)) with ((m - q * d) + q * (d - (t - sp))) by ring. eapply Rle_trans; [apply Rabs_triang|]. rewrite (Rabs_mult q).
    assert (ur * Rabs (q * d) <= ur * (2 * M)) by (apply Rmult_le_compat_l; lra).
    assert (Rabs q * Rabs (d - (t - sp)) <= M * (G * S + 3 / 2 * ur)) by (apply Rmult_le_compat; auto using Rabs_pos). lra. }
  set (N := ss + q * (t - sp)) in *. assert (HuM : 0 <= ur * M) by nra.
  assert (A6 : Rabs (ss' + m - N) <= 2 * (M * (G * S)) + 6 * (ur * M) + (5 / 4 * T + 1) * eta).
  { replace (ss' + m - N) with ((ss' - ss) + (m - q * (t - sp))) by (unfold N; ring). eapply Rle_trans; [apply Rabs_triang|].
    assert (M * S * (ur + G * (1 + ur)) <= M * (G * S) + 2 * (ur * M)).
    { replace (M * S * (ur + G * (1 + ur))) with (M * (G * S) + (ur * M) * (S + G * S)) by ring. assert ((ur * M) * (S + G * S) <= (ur * M) * 2) by (apply Rmult_le_compat_l; lra). lra. }
    assert (T * eta * (1 + G) <= 5 / 4 * T * eta). { assert (0 <= T * eta) by nra. nra. } lra. }
  assert (A7 : Rabs N <= 9 / 4 * M).
  { unfold N. eapply Rle_trans; [apply Rabs_triang|]. rewrite Rabs_mult. assert (Rabs (t - sp) <= 9 / 8) by (apply Rabs_le; lra).
    assert (Rabs q * Rabs (t - sp) <= M * (9 / 8)) by (apply Rmult_le_compat; auto using Rabs_pos). nra. }
  assert (HMG : M * (G * S) <= 9 / 32 * M) by nra.
  assert (A8 : Rabs (ss' + m) <= 4 * M + (2 * T + 1) * eta).
  { replace (ss' + m) with ((ss' + m - N) + N) by ring. eapply Rle_trans; [apply Rabs_triang|]. assert (6 * (ur * M) <= 1 / 8 * M) by nra. nra. }
  assert (Hue : ur * ((2 * T + 1) * eta) <= 1 / 2 * eta). { replace (ur * ((2 * T + 1) * eta)) with ((2 * (T * ur) + ur) * eta) by ring. nra. }
  assert (A9 : Rabs (num - N) <= 2 * (M * (G * S)) + 10 * (ur * M) + (2 * T + 2) * eta).
  { replace (num - N) with ((num - (ss' + m)) + (ss' + m - N)) by ring. eapply Rle_trans; [apply Rabs_triang|].
    assert (ur * Rabs (ss' + m) <= ur * (4 * M + (2 * T + 1) * eta)) by (apply Rmult_le_compat_l; lra). nra. }
  assert (A10 : Rabs num <= 5 * M + (2 * T + 2) * eta).
  { replace num with ((num - N) + N) by ring. eapply Rle_trans; [apply Rabs_triang|]. assert (10 * (ur * M) <= 1 / 8 * M) by nra. nra. }
  replace (res - N / t) with ((res - num / t) + (num - N) / t) by (field; lra). eapply Rle_trans; [apply Rabs_triang|].
  assert (Hit : 0 < / t) by (apply Rinv_0_lt_compat; lra). unfold Rdiv in *. rewrite (Rabs_mult (num - N)), (Rabs_mult num) in *. rewrite !(Rabs_pos_eq (/ t)) in * by lra.
  apply Rmult_le_reg_r with t; [lra|]. rewrite !Rmult_plus_distr_r, !Rmult_assoc, Rinv_l, !Rmult_1_r by lra.
  assert (B : Rabs (res - num * / t) * t <= ur * Rabs num + 9 / 8 * eta).
  { assert (Rabs (res - num * / t) * t <= (ur * (Rabs num * / t) + eta) * t) by (apply Rmult_le_compat_r; lra).
    replace ((ur * (Rabs num * / t) + eta) * t) with (ur * Rabs num + eta * t) in * by (field; lra). nra. }
  assert (ur * Rabs num <= ur * (5 * M + (2 * T + 2) * eta)) by (apply Rmult_le_compat_l; lra).
  assert (M * (G * S) <= 9 / 4 * (T * (ur * M))). { assert (G * S <= 2 * T * ur * (9 / 8)) by (apply Rmult_le_compat; lra). replace (9 / 4 * (T * (ur * M))) with (M * (2 * T * ur * (9 / 8))) by field. apply Rmult_le_compat_l; lra. }
  assert (0 <= T * (ur * M)) by nra. nra.
Qed.
