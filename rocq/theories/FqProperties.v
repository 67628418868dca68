(** C136, C137: portfolio variance and volatility in binary64 arithmetic. *)
From Flocq Require Import Core.
From Verif Require Import RBase FpLib FpModel FpSpec FpProofs FpProofs3 FpProperties FqModel FqSpec FqProofs.
From Coq Require Import Psatz ZArith Lia.
Open Scope R_scope.

(** C136.  The computed variance misses the exact one by at most [gam 2n] (about 2n 2^-53) times the gross variance, plus
    underflow, for any order of summation, fused or not. *)
Theorem fq_variance_accurate : forall vdot npsum n w cov, dots vdot -> sums npsum -> float_inputs n w cov ->
  Rabs (f_variance vdot npsum w cov - exact_variance w cov) <= variance_error n w cov.
Proof. intros. apply variance_err; assumption. Qed.

(** C137.  When the exact variance exceeds this error, the volatility is a number, within the stated distance of the exact
    volatility. *)
Theorem fq_volatility_accurate : forall vdot npsum n w cov, dots vdot -> sums npsum -> float_inputs n w cov ->
  variance_error n w cov < exact_variance w cov ->
  exists v, f_volatility vdot npsum w cov = Some v /\ 0 <= v /\
    Rabs (v - sqrt (exact_variance w cov)) <=
      (1 + ur) * (variance_error n w cov / sqrt (exact_variance w cov)) + ur * sqrt (exact_variance w cov) + eta.
Proof.
  intros vdot npsum n w cov Hd Hs Hf HV. destruct (variance_err vdot npsum n w cov Hd Hs Hf) as (A & _). set (E := variance_error n w cov) in *. set (V := exact_variance w cov) in *. set (s := f_variance vdot npsum w cov) in *.
  assert (E0 : 0 <= E) by (eapply Rle_trans; [apply Rabs_pos|exact A]). pose proof A as A'. apply Rabs_bd in A'. assert (Sp : 0 <= s) by lra. assert (Vp : 0 < V) by lra. unfold f_volatility. fold s. destruct (Rltb_spec s 0) as [|_]; [lra|]. eexists. split; [reflexivity|]. split; [apply rnd_ge0; apply sqrt_pos|].
  pose proof (sqrt_close s V Sp Vp) as C. assert (P : 0 < sqrt V) by (apply sqrt_lt_R0; exact Vp). assert (C' : Rabs (sqrt s - sqrt V) <= E / sqrt V) by (eapply Rle_trans; [exact C|apply Rmult_le_compat_r; [left; apply Rinv_0_lt_compat; exact P|exact A]]). set (D := E / sqrt V) in *.
  pose proof (rnd_abs (sqrt s)) as K. pose proof (sqrt_pos s). rewrite (Rabs_pos_eq (sqrt s)) in K by assumption. pose proof ur_pos. apply Rabs_bd in C'. replace (rnd (sqrt s) - sqrt V) with ((rnd (sqrt s) - sqrt s) + (sqrt s - sqrt V)) by ring. eapply Rle_trans; [apply Rabs_triang|].
  assert (ur * sqrt s <= ur * (sqrt V + D)) by (apply Rmult_le_compat_l; lra). assert (Rabs (sqrt s - sqrt V) <= D) by (apply Rabs_le; lra). lra.
Qed.

(** C137.  Long positions in non-negatively correlated assets: gross and exact variance coincide, so the error is relative,
    and the volatility is always a number. *)
Lemma dval_nonneg t : (forall z, In z (dterms t) -> 0 <= fst z /\ 0 <= snd z) -> 0 <= dval t.
Proof.
  induction t as [a b|l IHl r IHr|a b r IHr]; intros H; cbn [dval dterms] in *.
  - apply rnd_ge0. destruct (H (a, b) (or_introl eq_refl)). apply Rmult_le_pos; assumption.
  - apply rnd_ge0. assert (0 <= dval l) by (apply IHl; intros; apply H, in_or_app; auto). assert (0 <= dval r) by (apply IHr; intros; apply H, in_or_app; auto). lra.
  - apply rnd_ge0. destruct (H (a, b) (or_introl eq_refl)) as (H1 & H2). cbn [fst snd] in *. assert (0 <= dval r) by (apply IHr; intros; apply H; right; assumption). assert (0 <= a * b) by (apply Rmult_le_pos; assumption). lra.
Qed.
Lemma tsum_nonneg t : (forall z, In z (leaves t) -> 0 <= z) -> 0 <= tsum t.
Proof.
  induction t as [x|l IHl r IHr]; intros H; cbn [tsum leaves] in *; [apply H; left; reflexivity|]. apply rnd_ge0. assert (0 <= tsum l) by (apply IHl; intros; apply H, in_or_app; auto). assert (0 <= tsum r) by (apply IHr; intros; apply H, in_or_app; auto). lra.
Qed.
Theorem fq_volatility_long_only : forall vdot npsum n w cov, dots vdot -> sums npsum -> float_inputs n w cov ->
  (forall x, In x w -> 0 <= x) -> (forall col x, In col cov -> In x col -> 0 <= x) ->
  (exists v, f_volatility vdot npsum w cov = Some v) /\ gross_variance w cov = exact_variance w cov.
Proof.
  intros vdot npsum n w cov Hd Hs (Lw & Lc & Fw & Fc) Pw Pc. split.
  - unfold f_volatility. destruct (Rltb_spec (f_variance vdot npsum w cov) 0) as [L|]; [exfalso|eauto]. apply (Rlt_not_le _ _ L). clear L. unfold f_variance. set (y := map (fun col => vdot w col) cov).
    assert (F : forall z, In z (map2 fmul y w) -> isf z) by (intros z Hz; apply in_map2_iff in Hz as (a & b & _ & _ & ->); apply rnd_isf).
    assert (Py : forall z, In z y -> 0 <= z). { intros z Hz. apply in_map_iff in Hz as (col & <- & Hc). destruct (Fc col Hc) as (L & Fcc). destruct (Hd w col ltac:(congruence) Fw Fcc) as [(_ & ->)|(t & P & <-)]; [lra|]. apply dval_nonneg. intros (a, b) Hz. apply (Permutation_in _ P) in Hz. split; [apply Pw; apply in_combine_l in Hz; exact Hz|apply (Pc col); [exact Hc|apply in_combine_r in Hz; exact Hz]]. }
    assert (Pz : forall z, In z (map2 fmul y w) -> 0 <= z). { intros z Hz. apply in_map2_iff in Hz as (a & b & Ha & Hb & ->). apply rnd_ge0. apply Rmult_le_pos; auto. }
    destruct (Hs _ F) as [(_ & ->)|(t & P & <-)]; [lra|]. apply tsum_nonneg. intros z Hz. apply Pz. exact (Permutation_in _ P Hz).
  - unfold gross_variance, exact_variance. rewrite !map2_combine. f_equal. apply map_ext_in. intros (col, x) Hz. cbn [fst snd]. pose proof (in_combine_l _ _ _ _ Hz) as Hc. pose proof (in_combine_r _ _ _ _ Hz) as Hx. rewrite (Rabs_pos_eq x) by (apply Pw; exact Hx). f_equal.
    unfold rdot. rewrite !map2_combine. f_equal. apply map_ext_in. intros (a, b) Hab. cbn [fst snd]. apply Rabs_pos_eq. apply Rmult_le_pos; [apply Pw; exact (in_combine_l _ _ _ _ Hab)|apply (Pc col b Hc); exact (in_combine_r _ _ _ _ Hab)].
Qed.

(** C137, refuted part: a positive semidefinite covariance does not suffice.  An asset and its fivefold leveraged version (covariance
    [[1,5],[5,25]], an exactly positive semidefinite matrix), held 1.45 against -0.29: every order of evaluation, fused or not, gives a
    negative variance, and the volatility is NaN. *)
Lemma dot_two vdot a b c d : dots vdot -> isf a -> isf b -> isf c -> isf d ->
  vdot [a; b] [c; d] = fadd (fmul a c) (fmul b d) \/ vdot [a; b] [c; d] = rnd (a * c + fmul b d) \/ vdot [a; b] [c; d] = rnd (b * d + fmul a c).
Proof.
  intros Hd Fa Fb Fc Fd. assert (T : forall p q x, (p = a /\ q = b \/ p = c /\ q = d) -> In x [p; q] -> isf x) by (intros p q x [(-> & ->)|(-> & ->)] [<-|[<-|[]]]; assumption).
  destruct (Hd [a; b] [c; d] eq_refl) as [(E & _)|(t & P & <-)]; [intros z [<-|[<-|[]]]; assumption..|discriminate E|]. cbn [combine] in P.
  assert (One : forall t z, Permutation (dterms t) [z] -> t = DProd (fst z) (snd z)).
  { intros [p q|l r|p q r] z Pz; cbn [dterms] in Pz.
    - apply Permutation_length_1 in Pz. subst z. reflexivity.
    - apply Permutation_length in Pz. rewrite app_length in Pz. pose proof (dterms_pos l). pose proof (dterms_pos r). simpl in Pz. lia.
    - apply Permutation_length in Pz. pose proof (dterms_pos r). simpl in Pz. lia. }
  destruct t as [p q|l r|p q r]; cbn [dterms] in P.
  - apply Permutation_length in P. discriminate P.
  - pose proof (dterms_pos l). pose proof (dterms_pos r). pose proof (Permutation_length P) as PL. rewrite app_length in PL. simpl in PL.
    destruct (dterms l) as [|zl [|]] eqn:El; [simpl in *; lia| |simpl in *; lia]. destruct (dterms r) as [|zr [|]] eqn:Er; [simpl in *; lia| |simpl in *; lia].
    assert (l = DProd (fst zl) (snd zl)) as -> by (apply One; rewrite El; reflexivity). assert (r = DProd (fst zr) (snd zr)) as -> by (apply One; rewrite Er; reflexivity).
    cbn [app] in P. apply Permutation_length_2 in P. left. destruct P as [(-> & ->)|(-> & ->)]; cbn [dval fst snd]; [reflexivity|]. unfold fadd. f_equal. ring.
  - pose proof (Permutation_length P) as PL. simpl in PL. destruct (dterms r) as [|zr [|]] eqn:Er; [simpl in *; lia| |simpl in *; lia]. assert (r = DProd (fst zr) (snd zr)) as -> by (apply One; rewrite Er; reflexivity).
    apply Permutation_length_2 in P. destruct P as [(E1 & ->)|(E1 & ->)]; injection E1 as -> ->; cbn [dval fst snd]; auto.
Qed.
Lemma sum_two npsum a b : sums npsum -> isf a -> isf b -> npsum [a; b] = fadd a b.
Proof.
  intros Hs Ha Hb. destruct (Hs [a; b]) as [(E & _)|(t & E & <-)]; [intros y [<-|[<-|[]]]; assumption|discriminate E|].
  assert (L : forall t, (1 <= length (leaves t))%nat) by (intros t0; induction t0 as [y|l IHl r IHr]; simpl; [lia|rewrite app_length; lia]).
  assert (One : forall t, length (leaves t) = 1%nat -> exists y, t = Leaf y). { intros [y|l r] K; [eauto|]. simpl in K. rewrite app_length in K. pose proof (L l). pose proof (L r). lia. }
  pose proof (Permutation_length E) as K. cbn in K. destruct t as [y|l r]; [discriminate K|]. cbn [leaves] in K. rewrite app_length in K. pose proof (L l). pose proof (L r).
  destruct (One l ltac:(lia)) as (u & ->). destruct (One r ltac:(lia)) as (v & ->). cbn in E. apply Permutation_length_2 in E. destruct E as [(-> & ->)|(-> & ->)]; cbn; [reflexivity|]. unfold fadd. f_equal. ring.
Qed.
Definition hedge_long : R := rnd (145 / 100).
Definition hedge_short : R := - rnd (29 / 100).
Lemma hedge_long_val : hedge_long = 6530219459687219 / 4503599627370496.
Proof. unfold hedge_long. rewrite (rnd_val _ 6530219459687219 (-52)); [simpl; lra|lia|simpl; lra|]. simpl (bpow _ _). apply Rabs_def1; lra. Qed.
Lemma hedge_short_val : hedge_short = - (5224175567749775 / 18014398509481984).
Proof. unfold hedge_short. rewrite (rnd_val _ 5224175567749775 (-54)); [simpl; lra|lia|simpl; lra|]. simpl (bpow _ _). apply Rabs_def1; lra. Qed.
Lemma rnd_opp x : rnd (- x) = - rnd x.
Proof. unfold rnd. apply round_NE_opp. Qed.
Lemma small_isf m e : (-1074 <= e)%Z -> (Z.abs m <= 2 ^ 53)%Z -> isf (IZR m * bpow radix2 e).
Proof.
  intros He Hm. destruct (Z.eq_dec (Z.abs m) (2 ^ 53)) as [E|N].
  - assert (m = 2 ^ 53 \/ m = - 2 ^ 53)%Z as [-> | ->] by lia; [|rewrite opp_IZR, Ropp_mult_distr_l_reverse; apply isf_opp]; change (IZR (2 ^ 53)) with (bpow radix2 53); rewrite <- bpow_plus; apply generic_format_bpow; unfold b64, FLT_exp; lia.
  - apply generic_format_FLT. exists (Float radix2 m e); [reflexivity|cbn; lia|cbn; lia].
Qed.
Theorem fq_volatility_nan_refuted : forall vdot npsum, dots vdot -> sums npsum ->
  let w := [rnd (145 / 100); - rnd (29 / 100)] in let cov := [[1; 5]; [5; 25]] in
  float_inputs 2 w cov /\ psd_columns 2 cov /\ f_volatility vdot npsum w cov = None.
Proof.
  intros vdot npsum Hd Hs w cov. assert (I : forall z, (Z.abs z <= 25)%Z -> isf (IZR z)) by (intros z Hz; apply isf_int; simpl; lia).
  assert (F1 : isf 1) by (apply (I 1%Z); lia). assert (F3 : isf 5) by (apply (I 5%Z); lia). assert (F9 : isf 25) by (apply (I 25%Z); lia).
  fold hedge_long in w. fold hedge_short in w. assert (Fl : isf hedge_long) by apply rnd_isf. assert (Fs : isf hedge_short) by (apply isf_opp, rnd_isf).
  split; [|split].
  - split; [reflexivity|]. split; [reflexivity|]. split; [intros x [<-|[<-|[]]]; assumption|]. intros col [<-|[<-|[]]]; (split; [reflexivity|intros x [<-|[<-|[]]]; assumption]).
  - intros [|a [|b [|]]] L; try discriminate L. unfold exact_variance, rdot, cov. cbn [map2]. rewrite !rsum_cons. change (rsum []) with 0. pose proof (Rle_0_sqr (a + 5 * b)) as K. unfold Rsqr in K. lra.
  - pose proof hedge_long_val as EL. pose proof hedge_short_val as ES.
    assert (B55 : bpow radix2 (-55) = / 36028797018963968) by reflexivity. assert (B54 : bpow radix2 (-54) = / 18014398509481984) by reflexivity.
    assert (P54 : isf (bpow radix2 (-54))) by (apply generic_format_bpow; unfold b64, FLT_exp; lia). assert (P51 : isf (IZR 9 * bpow radix2 (-54))) by (apply small_isf; simpl; lia).
    assert (M1 : fmul hedge_long 1 = hedge_long) by (unfold fmul; rewrite Rmult_1_r; apply rnd_id; exact Fl).
    assert (M2 : fmul hedge_short 5 = - hedge_long). { unfold fmul. replace (hedge_short * 5) with (- (26120877838748875 / 18014398509481984)) by (rewrite ES; field). rewrite rnd_opp, (rnd_val _ 6530219459687219 (-52)); [rewrite EL; simpl; lra|lia|simpl; lra|]. simpl (bpow _ _). apply Rabs_def1; lra. }
    assert (M3 : fmul hedge_long 5 = 8162774324609024 / 1125899906842624). { unfold fmul. rewrite EL, (rnd_val _ 8162774324609024 (-50)); [simpl; lra|lia|simpl; lra|]. simpl (bpow _ _). apply Rabs_def1; lra. }
    assert (M4 : fmul hedge_short 25 = - (8162774324609023 / 1125899906842624)). { unfold fmul. replace (hedge_short * 25) with (- (130604389193744375 / 18014398509481984)) by (rewrite ES; field). rewrite rnd_opp, (rnd_val _ 8162774324609023 (-50)); [simpl; lra|lia|simpl; lra|]. simpl (bpow _ _). apply Rabs_def1; lra. }
    assert (Y1 : vdot w [1; 5] <= bpow radix2 (-54)).
    { rewrite <- (rnd_id _ P54). destruct (dot_two vdot hedge_long hedge_short 1 5 Hd Fl Fs F1 F3) as [E|[E|E]]; unfold w; rewrite E; unfold fadd; apply rnd_le; rewrite ?M1, ?M2, ?EL, ?ES, B54; lra. }
    assert (Y2 : IZR 9 * bpow radix2 (-54) <= vdot w [5; 25]).
    { rewrite <- (rnd_id _ P51). destruct (dot_two vdot hedge_long hedge_short 5 25 Hd Fl Fs F3 F9) as [E|[E|E]]; unfold w; rewrite E; unfold fadd; apply rnd_le; rewrite ?M3, ?M4, ?EL, ?ES, B54; lra. }
    unfold f_volatility, f_variance, cov. cbn [map]. set (y1 := vdot w [1; 5]) in *. set (y2 := vdot w [5; 25]) in *. unfold w. cbn [map2]. rewrite (sum_two npsum (fmul y1 hedge_long) (fmul y2 hedge_short) Hs (rnd_isf _) (rnd_isf _)).
    assert (Z1 : fmul y1 hedge_long <= IZR 3 * bpow radix2 (-55)). { unfold fmul. rewrite <- (rnd_id (IZR 3 * bpow radix2 (-55))) by (apply small_isf; simpl; lia). apply rnd_le. rewrite B54 in *. rewrite B55, EL. lra. }
    assert (Z2 : fmul y2 hedge_short <= IZR (-5) * bpow radix2 (-55)). { unfold fmul. rewrite <- (rnd_id (IZR (-5) * bpow radix2 (-55))) by (apply small_isf; simpl; lia). apply rnd_le. rewrite B54 in *. rewrite B55, ES. lra. }
    assert (Z : fadd (fmul y1 hedge_long) (fmul y2 hedge_short) <= - bpow radix2 (-54)). { rewrite <- (rnd_id (- bpow radix2 (-54))) by (apply isf_opp; exact P54). apply rnd_le. rewrite B54. rewrite B55 in *. lra. }
    pose proof (bpow_gt_0 radix2 (-54)). destruct (Rltb_spec (fadd (fmul y1 hedge_long) (fmul y2 hedge_short)) 0) as [|N]; [reflexivity|lra].
Qed.

Print Assumptions fq_variance_accurate.
Print Assumptions fq_volatility_accurate.
Print Assumptions fq_volatility_long_only.
Print Assumptions fq_volatility_nan_refuted.

(** The hypotheses are met: left-to-right evaluation, two assets with unit variance. *)
Example fq_example : dots (f_dot (lsum_f 0)) /\ sums (lsum_f 0) /\ float_inputs 2 [1; 1] [[1; 0]; [0; 1]] /\ variance_error 2 [1; 1] [[1; 0]; [0; 1]] < exact_variance [1; 1] [[1; 0]; [0; 1]].
Proof.
  split; [apply left_to_right_dots|]. split; [apply left_to_right_sums|]. assert (I1 := isf_1). assert (I0 := isf_0). split.
  - split; [reflexivity|]. split; [reflexivity|]. split; [intros x [<-|[<-|[]]]; assumption|]. intros col [<-|[<-|[]]]; (split; [reflexivity|intros x [<-|[<-|[]]]; assumption]).
  - unfold variance_error, gross_variance, exact_variance, gross_exposure, rdot. cbn [map2 map]. rewrite !rsum_cons. change (rsum []) with 0. rewrite !Rmult_0_r, !Rmult_1_l, !Rabs_R0, !Rabs_R1.
    pose proof (gam_lin 4) as G. replace (INR 4) with 4 in G by (rewrite INR_IZR_INZ; reflexivity). pose proof ur_small. pose proof ur_pos. specialize (G ltac:(lra)). change (2 * 2)%nat with 4%nat. pose proof (gam_ge0 4). pose proof eta_ur. pose proof eta_pos. simpl INR.
    assert (ur * ur <= 1 / 1000 * (1 / 1000)) by (apply Rmult_le_compat; lra). assert (gam 4 <= 1 / 1000) by lra. nra.
Qed.
