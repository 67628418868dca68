(** Properties of POET's factors, loadings and number of factors. *)
From Coq Require Import List Lia Lra ZArith Permutation Sorted.
Import ListNotations.
From Verif Require Import Err RBase QpBase SortLib MomModel MomSpec MomProofs MomProofs2 MomProofs3 GlModel GlSpec EigLib GlProofs PoModel PoSpec PoProofs PoProofs2.
From Verif Require FrProperties GlProofs3.
Open Scope R_scope.
Open Scope list_scope.

Section Inv.
  Variables (eig : eig_oracle) (eigh : eigh_oracle) (argsort : list R -> list nat).
  Hypothesis HE : correct_eig eig.
  Hypothesis HH : exact_eigh eigh.
  Hypothesis HA : sorts Rle 0 argsort.
  Variables (T N : nat) (X : mat) (kk : poet_k) (th : poet_tau) (st : bool) (Sg B F : mat) (k : nat).
  Hypothesis HT : (2 <= T)%nat.
  Hypothesis HR : poet_full eig eigh argsort T N X kk th st = Ok (Sg, B, F, k).
  Lemma poet_full_inv : (2 <= N)%nat /\ exists lam V tau k0, eigen_decomposition N (poet_S T X st) lam V /\
    (forall a b, (a <= b)%nat -> (b < N)%nat -> lam b <= lam a) /\
    poet_select kk (map lam (seq 0 N)) = Ok k0 /\ k = Nat.max 1 (Nat.min k0 N) /\ 0 <= tau /\ (forall t, th = TauNum t -> tau = t) /\
    (forall i f, B i f = poet_scale T X st i * (V i f * sqrt (Rmax (lam f) 0))) /\
    (forall t f, F t f = sumn N (fun i => poet_std T X st t i * V i f)) /\
    ensure_psd eig N (poet_sigma T k X (fun i f => V i f * sqrt (Rmax (lam f) 0)) tau st) jit = Ok Sg.
  Proof.
    assert (HN : (2 <= N)%nat). { destruct (le_lt_dec 2 N); [assumption|]. exfalso. pose proof HR as H. unfold poet_full in H. destruct (Nat.leb_spec N 1); [discriminate|lia]. }
    split; [exact HN|]. destruct (poet_full_ok eig eigh argsort T N X kk th st HE HH HA HT HN) as (lam & V & H1 & H2 & H3). cbv zeta in H3.
    destruct (poet_select kk (map lam (seq 0 N))) as [k0|e] eqn:Ek; [|rewrite HR in H3; discriminate].
    destruct (poet_threshold _ _ _ th) as [tau|e] eqn:Et; [|rewrite HR in H3; discriminate].
    destruct H3 as (S' & H3 & H4). rewrite HR in H4. injection H4 as -> -> -> ->.
    exists lam, V, tau, k0. split; [exact H1|]. split; [exact H2|]. split; [exact Ek|]. split; [reflexivity|]. split; [eapply threshold_nonneg; exact Et|].
    split. { intros t ->. cbn [poet_threshold] in Et. destruct (Rltb t 0); [discriminate|]. injection Et as <-. reflexivity. }
    repeat split; auto.
  Qed.
End Inv.

(** The factors are the leading principal components of the (standardised) returns; the scores are the
    projections on them, centred and uncorrelated; each loading times the score's deviation is the
    covariance between the asset and the score. *)
Theorem poet_factors_principal :
  forall eig eigh argsort T N X kk th st Sg B F k,
    correct_eig eig -> exact_eigh eigh -> sorts Rle 0 argsort -> (2 <= T)%nat ->
    poet_full eig eigh argsort T N X kk th st = Ok (Sg, B, F, k) ->
    exists V l, principal T N (poet_std T X st) k V l /\
      (forall f, (f < k)%nat -> 0 <= l f) /\
      (forall f, (f < k)%nat -> sumn T (fun t => F t f) = 0) /\
      (forall t f, (f < k)%nat -> F t f = dot N (poet_std T X st t) (fun i => V i f)) /\
      (forall i f, (i < N)%nat -> (f < k)%nat -> B i f = poet_scale T X st i * V i f * sqrt (l f)) /\
      (forall i f, (i < N)%nat -> (f < k)%nat -> B i f * sqrt (l f) = sumn T (fun t => center T X t i * F t f) / INR (T - 1)).
Proof.
  intros eig eigh argsort T N X kk th st Sg B F k HE HH HA HT HR.
  destruct (poet_full_inv eig eigh argsort HE HH HA T N X kk th st Sg B F k HT HR) as (HN & lam & V & tau & k0 & H1 & H2 & H3 & H4 & H5 & H6 & HB & HF & HS).
  assert (Hk : (k <= N)%nat) by lia. assert (Hl : forall f, (f < N)%nat -> 0 <= lam f) by (intros f Hf; exact (lam_nonneg T N X st V lam k HT H1 Hk f Hf)).
  exists V, lam. split; [apply poet_pca; auto|]. split; [intros; apply Hl; lia|].
  assert (HF' : forall t f, F t f = dot N (poet_std T X st t) (fun i => V i f)) by (intros; rewrite HF; reflexivity).
  assert (HB' : forall i f, (f < k)%nat -> B i f = poet_scale T X st i * V i f * sqrt (lam f)).
  { intros i f Hf. rewrite HB, Rmax_left by (apply Hl; lia). ring. }
  split.
  { intros f Hf. rewrite (sumn_ext T _ (fun t => sumn N (fun i => poet_std T X st t i * V i f))) by auto. rewrite sumn_swap. apply sumn_0. intros i Hi.
    rewrite sumn_scale_r. unfold poet_std. rewrite sumn_div, center_mean0 by lia. unfold Rdiv. ring. }
  split; [auto|]. split; [auto|]. intros i f Hi Hf. rewrite HB' by exact Hf.
  replace (poet_scale T X st i * V i f * sqrt (lam f) * sqrt (lam f)) with (poet_scale T X st i * (V i f * (sqrt (lam f) * sqrt (lam f)))) by ring.
  rewrite sqrt_sqrt by (apply Hl; lia). assert (Hs := poet_scale_pos T X st i).
  rewrite (sumn_ext T _ (fun t => poet_scale T X st i * (dot N (poet_std T X st t) (fun j => delta i j) * dot N (poet_std T X st t) (fun i => V i f)))).
  2: { intros t Ht. rewrite HF'. replace (dot N (poet_std T X st t) (fun j => delta i j)) with (poet_std T X st t i).
       - unfold poet_std at 2. field. lra.
       - symmetry. unfold dot. rewrite (sumn_ext N _ (fun j => delta j i * poet_std T X st t j)) by (intros; rewrite (delta_sym i); ring). apply sumn_delta. exact Hi. }
  rewrite sumn_scale. unfold Rdiv. rewrite Rmult_assoc. f_equal. fold (Rdiv (sumn T (fun t => dot N (poet_std T X st t) (fun j => delta i j) * dot N (poet_std T X st t) (fun i0 => V i0 f))) (INR (T - 1))).
  rewrite <- (poet_S_bilinear T N X st k HT Hk). unfold dot. rewrite (sumn_ext N _ (fun j => delta j i * mv N (poet_S T X st) (fun a => V a f) j)) by (intros; rewrite (delta_sym i); reflexivity).
  rewrite sumn_delta by exact Hi. rewrite (eigen_col T N X st V lam H1) by (auto; lia). ring.
Qed.
Print Assumptions poet_factors_principal.

(** Structure of the estimate: sample variances on the diagonal (plus the repair [c]), and off the diagonal
    the factor covariance plus the soft-thresholded remainder. *)
Theorem poet_low_rank_plus_sparse :
  forall eig eigh argsort T N X kk th st Sg B F k,
    correct_eig eig -> exact_eigh eigh -> sorts Rle 0 argsort -> (2 <= T)%nat ->
    poet_full eig eigh argsort T N X kk th st = Ok (Sg, B, F, k) ->
    let common : nat -> nat -> R := fun i j => sumn k (fun f => B i f * B j f) in
    let remainder : nat -> nat -> R := fun i j => np_cov T X 1 i j - common i j in
    let sc i j := poet_scale T X st i * poet_scale T X st j in
    psd N remainder /\
    exists c tau, 0 <= c /\ 0 <= tau /\ (forall t, th = TauNum t -> tau = t) /\
      (forall i, (i < N)%nat -> Sg i i = np_cov T X 1 i i + c) /\
      (forall i j, (i < N)%nat -> (j < N)%nat -> i <> j ->
         exists x, shrunk tau (remainder i j / sc i j) x /\ Sg i j = common i j + sc i j * x) /\
      ((forall i j, (i < N)%nat -> (j < N)%nat -> i <> j -> Rabs (remainder i j) <= tau * sc i j) -> c = 0) /\
      (k = N -> mat_eq N Sg (np_cov T X 1)).
Proof.
  intros eig eigh argsort T N X kk th st Sg B F k HE HH HA HT HR common remainder sc.
  destruct (poet_full_inv eig eigh argsort HE HH HA T N X kk th st Sg B F k HT HR) as (HN & lam & V & tau & k0 & H1 & H2 & H3 & H4 & H5 & H6 & HB & HF & HS).
  assert (Hk : (k <= N)%nat) by lia. set (b := fun i f => V i f * sqrt (Rmax (lam f) 0)) in *.
  assert (Hp := poet_scale_pos T X st).
  assert (Hsc : forall i j, 0 < sc i j) by (intros; unfold sc; apply Rmult_lt_0_compat; apply Hp).
  assert (HC : forall i j, common i j = sc i j * sumn k (fun f => b i f * b j f)).
  { intros i j. unfold common. rewrite <- sumn_scale. apply sumn_ext. intros f Hf. rewrite !HB. unfold sc, b. ring. }
  assert (HM : forall i j, remainder i j = sc i j * (poet_S T X st i j - sumn k (fun f => b i f * b j f))).
  { intros i j. unfold remainder. rewrite HC, poet_S_cov by exact HT. fold (sc i j). field. specialize (Hsc i j). lra. }
  assert (HMc : forall i j, (i < N)%nat -> (j < N)%nat -> remainder i j = sc i j * conj N V (rest lam k) i j).
  { intros i j Hi Hj. rewrite HM. f_equal. apply (residual_part T N X st V lam k); auto. }
  assert (PR : psd N remainder).
  { intros x. rewrite (quad_ext N remainder (fun i j => sc i j * conj N V (rest lam k) i j) x x) by auto.
    pose proof (rest_psd T N X st V lam k HT H1 Hk (fun i => poet_scale T X st i * x i)) as P. unfold quad in *.
    erewrite sumn_ext; [exact P|]. intros i Hi. cbv beta. apply sumn_ext. intros j Hj. unfold sc. ring. }
  split; [exact PR|].
  destruct (ensure_psd_ok eig N (poet_sigma T k X b tau st) jit HE ltac:(lia) jit_pos) as (P & c & EP & Hc & HP & HSy & Htol & Hid & _).
  rewrite HS in EP. injection EP as <-.
  assert (HSig : forall i j, symmetrise (poet_sigma T k X b tau st) i j = poet_sigma T k X b tau st i j).
  { intros i j. destruct (poet_sigma_entries T k X b tau st j i HT H5) as (_ & _ & E). unfold symmetrise. rewrite E. lra. }
  assert (Hdg : forall i, poet_sigma T k X b tau st i i = np_cov T X 1 i i) by (intros i; apply (poet_sigma_entries T k X b tau st i i HT H5)).
  assert (Hzero : (forall x, 0 <= quad N (poet_sigma T k X b tau st) x) -> c = 0).
  { intros H. apply Hid. intros x. rewrite quad_symmetrise. specialize (H x). pose proof (dot_self_nonneg N x). pose proof jit_pos. nra. }
  exists c, tau. split; [exact Hc|]. split; [exact H5|]. split; [exact H6|].
  split. { intros i Hi. rewrite HP, HSig, Hdg. unfold eye, delta. rewrite Nat.eqb_refl. ring. }
  assert (Hoff : forall i j, i <> j -> exists x, shrunk tau (remainder i j / sc i j) x /\ poet_sigma T k X b tau st i j = common i j + sc i j * x).
  { intros i j Hne. exists (soft_threshold (fun a c => poet_S T X st a c - sumn k (fun f => b a f * b c f)) tau i j). split.
    - replace (remainder i j / sc i j) with ((fun a c => poet_S T X st a c - sumn k (fun f => b a f * b c f)) i j) by (cbv beta; rewrite HM; field; specialize (Hsc i j); lra).
      exact (soft_shrunk (fun a c => poet_S T X st a c - sumn k (fun f => b a f * b c f)) tau i j H5 Hne).
    - rewrite poet_sigma_parts by exact HT. rewrite HC. unfold sc. ring. }
  split.
  { intros i j Hi Hj Hne. destruct (Hoff i j Hne) as (x & Hx & E). exists x. split; [exact Hx|]. rewrite HP, HSig, E. unfold eye, delta.
    destruct (Nat.eqb_spec i j); [congruence|]. ring. }
  split.
  - intros Hsm. apply Hzero. intros x.
    rewrite (quad_ext N _ (fun i j => common i j + remainder i j * delta i j) x x).
    3: auto.
    2: { intros i j Hi Hj. destruct (Nat.eq_dec i j) as [<-|Hne].
         - rewrite delta_refl, Hdg. unfold remainder. ring.
         - destruct (Hoff i j Hne) as (y & Hy & ->). destruct Hy as (Hy & _). rewrite Hy.
           + unfold delta. destruct (Nat.eqb_spec i j); [congruence|]. ring.
           + unfold Rdiv. rewrite Rabs_mult, Rabs_inv. rewrite (Rabs_pos_eq (sc i j)) by (left; apply Hsc).
             apply (Rmult_le_reg_r (sc i j)); [apply Hsc|]. specialize (Hsm i j Hi Hj Hne). rewrite Rmult_assoc, Rinv_l, Rmult_1_r; [exact Hsm|]. specialize (Hsc i j). lra. }
    unfold quad. rewrite (sumn_ext N _ (fun i => sumn N (fun j => common i j * x i * x j) + remainder i i * (x i * x i))).
    2: { intros i Hi. rewrite (sumn_ext N _ (fun j => common i j * x i * x j + delta j i * (remainder i j * x i * x j))) by (intros; rewrite (delta_sym i); ring).
         rewrite sumn_plus, sumn_delta by exact Hi. ring. }
    rewrite sumn_plus. apply Rplus_le_le_0_compat.
    + rewrite (sumn_ext N _ (fun i => sumn k (fun f => B i f * x i * dot N (fun j => B j f) x))).
      2: { intros i Hi. unfold common, dot. rewrite (sumn_ext N _ (fun j => sumn k (fun f => B i f * x i * (B j f * x j)))).
           - rewrite sumn_swap. apply sumn_ext. intros f Hf. apply sumn_scale.
           - intros j Hj. rewrite Rmult_assoc, <- sumn_scale_r. apply sumn_ext. intros; ring. }
      rewrite sumn_swap. apply sumn_nonneg. intros f Hf. rewrite sumn_scale_r. fold (dot N (fun i => B i f) x). nra.
    + apply sumn_nonneg. intros i Hi. apply Rmult_le_pos; [|nra].
      pose proof (PR (fun j => delta j i)) as Q. unfold quad in Q.
      rewrite (sumn_ext N _ (fun a => delta a i * remainder a i)) in Q.
      * rewrite sumn_delta in Q by exact Hi. exact Q.
      * intros a Ha. rewrite (sumn_ext N _ (fun j => delta j i * (delta a i * remainder a j))) by (intros; ring). rewrite sumn_delta by exact Hi. reflexivity.
  - intros EN i j Hi Hj. assert (Hr0 : forall i j, (i < N)%nat -> (j < N)%nat -> remainder i j = 0) by (intros a d Ha Hd; rewrite HMc by auto; rewrite (full_rank_rest T N V lam k HT Hk) by exact EN; ring).
    assert (Heq : forall i j, (i < N)%nat -> (j < N)%nat -> poet_sigma T k X b tau st i j = np_cov T X 1 i j).
    { intros a d Ha Hd. destruct (Nat.eq_dec a d) as [<-|Hne]; [apply Hdg|]. destruct (Hoff a d Hne) as (y & (Hy & _) & ->). rewrite Hy.
      - pose proof (Hr0 a d Ha Hd). unfold remainder in *. lra.
      - rewrite (Hr0 a d Ha Hd). unfold Rdiv. rewrite Rmult_0_l, Rabs_R0. exact H5. }
    rewrite HP, HSig, Heq by auto. rewrite Hzero; [ring|]. intros x. rewrite (quad_ext N _ (np_cov T X 1) x x) by auto. apply np_cov_psd. exact HT.
Qed.
Print Assumptions poet_low_rank_plus_sparse.

(** Number of factors and errors. *)
Theorem poet_factor_count :
  forall eig eigh argsort T N X kk th st,
    correct_eig eig -> exact_eigh eigh -> sorts Rle 0 argsort -> (2 <= T)%nat -> (2 <= N)%nat ->
    (poet_full eig eigh argsort T N X kk th st = Err ValueError <->
       (exists z, kk = KInt z /\ (z <= 0)%Z) \/ (exists t, th = TauNum t /\ t < 0)) /\
    (forall e, poet_full eig eigh argsort T N X kk th st = Err e -> e = ValueError) /\
    (forall Sg B F k, poet_full eig eigh argsort T N X kk th st = Ok (Sg, B, F, k) ->
       (forall z, kk = KInt z -> Z.of_nat k = Z.min z (Z.of_nat N)) /\
       (kk = KAuto -> (1 <= k)%nat /\ (k <= Nat.max 1 (N - 2))%nat)).
Proof.
  intros eig eigh argsort T N X kk th st HE HH HA HT HN.
  assert (HI : forall Sg B F k, poet_full eig eigh argsort T N X kk th st = Ok (Sg, B, F, k) ->
       (forall z, kk = KInt z -> Z.of_nat k = Z.min z (Z.of_nat N)) /\ (kk = KAuto -> (1 <= k)%nat /\ (k <= Nat.max 1 (N - 2))%nat)).
  { intros Sg B F k HR. destruct (poet_full_inv eig eigh argsort HE HH HA T N X kk th st Sg B F k HT HR) as (_ & lam & V & tau & k0 & _ & _ & H3 & H4 & _).
    split.
    - intros z ->. cbn [poet_select] in H3. destruct (Z.leb_spec z 0); [discriminate|]. injection H3 as <-. lia.
    - intros ->. destruct (le_lt_dec 3 N) as [H|H].
      + apply auto_spec in H3; [|exact H]. lia.
      + cbn [poet_select] in H3. rewrite map_length, seq_length in H3. destruct (Nat.leb_spec N 2); [|lia]. injection H3 as <-. lia. }
  destruct (poet_full_ok eig eigh argsort T N X kk th st HE HH HA HT HN) as (lam & V & _ & _ & H3). cbv zeta in H3.
  split; [|split; [|exact HI]].
  - split.
    + intros HR. destruct (poet_select kk (map lam (seq 0 N))) as [k0|e] eqn:Ek.
      * destruct (poet_threshold _ _ _ th) as [tau|e] eqn:Et.
        -- destruct H3 as (S' & _ & H4). rewrite HR in H4. discriminate.
        -- right. unfold poet_threshold in Et. destruct th as [|t]; [discriminate|]. destruct (Rltb_spec t 0); [|discriminate]. eauto.
      * left. unfold poet_select in Ek. destruct kk as [|z]; [destruct (_ <=? 2)%nat; discriminate|]. destruct (Z.leb_spec z 0); [|discriminate]. eauto.
    + intros [(z & -> & Hz)|(t & -> & Ht)].
      * cbn [poet_select] in H3. destruct (Z.leb_spec z 0); [exact H3|lia].
      * destruct (poet_select kk (map lam (seq 0 N))) as [k0|e] eqn:Ek.
        -- cbn [poet_threshold] in H3. destruct (Rltb_spec t 0); [exact H3|lra].
        -- unfold poet_select in Ek. destruct kk as [|z]; [destruct (_ <=? 2)%nat; discriminate|]. destruct (z <=? 0)%Z; [|discriminate]. injection Ek as <-. exact H3.
  - intros e HR. destruct (poet_select kk (map lam (seq 0 N))) as [k0|e'] eqn:Ek.
    + destruct (poet_threshold _ _ _ th) as [tau|e'] eqn:Et.
      * destruct H3 as (S' & _ & H4). rewrite HR in H4. discriminate.
      * rewrite HR in H3. injection H3 as ->. unfold poet_threshold in Et. destruct th as [|t]; [discriminate|]. destruct (Rltb t 0); [|discriminate]. congruence.
    + rewrite HR in H3. injection H3 as ->. unfold poet_select in Ek. destruct kk as [|z]; [destruct (_ <=? 2)%nat; discriminate|]. destruct (z <=? 0)%Z; [|discriminate]. congruence.
Qed.
Print Assumptions poet_factor_count.

(** Finding: on a sample that is exactly [K] equally strong factors plus noise of one variance, the
    automatic choice is never [K] (four or more assets). *)
Theorem poet_auto_finds_factors_refuted :
  forall eig eigh argsort T N X th st Sg B F k K W a b,
    correct_eig eig -> exact_eigh eigh -> sorts Rle 0 argsort -> (2 <= T)%nat -> (4 <= N)%nat ->
    (1 <= K)%nat -> (K < N)%nat -> b < a ->
    (forall f g, (f < K)%nat -> (g < K)%nat -> sumn N (fun i => W i f * W i g) = delta f g) ->
    (forall i j, (i < N)%nat -> (j < N)%nat ->
       np_cov T (poet_std T X st) 1 i j = b * delta i j + (a - b) * sumn K (fun f => W i f * W j f)) ->
    poet_full eig eigh argsort T N X KAuto th st = Ok (Sg, B, F, k) ->
    k = (if Nat.eqb K 1 then 2 else K - 1)%nat.
Proof.
  intros eig eigh argsort T N X th st Sg B F k K W a b HE HH HA HT HN HK1 HK Hab HW HC HR.
  destruct (poet_full_inv eig eigh argsort HE HH HA T N X KAuto th st Sg B F k HT HR) as (_ & lam & V & tau & k0 & H1 & H2 & H3 & H4 & _).
  assert (HL : forall r, (r < N)%nat -> lam r = if Nat.ltb r K then a else b) by (intros r Hr; apply (flat_order N K (poet_S T X st) W a b HC HW Hab lam V H1 H2 r Hr)).
  destruct (auto_spec N lam k0 ltac:(lia) H3) as (Hk0 & Hmax & Hfirst). cbv zeta in *.
  assert (Hg : forall r, (S r < N)%nat -> lam r - lam (S r) = if Nat.eqb (S r) K then a - b else 0).
  { intros r Hr. rewrite !HL by lia. destruct (Nat.ltb_spec r K), (Nat.ltb_spec (S r) K), (Nat.eqb_spec (S r) K); try lia; lra. }
  assert (Ek : k = k0) by lia. rewrite Ek. clear Ek H4 HR.
  assert (G1 := Hg k0 ltac:(lia)). assert (G2 := Hg (k0 - 1)%nat ltac:(lia)). replace (S (k0 - 1)) with k0 in * by lia.
  destruct (Nat.eqb_spec K 1) as [->|HK2].
  - pose proof (Hmax 1%nat ltac:(lia)) as M. rewrite (Hg 2%nat), (Hg 1%nat) in M by lia. cbn [Nat.eqb] in M. rewrite G1, G2 in M.
    destruct (Nat.eqb_spec k0 1); [destruct (Nat.eqb_spec (S k0) 1); [lia|lra]|].
    destruct (Nat.eq_dec k0 2) as [->|N2]; [reflexivity|]. exfalso.
    pose proof (Hfirst 1%nat ltac:(lia)) as M1. rewrite (Hg 2%nat), (Hg 1%nat) in M1 by lia. cbn [Nat.eqb] in M1. rewrite G1, G2 in M1.
    destruct (Nat.eqb_spec (S k0) 1); [lia|]. destruct (Nat.eqb_spec k0 1); [lia|]. lra.
  - pose proof (Hmax (K - 2)%nat ltac:(lia)) as M. rewrite (Hg (S (K - 2))), (Hg (K - 2)%nat) in M by lia. rewrite G1, G2 in M.
    replace (S (S (K - 2))) with K in M by lia. rewrite Nat.eqb_refl in M. destruct (Nat.eqb_spec (S (K - 2)) K); [lia|].
    destruct (Nat.eqb_spec (S k0) K); [lia|]. destruct (Nat.eqb_spec k0 K); lra.
Qed.
Print Assumptions poet_auto_finds_factors_refuted.

(** A sample with one factor: ten observations of four assets. *)
Definition one_factor_data : mat := fun t i =>
  if Nat.eqb t 0 then 1 else if Nat.eqb t 1 then -1
  else if Nat.eqb (t / 2 - 1) i then (if Nat.even t then 1 else -1) else 0.
Lemma one_factor_data_cov i j : (i < 4)%nat -> (j < 4)%nat ->
  np_cov 10 (poet_std 10 one_factor_data false) 1 i j = 2/9 * delta i j + (10/9 - 2/9) * sumn 1 (fun f => 1/2 * (1/2)).
Proof.
  intros Hi Hj. assert (Hm : forall i, (i < 4)%nat -> sumn 10 (fun t => one_factor_data t i) = 0).
  { intros q Hq. do 4 (destruct q as [|q]; [unfold one_factor_data; simpl; lra|]). lia. }
  assert (Hc : forall t i, (i < 4)%nat -> center 10 (poet_std 10 one_factor_data false) t i = one_factor_data t i).
  { intros t q Hq. assert (Hs : forall t, poet_std 10 one_factor_data false t q = one_factor_data t q).
    { intros t'. unfold poet_std, poet_scale, center. rewrite Hm by exact Hq. lra. }
    unfold center. rewrite Hs. rewrite (sumn_ext 10 _ (fun t => one_factor_data t q)) by auto. rewrite Hm by exact Hq. lra. }
  unfold np_cov. rewrite (sumn_ext 10 _ (fun t => one_factor_data t i * one_factor_data t j)) by (intros; rewrite !Hc by auto; reflexivity).
  replace (INR (10 - 1)) with 9 by (simpl; lra).
  do 4 (destruct i as [|i]; [do 4 (destruct j as [|j]; [unfold one_factor_data, delta; simpl; lra|]); lia|]). lia.
Qed.
Definition po_argsort : list R -> list nat := SortLib.argsort_by Rleb 0.
Example poet_two_factors_for_one : exists Sg B F,
  poet_full rayleigh GlProofs3.best_eigh po_argsort 10 4 one_factor_data KAuto TauAuto false = Ok (Sg, B, F, 2%nat).
Proof.
  destruct (poet_factor_count rayleigh GlProofs3.best_eigh po_argsort 10 4 one_factor_data KAuto TauAuto false
    rayleigh_correct GlProofs3.best_eigh_exact FrProperties.rsort_sorts ltac:(lia) ltac:(lia)) as ((HV & _) & HEr & _).
  destruct (poet_full rayleigh GlProofs3.best_eigh po_argsort 10 4 one_factor_data KAuto TauAuto false) as [[[[Sg B] F] k]|e] eqn:E.
  - exists Sg, B, F. pose proof (poet_auto_finds_factors_refuted rayleigh GlProofs3.best_eigh po_argsort 10 4 one_factor_data TauAuto false Sg B F k 1 (fun _ _ => 1/2) (10/9) (2/9)
      rayleigh_correct GlProofs3.best_eigh_exact FrProperties.rsort_sorts ltac:(lia) ltac:(lia) ltac:(lia) ltac:(lia) ltac:(lra)) as Q.
    cbn [Nat.eqb] in Q. rewrite Q; [reflexivity| |exact one_factor_data_cov|exact E].
    intros f g Hf Hg. replace f with 0%nat by lia. replace g with 0%nat by lia. unfold delta. simpl. lra.
  - pose proof (HEr e eq_refl) as ->. destruct (HV eq_refl) as [(z & Hz & _)|(t & Ht & _)]; discriminate.
Qed.
