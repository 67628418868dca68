(** Farkas' lemma; existence, uniqueness and positivity of the closest distribution; multipliers exist. *)
From Coq Require Import Classical.
From Verif Require Import RBase QpBase OptModel MomSpec BlModel EpModel EpSpec EpProofs EpProofs2 ExistLib.
Open Scope R_scope.
Open Scope list_scope.

(** ** Farkas' lemma, with free (equality) rows *)
Lemma dot_add_r n u v w k : dot n u (fun i => v i - k * w i) = dot n u v - k * dot n u w.
Proof. unfold dot. rewrite <- sumn_scale, <- sumn_minus. apply sumn_ext. intros; ring. Qed.
Lemma dot_add_l n u v w k : dot n (fun i => u i - k * w i) v = dot n u v - k * dot n w v.
Proof. unfold dot. rewrite <- sumn_scale, <- sumn_minus. apply sumn_ext. intros; ring. Qed.
Definition row_ok (n : nat) (free : nat -> bool) (a : nat -> vec) (z : vec) (i : nat) : Prop :=
  if free i then dot n (a i) z = 0 else dot n (a i) z <= 0.
Lemma farkas n free m : forall (a : nat -> vec) (c : vec),
  (forall z, (forall i, (i < m)%nat -> row_ok n free a z i) -> dot n c z <= 0) ->
  exists mu : vec, (forall i, (i < m)%nat -> free i = false -> 0 <= mu i) /\
    forall j, (j < n)%nat -> c j = sumn m (fun i => mu i * a i j).
Proof.
  induction m as [|m IH]; intros a c H.
  - exists (fun _ => 0). split; [intros; lia|]. simpl.
    assert (Z : dot n c c = 0).
    { pose proof (H c ltac:(intros; lia)). assert (0 <= dot n c c) by (apply sumn_nonneg; intros; nra). lra. }
    intros j Hj. unfold dot in Z. pose proof (sumn_nonneg_zero n (fun i => c i * c i) ltac:(intros; nra) Z j Hj) as E. simpl in E. nra.
  - destruct (classic (forall z, (forall i, (i < m)%nat -> row_ok n free a z i) -> dot n c z <= 0)) as [Y|N].
    + destruct (IH a c Y) as [mu [M1 M2]]. exists (fun i => if (i =? m)%nat then 0 else mu i). split.
      * intros i Hi F. destruct (Nat.eqb_spec i m); [lra|]. apply M1; [lia|auto].
      * intros j Hj. simpl. rewrite Nat.eqb_refl, (M2 j Hj).
        rewrite (sumn_ext m (fun i => (if (i =? m)%nat then 0 else mu i) * a i j) (fun i => mu i * a i j)); [ring|].
        intros i Hi. destruct (Nat.eqb_spec i m); [lia|reflexivity].
    + apply not_all_ex_not in N. destruct N as [zb N]. apply imply_to_and in N. destruct N as [Zb Cb].
      set (s := dot n (a m) zb).
      assert (Hs : s <> 0 /\ (free m = false -> 0 < s)).
      { assert (X : ~ row_ok n free a zb m).
        { intros X. apply Cb, H. intros i Hi. destruct (Nat.eq_dec i m) as [-> |]; [auto|apply Zb; lia]. }
        unfold row_ok in X. fold s in X. destruct (free m); split; try discriminate; intros; lra. }
      destruct Hs as [Hs Hp].
      set (a' := fun i => (fun j => a i j - (dot n (a i) zb / s) * a m j) : vec).
      set (c' := (fun j => c j - (dot n c zb / s) * a m j) : vec).
      destruct (IH a' c') as [mu [M1 M2]].
      { intros z Hz. set (y := (fun j => z j - (dot n (a m) z / s) * zb j) : vec).
        assert (Y : forall u, dot n u y = dot n u z - dot n (a m) z / s * dot n u zb) by (intros; apply dot_add_r).
        assert (E : dot n c' z = dot n c y). { unfold c'. rewrite dot_add_l, Y. field. auto. }
        rewrite E. apply H. intros i Hi. destruct (Nat.eq_dec i m) as [-> |Ne].
        - unfold row_ok. rewrite Y. fold s. replace (dot n (a m) z - dot n (a m) z / s * s) with 0 by (field; auto). destruct (free m); lra.
        - assert (R : row_ok n free a' z i) by (apply Hz; lia). unfold row_ok in *.
          assert (E' : dot n (a' i) z = dot n (a i) y). { unfold a'. rewrite dot_add_l, Y. field. auto. }
          rewrite E' in R. exact R. }
      exists (fun i => if (i =? m)%nat then (dot n c zb - sumn m (fun i => mu i * dot n (a i) zb)) / s else mu i). split.
      * intros i Hi F. destruct (Nat.eqb_spec i m) as [-> |Ne]; [|apply M1; [lia|auto]].
        apply Rmult_le_pos; [|apply Rlt_le, Rinv_0_lt_compat; auto].
        assert (sumn m (fun i => mu i * dot n (a i) zb) <= 0).
        { apply Rle_trans with (sumn m (fun _ => 0)); [|rewrite sumn_zero; lra]. apply sumn_le. intros i Hi'. specialize (Zb i Hi'). unfold row_ok in Zb.
          destruct (free i) eqn:Fi; [rewrite Zb; lra|]. pose proof (M1 i Hi' Fi). nra. }
        lra.
      * intros j Hj. simpl. rewrite Nat.eqb_refl. specialize (M2 j Hj).
        rewrite (sumn_ext m (fun i => (if (i =? m)%nat then _ else mu i) * a i j) (fun i => mu i * a i j)).
        2: { intros i Hi. destruct (Nat.eqb_spec i m); [lia|reflexivity]. }
        unfold c', a' in M2.
        rewrite (sumn_ext m (fun i => mu i * (a i j - dot n (a i) zb / s * a m j)) (fun i => mu i * a i j - mu i * dot n (a i) zb * (a m j / s))) in M2 by (intros; field; auto).
        rewrite sumn_minus, sumn_scale_r in M2.
        apply Rplus_eq_reg_r with (- (dot n c zb / s * a m j)).
        replace (c j + - (dot n c zb / s * a m j)) with (c j - dot n c zb / s * a m j) by ring. rewrite M2. field. auto.
Qed.

(** ** Continuity of the divergence *)
Lemma xlnx_small w : 0 < w <= 1 -> Rabs (w * ln w) <= 2 * sqrt w.
Proof.
  intros [H0 H1]. assert (S0 : 0 < sqrt w) by (apply sqrt_lt_R0; auto).
  assert (L : ln w <= 0). { rewrite <- ln_1. destruct (Req_dec w 1) as [-> |]; [lra|]. apply Rlt_le, ln_increasing; lra. }
  assert (E : ln (/ sqrt w) = - ln w / 2).
  { rewrite ln_Rinv by auto. assert (ln w = ln (sqrt w) + ln (sqrt w)) by (rewrite <- ln_mult by auto; f_equal; rewrite sqrt_sqrt; lra). lra. }
  pose proof (ln_le_sub1 (/ sqrt w) (Rinv_0_lt_compat _ S0)) as B. rewrite E in B.
  assert (Q : sqrt w * sqrt w = w) by (apply sqrt_sqrt; lra).
  assert (P : w * / sqrt w = sqrt w) by (rewrite <- Q at 1; field; lra).
  rewrite Rabs_left1 by nra. nra.
Qed.
Definition klterm (p a : R) : R := a * ln (a / p).
Lemma ln_nonpos a : a <= 0 -> ln a = 0.
Proof. intros H. unfold ln. destruct (Rlt_dec 0 a) as [L|L]; [exfalso; lra|reflexivity]. Qed.
Lemma klterm_neg p a : 0 < p -> a <= 0 -> klterm p a = 0.
Proof.
  intros Hp Ha. unfold klterm. rewrite ln_nonpos; [ring|]. apply Rmult_le_reg_r with p; auto. unfold Rdiv. rewrite Rmult_assoc, Rinv_l by lra. lra.
Qed.
Lemma klterm_small p a : 0 < p -> Rabs a <= p -> Rabs (klterm p a) <= p * (2 * sqrt (Rabs a / p)).
Proof.
  intros Hp Ha. destruct (Rle_lt_dec a 0) as [N|P].
  - rewrite klterm_neg by auto. rewrite Rabs_R0. apply Rmult_le_pos; [lra|]. pose proof (sqrt_pos (Rabs a / p)). lra.
  - rewrite (Rabs_right a) in * by lra. unfold klterm. assert (0 < a / p) by (apply Rdiv_lt_0_compat; auto).
    replace (a * ln (a / p)) with (p * (a / p * ln (a / p))) by (field; lra).
    rewrite Rabs_mult, (Rabs_right p) by lra. apply Rmult_le_compat_l; [lra|]. apply xlnx_small. split; auto.
    apply Rmult_le_reg_r with p; auto. unfold Rdiv. rewrite Rmult_assoc, Rinv_l by lra. lra.
Qed.
Lemma klterm_cont p x : 0 < p -> continuity_pt (klterm p) x.
Proof.
  intros Hp. destruct (Rtotal_order x 0) as [N|[-> |P]].
  - apply (continuity_pt_locally_ext (fun _ => 0) _ (- x)); [lra| |apply continuity_pt_const; intros ? ?; reflexivity].
    intros y Hy. unfold R_dist in Hy. apply Rabs_def2 in Hy. rewrite klterm_neg; auto; lra.
  - intros eps He. exists (Rmin p (p * (eps / (4 * p)) ^ 2)).
    assert (0 < eps / (4 * p)) by (apply Rdiv_lt_0_compat; lra).
    split. { apply Rmin_pos; auto. apply Rmult_lt_0_compat; auto. apply pow_lt; auto. }
    intros y [_ Hy]. simpl in *. unfold R_dist in *. rewrite Rminus_0_r in Hy. rewrite (klterm_neg p 0 Hp) by lra. rewrite Rminus_0_r.
    assert (B1 : Rabs y < p) by (apply Rlt_le_trans with (1 := Hy), Rmin_l).
    assert (B2 : Rabs y < p * (eps / (4 * p)) ^ 2) by (apply Rlt_le_trans with (1 := Hy), Rmin_r).
    apply Rle_lt_trans with (1 := klterm_small p y Hp ltac:(lra)).
    assert (SQ : sqrt (Rabs y / p) <= eps / (4 * p)).
    { rewrite <- (sqrt_pow2 (eps / (4 * p))) by lra. apply sqrt_le_1_alt. apply Rmult_le_reg_r with p; auto. unfold Rdiv at 1. rewrite Rmult_assoc, Rinv_l by lra. lra. }
    apply Rle_lt_trans with (p * (2 * (eps / (4 * p)))); [apply Rmult_le_compat_l; lra|].
    replace (p * (2 * (eps / (4 * p)))) with (eps / 2) by (field; lra). lra.
  - unfold klterm. apply (continuity_pt_mult id (fun a => ln (a / p))); [apply derivable_continuous_pt, derivable_pt_id|].
    apply (continuity_pt_comp (fun a => a / p) ln).
    + apply (continuity_pt_mult id (fun _ => / p)); [apply derivable_continuous_pt, derivable_pt_id|apply continuity_pt_const; intros ? ?; reflexivity].
    + apply derivable_continuous_pt. exists (/ (x / p)). apply derivable_pt_lim_ln. apply Rdiv_lt_0_compat; auto.
Qed.
Lemma kl_continuous T p : (forall s, (s < T)%nat -> 0 < p s) -> continuous T (fun q => kl T q p).
Proof.
  intros Hp u x C. unfold kl. apply (cv_sumn T (fun k s => u k s * ln (u k s / p s)) (fun s => x s * ln (x s / p s))).
  intros s Hs. apply (continuity_seq (klterm (p s)) (fun k => u k s) (x s)); [apply klterm_cont; auto|apply C; auto].
Qed.

(** ** Convexity *)
Lemma kl_mid_term p a b : 0 < p -> 0 <= a -> 0 <= b ->
  klterm p ((a + b) / 2) <= (klterm p a + klterm p b) / 2 /\ ((klterm p a + klterm p b) / 2 <= klterm p ((a + b) / 2) -> a = b).
Proof.
  intros Hp Ha Hb. destruct (Req_dec (a + b) 0) as [Z|NZ].
  { assert (a = 0) by lra. assert (b = 0) by lra. subst. replace ((0 + 0) / 2) with 0 by field. split; [lra|auto]. }
  set (m := (a + b) / 2). assert (Hm : 0 < m) by (unfold m; lra).
  assert (X : forall c, 0 <= c -> klterm p c = c * ln (c / m) + c * ln (m / p)).
  { intros c Hc. unfold klterm. destruct (Req_dec c 0) as [-> |]; [ring|]. rewrite <- Rmult_plus_distr_l. f_equal.
    rewrite <- ln_mult; [f_equal; field; lra|apply Rdiv_lt_0_compat; lra|apply Rdiv_lt_0_compat; lra]. }
  rewrite (X a Ha), (X b Hb). assert (Y : klterm p m = m * ln (m / p)) by reflexivity. rewrite Y.
  assert (Z : m * ln (m / p) = (a * ln (m / p) + b * ln (m / p)) / 2) by (unfold m; field).
  destruct (kl_term a m Ha Hm) as [A1 A2]. destruct (kl_term b m Hb Hm) as [B1 B2]. rewrite Z.
  assert (m + m = a + b) by (unfold m; field).
  split; [lra|]. intros H'. assert (a = m) by (apply A2; lra). assert (b = m) by (apply B2; lra). lra.
Qed.

(** ** Existence *)
Lemma obeys_mid T A G q q' : obeys T A G q -> obeys T A G q' -> obeys T A G (fun s => (q s + q' s) / 2).
Proof.
  intros [[P1 P2] [E1 L1]] [[P3 P4] [E2 L2]].
  assert (X : forall r, expectation T (fun s => (q s + q' s) / 2) r = (expectation T q r + expectation T q' r) / 2).
  { intros r. unfold expectation. rewrite <- sumn_plus, <- sumn_div. apply sumn_ext. intros; field. }
  split; [split|split].
  - intros t Ht. pose proof (P1 t Ht). pose proof (P3 t Ht). lra.
  - rewrite sumn_div, sumn_plus. lra.
  - intros r b I. rewrite X, (E1 r b I), (E2 r b I). field.
  - intros r h I. rewrite X. pose proof (L1 r h I). pose proof (L2 r h I). lra.
Qed.
Lemma minimal_closest T p A G q : (forall s, (s < T)%nat -> 0 < p s) -> obeys T A G q -> (forall q', obeys T A G q' -> kl T q p <= kl T q' p) ->
  closest T p A G q.
Proof.
  intros Hp O M. split; auto. intros q' O'. split; auto. intros H s Hs.
  pose proof (M _ (obeys_mid _ _ _ _ _ O O')) as Mm.
  assert (NN : forall s, (s < T)%nat -> 0 <= (klterm (p s) (q s) + klterm (p s) (q' s)) / 2 - klterm (p s) ((q s + q' s) / 2)).
  { intros s' Hs'. destruct (kl_mid_term (p s') (q s') (q' s') (Hp s' Hs')) as [B _]; [apply O; auto|apply O'; auto|lra]. }
  assert (Z : sumn T (fun s => (klterm (p s) (q s) + klterm (p s) (q' s)) / 2 - klterm (p s) ((q s + q' s) / 2)) = 0).
  { apply Rle_antisym; [|apply sumn_nonneg; auto]. rewrite sumn_minus, sumn_div, sumn_plus. unfold kl in *. unfold klterm in *. lra. }
  pose proof (sumn_nonneg_zero T _ NN Z s Hs) as E. simpl in E.
  destruct (kl_mid_term (p s) (q s) (q' s) (Hp s Hs)) as [_ B]; [apply O; auto|apply O'; auto|]. symmetry. apply B. lra.
Qed.
Lemma obeys_closed T A G : closed T (obeys T A G).
Proof.
  assert (X : forall u x r, conv T u x -> Un_cv (fun k => expectation T (u k) r) (expectation T x r)).
  { intros u x r C. apply (cv_sumn T (fun k t => u k t * r t) (fun t => x t * r t)). intros i Hi.
    apply (cv_ext (fun k => r i * u k i)); [intros; ring|]. replace (x i * r i) with (r i * x i) by ring. apply cv_scale, C; auto. }
  intros u x H C. split; [split|split].
  - intros t Ht. apply (cv_ge _ _ 0 (C t Ht)). intros k. apply (H k); auto.
  - apply (cv_eq_const (fun k => sumn T (u k))); [|intros k; apply (H k)]. apply (cv_sumn T (fun k i => u k i) x). auto.
  - intros r b I. apply (cv_eq_const _ _ _ (X u x r C)). intros k. apply (H k); auto.
  - intros r b I. apply (cv_le _ _ _ (X u x r C)). intros k. apply (H k); auto.
Qed.
Lemma closest_exists_l T p A G : (forall s, (s < T)%nat -> 0 < p s) -> (exists q, obeys T A G q) -> exists q, closest T p A G q.
Proof.
  intros Hp He. destruct (attains T 1 (obeys T A G) (fun q => kl T q p) (obeys_closed T A G) (kl_continuous T p Hp) He) as [q [O M]].
  - intros q Oq. exists q. split; auto. split; [lra|]. destruct Oq as [[P1 P2] _]. intros i Hi. rewrite Rabs_right; [|apply Rle_ge; auto]. rewrite <- P2.
    clear -P1 Hi. assert (forall n, (i < n)%nat -> (forall t, (t < n)%nat -> 0 <= q t) -> q i <= sumn n q).
    { induction n; intros L Q; [lia|]. simpl. destruct (Nat.eq_dec i n) as [-> |].
      - assert (0 <= sumn n q) by (apply sumn_nonneg; intros; apply Q; lia). lra.
      - pose proof (Q n ltac:(lia)). assert (q i <= sumn n q) by (apply IHn; [lia|intros; apply Q; lia]). lra. }
    apply H; auto.
  - exists q. apply minimal_closest; auto.
Qed.
