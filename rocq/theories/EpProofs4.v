(** The closest distribution is positive when some positive one obeys the views; its multipliers are stationary. *)
From Verif Require Import RBase QpBase OptModel MomSpec BlModel EpModel EpSpec EpProofs EpProofs2 EpProofs3.
Open Scope R_scope.
Open Scope list_scope.

Lemma obeys_mix T A G q q' t : 0 <= t <= 1 -> obeys T A G q -> obeys T A G q' -> obeys T A G (fun s => q s + t * (q' s - q s)).
Proof.
  intros Ht [[P1 P2] [E1 L1]] [[P3 P4] [E2 L2]].
  assert (X : forall r, expectation T (fun s => q s + t * (q' s - q s)) r = (1 - t) * expectation T q r + t * expectation T q' r).
  { intros r. unfold expectation. rewrite <- !sumn_scale, <- sumn_plus. apply sumn_ext. intros; ring. }
  split; [split|split].
  - intros s Hs. pose proof (P1 s Hs). pose proof (P3 s Hs). nra.
  - rewrite sumn_plus, sumn_scale, sumn_minus. rewrite P2, P4. ring.
  - intros r b I. rewrite X, (E1 r b I), (E2 r b I). ring.
  - intros r h I. rewrite X. pose proof (L1 r h I). pose proof (L2 r h I). nra.
Qed.
Lemma klterm_mix p a b t : 0 < p -> 0 <= a -> 0 <= b -> 0 < t <= 1 ->
  klterm p (a + t * (b - a)) <= (1 - t) * klterm p a + t * klterm p b.
Proof.
  intros Hp Ha Hb Ht. set (m := a + t * (b - a)). assert (M0 : 0 <= m) by (unfold m; nra).
  destruct (Req_dec m 0) as [Z|NZ].
  { assert (t * b = 0 /\ (1 - t) * a = 0) as [Z1 Z2] by (unfold m in Z; split; nra).
    assert (b = 0) by nra. rewrite Z, H. rewrite !(klterm_neg p 0) by lra.
    destruct (Req_dec a 0) as [-> |Na]; [rewrite klterm_neg by lra; lra|]. assert (1 - t = 0) by nra. rewrite H0. lra. }
  assert (Hm : 0 < m) by lra.
  assert (X : forall c, 0 <= c -> klterm p c = c * ln (c / m) + c * ln (m / p)).
  { intros c Hc. unfold klterm. destruct (Req_dec c 0) as [-> |]; [ring|]. rewrite <- Rmult_plus_distr_l. f_equal.
    rewrite <- ln_mult; [f_equal; field; lra|apply Rdiv_lt_0_compat; lra|apply Rdiv_lt_0_compat; lra]. }
  rewrite (X a Ha), (X b Hb). change (klterm p m) with (m * ln (m / p)).
  destruct (kl_term a m Ha Hm) as [A1 _]. destruct (kl_term b m Hb Hm) as [B1 _].
  assert (Z : m * ln (m / p) = (1 - t) * (a * ln (m / p)) + t * (b * ln (m / p))) by (unfold m; ring).
  assert (W : (1 - t) * (a - m) + t * (b - m) = 0) by (unfold m; ring). rewrite Z. nra.
Qed.
Lemma closest_positive_l T p A G q q0 : (forall s, (s < T)%nat -> 0 < p s) -> closest T p A G q -> obeys T A G q0 -> (forall s, (s < T)%nat -> 0 < q0 s) ->
  forall s, (s < T)%nat -> 0 < q s.
Proof.
  intros Hp [O M] O0 H0 z Hz. destruct (Rle_lt_dec (q z) 0) as [N|]; [|assumption]. exfalso.
  assert (Qz : q z = 0) by (destruct O as [[P _] _]; pose proof (P z Hz); lra).
  set (D := kl T q0 p - kl T q p). set (m := q0 z). assert (Hm : 0 < m) by (apply H0; auto).
  assert (K : forall t, 0 < t <= 1 -> 0 <= D + m * ln t).
  { intros t Ht. destruct (M _ (obeys_mix _ _ _ _ _ t ltac:(lra) O O0)) as [Mt _].
    assert (B : forall s, (s < T)%nat -> klterm (p s) (q s + t * (q0 s - q s)) <= (1 - t) * klterm (p s) (q s) + t * klterm (p s) (q0 s) + delta z s * (t * (m * ln t))).
    { intros s Hs. unfold delta. destruct (Nat.eqb_spec z s) as [<- |Ne].
      - rewrite Qz, (klterm_neg (p z) 0) by (auto; lra). rewrite Rminus_0_r, Rplus_0_l. fold m. unfold klterm.
        pose proof (Hp z Hz). replace (t * m / p z) with (m / p z * t) by (field; lra). rewrite ln_mult; [|apply Rdiv_lt_0_compat; lra|lra]. lra.
      - rewrite Rmult_0_l, Rplus_0_r. apply klterm_mix; auto; [apply O; auto|apply Rlt_le, H0; auto]. }
    pose proof (sumn_le T _ _ B) as S. rewrite sumn_plus, sumn_plus, !sumn_scale in S.
    rewrite (sumn_delta_r T z (fun _ => t * (m * ln t))) in S by auto.
    unfold kl in Mt. unfold klterm in S. fold (kl T q p) in S. fold (kl T q0 p) in S. fold (kl T q p) in Mt.
    assert (0 <= t * (D + m * ln t)) by (unfold D; nra). nra. }
  set (c := (Rabs D + 1) / m). assert (Hc : 0 < c) by (apply Rdiv_lt_0_compat; auto; pose proof (Rabs_pos D); lra).
  specialize (K (exp (- c))). rewrite ln_exp in K.
  assert (0 < exp (- c) <= 1). { split; [apply exp_pos|]. rewrite <- exp_0. apply Rlt_le, exp_increasing. lra. }
  specialize (K H). assert (m * c = Rabs D + 1) by (unfold c; field; lra). pose proof (Rle_abs D). nra.
Qed.

(** Finitely many strict inequalities survive a small step. *)
Lemma small_step n (a b : vec) : (forall i, (i < n)%nat -> 0 < a i) -> exists t0, 0 < t0 /\ forall t, 0 <= t <= t0 -> forall i, (i < n)%nat -> 0 <= a i + t * b i.
Proof.
  induction n as [|n IH]; intros H.
  - exists 1. split; [lra|]. intros; lia.
  - destruct IH as [t0 [P0 B0]]; [intros; apply H; lia|]. pose proof (H n ltac:(lia)) as An.
    assert (P : 0 < a n / (1 + Rabs (b n))) by (apply Rdiv_lt_0_compat; [auto|pose proof (Rabs_pos (b n)); lra]).
    exists (Rmin t0 (a n / (1 + Rabs (b n)))). split; [apply Rmin_pos; auto|]. intros t [Ht Hl] i Hi.
    destruct (Nat.eq_dec i n) as [-> |]; [|apply B0; [split; [auto|eapply Rle_trans; [apply Hl|apply Rmin_l]]|lia]].
    assert (L : t <= a n / (1 + Rabs (b n))) by (eapply Rle_trans; [apply Hl|apply Rmin_r]).
    assert (t * (1 + Rabs (b n)) <= a n).
    { apply Rmult_le_reg_r with (/ (1 + Rabs (b n))); [apply Rinv_0_lt_compat; pose proof (Rabs_pos (b n)); lra|].
      rewrite Rmult_assoc, Rinv_r by (pose proof (Rabs_pos (b n)); lra). unfold Rdiv in L. lra. }
    pose proof (Rle_abs (- b n)). rewrite Rabs_Ropp in *. nra.
Qed.
(** Moving along [z] changes the divergence by at most [t D + t^2 C]. *)
Lemma kl_move T p q z t : (forall s, (s < T)%nat -> 0 < p s) -> (forall s, (s < T)%nat -> 0 < q s) -> (forall s, (s < T)%nat -> 0 <= q s + t * z s) ->
  kl T (fun s => q s + t * z s) p <= kl T q p + t * sumn T (fun s => z s * (ln (q s / p s) + 1)) + t * t * sumn T (fun s => z s * z s / q s).
Proof.
  intros Hp Hq Hz. unfold kl. rewrite <- !sumn_scale, <- !sumn_plus. apply sumn_le. intros s Hs.
  specialize (Hp s Hs). specialize (Hq s Hs). specialize (Hz s Hs). set (a := q s) in *. set (b := p s) in *. set (c := z s) in *. clearbody a b c.
  set (y := a + t * c) in *. assert (R : 0 <= y * (y / a - 1 - ln (y / a))).
  { destruct (Req_dec y 0) as [-> |]; [lra|]. apply Rmult_le_pos; auto. pose proof (ln_le_sub1 (y / a)) as L.
    assert (0 < y / a) by (apply Rdiv_lt_0_compat; lra). specialize (L H0). lra. }
  assert (E : y * ln (y / b) = y * ln (y / a) + y * ln (a / b)).
  { destruct (Req_dec y 0) as [-> |]; [ring|]. rewrite <- Rmult_plus_distr_l. f_equal.
    rewrite <- ln_mult; [f_equal; field; lra|apply Rdiv_lt_0_compat; lra|apply Rdiv_lt_0_compat; lra]. }
  assert (F : y * (y / a - 1) = t * c + t * t * (c * c / a)) by (unfold y; field; lra).
  rewrite E. replace (y * ln (a / b)) with (a * ln (a / b) + t * c * ln (a / b)) by (unfold y; ring). nra.
Qed.

Section Kkt.
  Variables (pn : list R) (A : rows) (G : option rows) (m : string) (q : vec).
  Notation d := (ep_dual pn A G m).
  Notation T := (List.length pn).
  Hypothesis PP : forall s, (s < T)%nat -> 0 < of_list pn s.
  Hypothesis CL : closest T (of_list pn) A (opt_rows G) q.
  Hypothesis HO : has_ones T A.
  Hypothesis QP : forall s, (s < T)%nat -> exp (-700) < q s.
  Let active (k : nat) : bool := (k <? List.length A)%nat || Rleb (rhs_of d k) (expectation T q (row_of d k)).
  Let free (k : nat) : bool := (k <? List.length A)%nat.
  Let a (k : nat) : vec := if active k then row_of d k else fun _ => 0.

  Lemma exp_dot w r : expectation T w r = dot T r w.
  Proof. apply sumn_ext. intros; ring. Qed.
  Lemma row_in_eq k : (k < List.length A)%nat -> In (row_of d k, rhs_of d k) A.
  Proof. intros L. destruct (row_eq pn A G m k L) as [-> ->]. rewrite <- surjective_pairing. apply nth_In; auto. Qed.
  Lemma row_in_le k : (List.length A <= k < du_K d)%nat -> In (row_of d k, rhs_of d k) (opt_rows G).
  Proof.
    intros [L L2]. destruct (row_le pn A G m k L) as [-> ->]. rewrite <- surjective_pairing. apply nth_In.
    unfold du_K in L2. cbn [ep_dual du_rows] in L2. rewrite app_length in L2. lia.
  Qed.
  Lemma q_pos s : (s < T)%nat -> 0 < q s.
  Proof. intros H. pose proof (QP s H). pose proof (exp_pos (-700)). lra. Qed.

  (** A direction keeping the views keeps them for a small step. *)
  Lemma step_obeys z : (forall k, (k < du_K d)%nat -> row_ok T free a z k) ->
    exists t0, 0 < t0 /\ forall t, 0 <= t <= t0 -> obeys T A (opt_rows G) (fun s => q s + t * z s).
  Proof.
    intros Hz.
    destruct (small_step T q z q_pos) as [t1 [P1 B1]].
    destruct (small_step (du_K d) (fun k => if active k then 1 else rhs_of d k - expectation T q (row_of d k)) (fun k => if active k then 0 else - dot T (row_of d k) z)) as [t2 [P2 B2]].
    { intros k Hk. destruct (active k) eqn:E; [lra|]. unfold active in E. apply orb_false_iff in E. destruct E as [_ E]. apply Rleb_false in E. lra. }
    exists (Rmin t1 t2). split; [apply Rmin_pos; auto|]. intros t [Ht Hl].
    assert (Ht1 : 0 <= t <= t1) by (split; [auto|eapply Rle_trans; [apply Hl|apply Rmin_l]]).
    assert (Ht2 : 0 <= t <= t2) by (split; [auto|eapply Rle_trans; [apply Hl|apply Rmin_r]]).
    destruct CL as [[[O1 O2] [O3 O4]] _].
    assert (X : forall r, expectation T (fun s => q s + t * z s) r = expectation T q r + t * dot T r z).
    { intros r. unfold expectation, dot. rewrite <- sumn_scale, <- sumn_plus. apply sumn_ext. intros; ring. }
    assert (EQ : holds_eq T A (fun s => q s + t * z s)).
    { intros r b I. rewrite X, (O3 r b I). destruct (in_eq_index pn A G m r b I) as [k [L [<- _]]].
      specialize (Hz k). unfold row_ok, free, a, active in Hz. assert (E : (k <? List.length A)%nat = true) by (apply Nat.ltb_lt; auto). rewrite E in Hz. cbn [orb] in Hz.
      rewrite Hz; [ring|]. unfold du_K. cbn [ep_dual du_rows]. rewrite app_length. lia. }
    split; [split|split; [exact EQ|]].
    - intros s Hs. apply (B1 t Ht1 s Hs).
    - destruct HO as [r [I Hr]]. pose proof (EQ r 1 I) as E. rewrite <- E at 1. apply sumn_ext. intros s Hs. rewrite Hr by auto. ring.
    - intros r h I. rewrite X. destruct (in_le_index pn A G m r h I) as [k [L [<- <-]]].
      pose proof (O4 _ _ (row_in_le k L)) as Hq. specialize (B2 t Ht2 k (proj2 L)). cbv beta in B2. specialize (Hz k (proj2 L)). unfold row_ok, free, a in Hz.
      assert (E : (k <? List.length A)%nat = false) by (apply Nat.ltb_ge; lia). rewrite E in Hz.
      destruct (active k); [nra|]. nra.
  Qed.
  Lemma kkt_direction z : (forall k, (k < du_K d)%nat -> row_ok T free a z k) -> dot T (fun s => - (ln (q s / of_list pn s) + 1)) z <= 0.
  Proof.
    intros Hz. destruct (step_obeys z Hz) as [t0 [P0 B]].
    set (D := sumn T (fun s => z s * (ln (q s / of_list pn s) + 1))). set (C := sumn T (fun s => z s * z s / q s)).
    assert (E : dot T (fun s => - (ln (q s / of_list pn s) + 1)) z = - D).
    { unfold dot, D. rewrite <- sumn_opp. apply sumn_ext. intros; ring. }
    rewrite E. assert (C0 : 0 <= C).
    { apply sumn_nonneg. intros s Hs. pose proof (q_pos s Hs). apply Rmult_le_pos; [nra|apply Rlt_le, Rinv_0_lt_compat; auto]. }
    assert (K : forall t, 0 < t <= t0 -> 0 <= D + t * C).
    { intros t Ht. destruct CL as [_ M]. pose proof (B t ltac:(lra)) as O. destruct (M _ O) as [Mt _].
      assert (Hn : forall s, (s < T)%nat -> 0 <= q s + t * z s) by (apply O).
      pose proof (kl_move T (of_list pn) q z t PP q_pos Hn) as U. fold D C in U.
      assert (0 <= t * (D + t * C)) by nra. nra. }
    destruct (Rle_lt_dec 0 D) as [|N]; [lra|]. exfalso.
    set (t := Rmin t0 (- D / (2 * (C + 1)))). assert (0 < - D / (2 * (C + 1))) by (apply Rdiv_lt_0_compat; lra).
    assert (Ht : 0 < t <= t0) by (split; [apply Rmin_pos; auto|apply Rmin_l]). pose proof (K t Ht).
    assert (L : t <= - D / (2 * (C + 1))) by apply Rmin_r.
    assert (t * (2 * (C + 1)) <= - D).
    { apply Rmult_le_reg_r with (/ (2 * (C + 1))); [apply Rinv_0_lt_compat; lra|]. rewrite Rmult_assoc, Rinv_r by lra. unfold Rdiv in L. lra. }
    nra.
  Qed.

  Lemma kkt_exists : exists lam, stationary d lam /\ forall s, (s < T)%nat -> ep_x d lam s = q s.
  Proof.
    destruct (farkas T free (du_K d) a _ kkt_direction) as [mu [M1 M2]].
    set (lam := fun k => if active k then mu k else 0). exists lam.
    assert (XE : forall s, (s < T)%nat -> ep_exponent d lam s = ln (q s)).
    { intros s Hs. unfold ep_exponent. specialize (M2 s Hs). cbv beta in M2.
      rewrite (sumn_ext (du_K d) (fun k => row_of d k s * lam k) (fun i => mu i * a i s)).
      - rewrite <- M2. cbn [ep_dual du_logp]. unfold Rdiv. rewrite ln_mult; [|apply q_pos; auto|apply Rinv_0_lt_compat, PP; auto]. rewrite ln_Rinv by auto. lra.
      - intros k Hk. unfold lam, a. destruct (active k); ring. }
    assert (X : forall s, (s < T)%nat -> ep_x d lam s = q s).
    { intros s Hs. unfold ep_x. rewrite XE by auto. rewrite clip_id; [apply exp_ln, q_pos; auto|].
      destruct CL as [[[O1 O2] _] _]. split.
      - apply Rlt_le, exp_lt_inv. rewrite exp_ln by (apply q_pos; auto). apply QP; auto.
      - apply Rle_trans with 0; [|lra]. rewrite <- ln_1.
        assert (q s <= 1).
        { rewrite <- O2. assert (Z : forall n, (s < n)%nat -> (forall t, (t < n)%nat -> 0 <= q t) -> q s <= sumn n q).
          { induction n; intros L Q; [lia|]. simpl. destruct (Nat.eq_dec s n) as [-> |].
            - assert (0 <= sumn n q) by (apply sumn_nonneg; intros; apply Q; lia). lra.
            - pose proof (Q n ltac:(lia)). assert (q s <= sumn n q) by (apply IHn; [lia|intros; apply Q; lia]). lra. }
          apply Z; auto. }
        destruct (Req_dec (q s) 1) as [-> |]; [lra|]. apply Rlt_le, ln_increasing; [apply q_pos; auto|lra]. }
    split; auto.
    assert (GV : forall k, dual_gradient d lam k = 1000 * (rhs_of d k - expectation T q (row_of d k))).
    { intros k. rewrite grad_val. do 2 f_equal. apply sumn_ext. intros s Hs. rewrite X by auto. reflexivity. }
    destruct CL as [[[O1 O2] [O3 O4]] _]. split.
    - intros k Hk. cbn [ep_dual du_eq] in Hk. rewrite GV, (O3 _ _ (row_in_eq k Hk)). ring.
    - intros k Hk. cbn [ep_dual du_eq] in Hk. rewrite GV. pose proof (O4 _ _ (row_in_le k Hk)).
      assert (Fk : free k = false) by (apply Nat.ltb_ge; lia). unfold lam. destruct (active k) eqn:E.
      + unfold active in E. unfold free in Fk. rewrite Fk in E. cbn [orb] in E. apply Rleb_true in E.
        split; [apply M1; [lia|auto]|]. assert (rhs_of d k - expectation T q (row_of d k) = 0) by lra. rewrite H0. split; [lra|ring].
      + split; [lra|]. split; [lra|ring].
  Qed.
End Kkt.

(** ** The posterior is the closest distribution above the clipping floor *)
Section Floor.
  Variables (pn : list R) (A : rows) (G : option rows) (m : string) (lam : vec).
  Notation d := (ep_dual pn A G m).
  Notation T := (List.length pn).
  Hypothesis ST : stationary d lam.
  Hypothesis HO : has_ones T A.
  Hypothesis PP : forall s, (s < T)%nat -> 0 < of_list pn s.
  Let x := ep_x d lam.
  Let u (s : nat) := sumn (du_K d) (fun k => row_of d k s * lam k).
  Lemma x_le_1 s : (s < T)%nat -> x s <= 1.
  Proof.
    intros Hs. rewrite <- (st_sum pn A G m lam ST HO). fold x.
    assert (Gn : forall n, (s < n)%nat -> x s <= sumn n x).
    { induction n; intros L; [lia|]. simpl. destruct (Nat.eq_dec s n) as [-> |N].
      - assert (0 <= sumn n x) by (apply sumn_nonneg; intros; apply Rlt_le, exp_pos). lra.
      - assert (s < n)%nat by lia. specialize (IHn H). pose proof (exp_pos (clip (ep_exponent d lam n) (-700) 700)). unfold x, ep_x in *. lra. }
    apply Gn; auto.
  Qed.
  Lemma floor_ln s : (s < T)%nat -> exists e, 0 <= e /\ (0 < e -> x s = exp (-700)) /\ ln (x s / of_list pn s) = -1 - u s + e.
  Proof.
    intros Hs. set (ex := ep_exponent d lam s). exists (clip ex (-700) 700 - ex).
    assert (C : clip ex (-700) 700 <= 0).
    { pose proof (x_le_1 s Hs) as L. unfold x, ep_x in L. fold ex in L. destruct (Rle_lt_dec (clip ex (-700) 700) 0) as [|N]; auto. exfalso.
      apply exp_increasing in N. rewrite exp_0 in N. lra. }
    assert (X : ln (x s / of_list pn s) = clip ex (-700) 700 - ln (of_list pn s)).
    { unfold Rdiv. rewrite ln_mult; [|apply exp_pos|apply Rinv_0_lt_compat, PP; auto]. rewrite ln_Rinv by auto. unfold x, ep_x. rewrite ln_exp. fold ex. ring. }
    split; [|split].
    - unfold clip, Rmin, Rmax in *. repeat destruct (Rle_dec _ _); lra.
    - intros P. unfold x, ep_x. fold ex. f_equal. unfold clip, Rmin, Rmax in *. repeat destruct (Rle_dec _ _); lra.
    - rewrite X. assert (EE : ex = ln (of_list pn s) - 1 - u s) by reflexivity. lra.
  Qed.
  Lemma floor_closest : closest_above (exp (-700)) T (of_list pn) A (opt_rows G) x.
  Proof.
    split; [apply st_obeys; auto|]. split.
    { intros s Hs. unfold x, ep_x. set (e := ep_exponent d lam s). destruct (Req_dec (clip e (-700) 700) (-700)) as [-> |N]; [lra|].
      apply Rlt_le, exp_increasing. unfold clip, Rmin, Rmax in *. repeat destruct (Rle_dec _ _); lra. }
    intros q' Hq' Fl. destruct Hq' as [[P1 P2] HOq]. pose proof (conj (conj P1 P2) HOq : obeys T A (opt_rows G) q') as Hq'.
    assert (X0 : forall s, 0 < x s) by (intros; apply exp_pos).
    assert (D : kl T q' (of_list pn) = kl T q' x + sumn T (fun s => q' s * ln (x s / of_list pn s))).
    { unfold kl. rewrite <- sumn_plus. apply sumn_ext. intros s Hs. destruct (Req_dec (q' s) 0) as [-> |N]; [lra|].
      pose proof (P1 s Hs). pose proof (X0 s). pose proof (PP s Hs).
      rewrite <- Rmult_plus_distr_l. f_equal. rewrite <- ln_mult; [f_equal; field; lra|apply Rdiv_lt_0_compat; lra|apply Rdiv_lt_0_compat; lra]. }
    assert (E : sumn T (fun s => (q' s - x s) * (-1 - u s)) <= sumn T (fun s => (q' s - x s) * ln (x s / of_list pn s))).
    { apply sumn_le. intros s Hs. destruct (floor_ln s Hs) as [e [E0 [E1 ->]]].
      destruct (Req_dec e 0) as [-> |]; [lra|]. rewrite E1 by lra. pose proof (Fl s Hs). nra. }
    assert (E2 : sumn T (fun s => (q' s - x s) * (-1 - u s)) = sumn T (fun s => x s * u s) - sumn T (fun s => q' s * u s)).
    { rewrite (sumn_ext T _ (fun s => (x s - q' s) + (x s * u s - q' s * u s))) by (intros; ring).
      pose proof (st_sum pn A G m lam ST HO) as SX. fold x in SX. rewrite sumn_plus, !sumn_minus, P2, SX. ring. }
    pose proof (price pn A G m lam ST q' Hq') as Pr. fold x in Pr.
    assert (E3 : sumn T (fun s => (q' s - x s) * ln (x s / of_list pn s)) = sumn T (fun s => q' s * ln (x s / of_list pn s)) - kl T x (of_list pn)).
    { unfold kl. rewrite <- sumn_minus. apply sumn_ext. intros; ring. }
    unfold u in E2. unfold u in E.
    destruct (gibbs T q' x P1 (fun s _ => X0 s)) as [G1 G2]. { rewrite P2. symmetry. apply (st_sum pn A G m lam ST HO). }
    split; [lra|]. intros H. apply G2. lra.
  Qed.
End Floor.

Lemma closest_unscale T p c A G q : 0 < c -> (forall s, (s < T)%nat -> 0 < p s) -> closest T p A G q -> closest T (fun s => p s / c) A G q.
Proof.
  intros Hc Hp [O M]. split; auto. intros q' O'. destruct (M q' O') as [M1 M2].
  rewrite !kl_scale in * by (auto; first [apply O|apply O'|idtac]; auto).
  split; [lra|]. intros H. apply M2. lra.
Qed.
Lemma closest_unique T p A G q q' : closest T p A G q -> closest T p A G q' -> forall s, (s < T)%nat -> q' s = q s.
Proof. intros [O M] [O' M']. destruct (M q' O') as [_ U]. apply U. apply M', O. Qed.

Lemma ep_floor_l minimize p A G method q : sound minimize -> entropy_pooling minimize p A G method = Ok q -> has_ones (List.length p) A ->
  closest_above (exp (-700)) (List.length p) (of_list p) A (opt_rows G) q.
Proof.
  intros So H Ho. destruct (ep_q _ _ _ _ _ _ So H Ho) as [m [pn [lam [E [L [ST [_ Q]]]]]]].
  destruct (normalize_positive_inv _ _ E) as [_ [Hp [_ [c [C0 [C _]]]]]].
  destruct (ep_obeys_l _ _ _ _ _ _ So H Ho) as [Qp Oq].
  assert (Pp : forall s, (s < List.length p)%nat -> 0 < of_list p s) by (intros; apply of_list_pos; auto).
  assert (F : closest_above (exp (-700)) (List.length p) (of_list pn) A (opt_rows G) (ep_x (ep_dual pn A G m) lam)).
  { rewrite <- L in *. apply floor_closest; auto. intros s Hs. rewrite C. apply Rdiv_lt_0_compat; auto. }
  destruct F as [_ [F1 F2]]. split; auto. split. { intros s Hs. rewrite Q. auto. }
  intros q' O' L'. destruct (F2 q' O' L') as [M1 M2].
  assert (K : forall w, obeys (List.length p) A (opt_rows G) w -> kl (List.length p) w (of_list pn) = kl (List.length p) w (of_list p) + ln c).
  { intros w [[W1 W2] _]. rewrite <- kl_scale by auto. apply kl_ext; auto. }
  rewrite (kl_ext _ _ q _ (of_list pn)) in M1, M2 by auto. rewrite !K in * by auto.
  split; [lra|]. intros Hk s Hs. rewrite Q. apply M2; auto. lra.
Qed.
Lemma ep_finds_l minimize p A G method q : sound minimize -> finds minimize -> supported method ->
  p <> [] -> (forall x, In x p -> 0 < x) -> has_ones (List.length p) A ->
  closest (List.length p) (of_list p) A (opt_rows G) q -> (forall s, (s < List.length p)%nat -> exp (-700) < q s) ->
  exists q', entropy_pooling minimize p A G method = Ok q' /\ forall s, (s < List.length p)%nat -> q' s = q s.
Proof.
  intros So Fi Su Ne Pp Ho CL Qp. destruct (normalize_positive_ok p Ne Pp) as [pn E].
  destruct (normalize_positive_inv p pn E) as [_ [_ [L [c [C0 [C _]]]]]].
  assert (CLn : forall T', T' = List.length p -> closest T' (of_list pn) A (opt_rows G) q).
  { intros T' ->. apply (closest_ext _ (fun s => of_list p s / c) _ _ _ q); auto. apply closest_unscale; auto. intros; apply of_list_pos; auto. }
  assert (PPn : forall s, (s < List.length pn)%nat -> 0 < of_list pn s).
  { intros s Hs. rewrite C. apply Rdiv_lt_0_compat; auto. apply of_list_pos; [auto|lia]. }
  set (m := match method with None => "TNC"%string | Some s => if String.eqb s "" then "TNC"%string else s end).
  assert (Mok : (String.eqb m "TNC" || String.eqb m "L-BFGS-B")%bool = true).
  { unfold m. destruct Su as [-> |[-> |[-> | ->]]]; reflexivity. }
  assert (EX : exists lam, stationary (ep_dual pn A G m) lam).
  { rewrite <- L in *. destruct (kkt_exists pn A G m q PPn (CLn _ eq_refl) Ho Qp) as [lam [St _]]. exists lam; auto. }
  destruct EX as [lam St]. destruct (minimize (ep_dual pn A G m)) as [lam'|] eqn:M; [|exfalso; apply (Fi _ _ St M)].
  assert (R : exists q', entropy_pooling minimize p A G method = Ok q').
  { unfold entropy_pooling. fold m. rewrite Mok. cbn [guard]. rewrite E. cbn [bind]. fold (ep_dual pn A G m). rewrite M. eauto. }
  destruct R as [q' R]. exists q'. split; auto.
  destruct (ep_floor_l _ _ _ _ _ _ So R Ho) as [O' [_ U]]. destruct CL as [O Mi].
  destruct (U q O (fun s Hs => Rlt_le _ _ (Qp s Hs))) as [_ U2]. intros s Hs. symmetry. apply U2; auto. apply Mi; auto.
Qed.
