(** Proofs about entropy pooling: the dual, the posterior and its optimality. *)
From Verif Require Import RBase QpBase OptModel MomSpec BlModel EpModel EpSpec.
Open Scope R_scope.
Open Scope list_scope.

(** ** Relative entropy *)
Lemma kl_term a b : 0 <= a -> 0 < b -> a - b <= a * ln (a / b) /\ (a * ln (a / b) <= a - b -> a = b).
Proof.
  intros Ha Hb. destruct (Req_dec a 0) as [-> |Na].
  - rewrite Rmult_0_l. split; intros; lra.
  - assert (0 < a) by lra. assert (Hp : 0 < b / a) by (apply Rdiv_lt_0_compat; lra).
    assert (E : ln (a / b) = - ln (b / a)).
    { rewrite <- ln_Rinv by auto. f_equal. field; lra. }
    rewrite E. assert (F : a * (b / a - 1) = b - a) by (field; lra).
    split.
    + pose proof (ln_le_sub1 _ Hp). nra.
    + intros H1. destruct (Req_dec (b / a) 1) as [E1|N1].
      * assert (a * (b / a) = a * 1) by (f_equal; auto). replace (a * (b / a)) with b in H0 by (field; lra). lra.
      * pose proof (ln_lt_sub1 _ Hp N1). nra.
Qed.
Lemma gibbs T q p : (forall s, (s < T)%nat -> 0 <= q s) -> (forall s, (s < T)%nat -> 0 < p s) -> sumn T q = sumn T p ->
  0 <= kl T q p /\ (kl T q p <= 0 -> forall s, (s < T)%nat -> q s = p s).
Proof.
  intros Hq Hp Hs.
  assert (E : kl T q p = sumn T (fun s => q s * ln (q s / p s) - (q s - p s))).
  { rewrite sumn_minus, sumn_minus. unfold kl. lra. }
  assert (N : forall s, (s < T)%nat -> 0 <= q s * ln (q s / p s) - (q s - p s)).
  { intros s Hs'. destruct (kl_term (q s) (p s) (Hq s Hs') (Hp s Hs')). lra. }
  split.
  - rewrite E. apply sumn_nonneg, N.
  - intros Hk s Hs'. assert (Z : sumn T (fun s => q s * ln (q s / p s) - (q s - p s)) = 0).
    { pose proof (sumn_nonneg T _ N). lra. }
    pose proof (sumn_nonneg_zero T _ N Z s Hs') as E0.
    destruct (kl_term (q s) (p s) (Hq s Hs') (Hp s Hs')) as [_ H]. apply H. simpl in E0. lra.
Qed.
(** Scaling the prior shifts the divergence of a distribution. *)
Lemma kl_scale T q p c : 0 < c -> (forall s, (s < T)%nat -> 0 < p s) -> (forall s, (s < T)%nat -> 0 <= q s) -> sumn T q = 1 ->
  kl T q (fun s => p s / c) = kl T q p + ln c.
Proof.
  intros Hc Hp Hq Hs. unfold kl.
  rewrite (sumn_ext T _ (fun s => q s * ln (q s / p s) + q s * ln c)).
  - rewrite sumn_plus, sumn_scale_r, Hs. lra.
  - intros s Hs'. destruct (Req_dec (q s) 0) as [-> |N]; [lra|].
    pose proof (Hp s Hs'). pose proof (Hq s Hs'). assert (0 < q s) by lra.
    replace (q s / (p s / c)) with (q s / p s * c) by (field; lra).
    rewrite ln_mult; [ring|apply Rdiv_lt_0_compat; lra|lra].
Qed.
Lemma kl_ext T q q' p p' : (forall s, (s < T)%nat -> q s = q' s) -> (forall s, (s < T)%nat -> p s = p' s) -> kl T q p = kl T q' p'.
Proof. intros H1 H2. apply sumn_ext. intros s Hs. rewrite H1, H2 by auto. reflexivity. Qed.

(** ** The prior *)
Lemma existsb_pos p : existsb (fun x => Rleb x 0) p = false -> forall x, In x p -> 0 < x.
Proof.
  intros H x Hx. destruct (Rleb_spec x 0) as [L|L]; [|lra]. exfalso.
  assert (existsb (fun x => Rleb x 0) p = true) by (apply existsb_exists; exists x; split; auto; apply Rleb_true; auto). congruence.
Qed.
Lemma normalize_positive_inv p pn : normalize_positive p = Ok pn ->
  p <> [] /\ (forall x, In x p -> 0 < x) /\ List.length pn = List.length p /\
  exists c, 0 < c /\ (forall s, of_list pn s = of_list p s / c) /\ (c = 1 \/ c = rsum p).
Proof.
  unfold normalize_positive. destruct p as [|a t]; [discriminate|]. set (p := a :: t).
  destruct (existsb _ p) eqn:E; [discriminate|]. cbn [negb guard]. pose proof (existsb_pos p E) as Hp.
  destruct (risclose (rsum p) 1); intros H; apply (f_equal (fun r => match r with Ok y => y | Err _ => [] end)) in H; cbv beta iota in H; subst pn.
  - split; [discriminate|]. split; auto. split; [reflexivity|]. exists 1. split; [lra|]. split; auto. intros; field.
  - split; [discriminate|]. split; auto. split; [apply map_length|]. exists (rsum p).
    assert (0 < rsum p) by (apply rsum_pos; [discriminate|auto]). split; auto. split; auto.
    intros s. unfold of_list. destruct (lt_dec s (List.length p)) as [L|L].
    + rewrite (nth_map_lt (fun x => x / rsum p) p s 0 0) by auto. reflexivity.
    + rewrite !nth_overflow; [field; lra|lia|rewrite map_length; lia].
Qed.
Lemma normalize_positive_ok p : p <> [] -> (forall x, In x p -> 0 < x) -> exists pn, normalize_positive p = Ok pn.
Proof.
  intros N H. unfold normalize_positive. destruct p as [|a t]; [congruence|].
  destruct (existsb (fun x => Rleb x 0) (a :: t)) eqn:E.
  - apply existsb_exists in E. destruct E as [x [Hx Hl]]. apply Rleb_true in Hl. specialize (H x Hx). lra.
  - simpl negb. cbn [guard]. destruct (risclose _ _); eauto.
Qed.
Lemma of_list_pos p s : (forall x, In x p -> 0 < x) -> (s < List.length p)%nat -> 0 < of_list p s.
Proof. intros H L. apply H. apply nth_In; auto. Qed.

(** ** Inversion *)
Definition ep_dual (pn : list R) (A : rows) (G : option rows) (m : string) : dual :=
  Dual (List.length pn) (fun s => ln (of_list pn s)) (A ++ opt_rows G) (List.length A) m.
Lemma ep_inv minimize p A G method q : entropy_pooling minimize p A G method = Ok q ->
  exists m pn lam, normalize_positive p = Ok pn /\ minimize (ep_dual pn A G m) = Some lam /\
    forall s, q s = ep_x (ep_dual pn A G m) lam s / sumn (List.length p) (ep_x (ep_dual pn A G m) lam).
Proof.
  unfold entropy_pooling. set (m := match method with None => _ | Some _ => _ end). intros H.
  apply guard_ok in H. destruct H as [_ H]. apply bind_ok in H. destruct H as [pn [E H]].
  fold (ep_dual pn A G m) in H. destruct (minimize (ep_dual pn A G m)) as [lam|] eqn:M; [|discriminate].
  exists m, pn, lam. split; auto. split; auto. intros s.
  destruct (normalize_positive_inv _ _ E) as [_ [_ [L _]]].
  injection H as <-. cbn [ep_dual du_S]. rewrite L. reflexivity.
Qed.

Section Dual.
  Variables (pn : list R) (A : rows) (G : option rows) (m : string) (lam : vec).
  Notation d := (ep_dual pn A G m).
  Notation T := (List.length pn).
  Let x := ep_x d lam.
  Lemma ep_x_pos s : 0 < x s. Proof. apply exp_pos. Qed.
  Lemma row_eq k : (k < List.length A)%nat -> row_of d k = fst (nth k A (fun _ => 0, 0)) /\ rhs_of d k = snd (nth k A (fun _ => 0, 0)).
  Proof. intros H. unfold row_of, rhs_of. cbn [ep_dual du_rows]. rewrite app_nth1 by auto. auto. Qed.
  Lemma row_le k : (List.length A <= k)%nat -> row_of d k = fst (nth (k - List.length A) (opt_rows G) (fun _ => 0, 0)) /\
    rhs_of d k = snd (nth (k - List.length A) (opt_rows G) (fun _ => 0, 0)).
  Proof. intros H. unfold row_of, rhs_of. cbn [ep_dual du_rows]. rewrite app_nth2 by auto. auto. Qed.
  Lemma grad_val k : dual_gradient d lam k = 1000 * (rhs_of d k - expectation T x (row_of d k)).
  Proof. unfold dual_gradient, expectation. cbn [ep_dual du_S]. do 2 f_equal. apply sumn_ext. intros; unfold x; ring. Qed.

  Lemma in_eq_index r b : In (r, b) A -> exists k, (k < List.length A)%nat /\ row_of d k = r /\ rhs_of d k = b.
  Proof.
    intros H. destruct (In_nth A (r, b) (fun _ => 0, 0) H) as [k [L E]]. exists k. split; auto.
    destruct (row_eq k L) as [-> ->]. rewrite E. auto.
  Qed.
  Lemma in_le_index r h : In (r, h) (opt_rows G) -> exists k, (List.length A <= k < du_K d)%nat /\ row_of d k = r /\ rhs_of d k = h.
  Proof.
    intros H. destruct (In_nth (opt_rows G) (r, h) (fun _ => 0, 0) H) as [k [L E]]. exists (List.length A + k)%nat.
    split. { unfold du_K. cbn [ep_dual du_rows]. rewrite app_length. lia. }
    destruct (row_le (List.length A + k)) as [-> ->]; [lia|].
    replace (List.length A + k - List.length A)%nat with k by lia. rewrite E. auto.
  Qed.

  Hypothesis ST : stationary d lam.
  Lemma st_eq r b : In (r, b) A -> expectation T x r = b.
  Proof.
    intros H. destruct (in_eq_index r b H) as [k [L [<- <-]]].
    destruct ST as [S1 _]. pose proof (S1 k L) as E. rewrite grad_val in E. lra.
  Qed.
  Lemma st_le r h : In (r, h) (opt_rows G) -> expectation T x r <= h.
  Proof.
    intros H. destruct (in_le_index r h H) as [k [L [<- <-]]].
    destruct ST as [_ S2]. destruct (S2 k L) as [_ [E _]]. rewrite grad_val in E. lra.
  Qed.
  Lemma st_sum : has_ones T A -> sumn T x = 1.
  Proof.
    intros [r [Hr Ho]]. rewrite <- (st_eq r 1 Hr). apply sumn_ext. intros s Hs. rewrite Ho by auto. lra.
  Qed.
  Lemma st_obeys : has_ones T A -> obeys T A (opt_rows G) x.
  Proof.
    intros Ho. split; [|split].
    - split; [intros t _; apply Rlt_le, ep_x_pos|apply st_sum; auto].
    - intros r b. apply st_eq.
    - intros r h. apply st_le.
  Qed.

  (** Multipliers of the views a distribution obeys do not increase [A'lambda]. *)
  Lemma price q' : obeys T A (opt_rows G) q' ->
    sumn T (fun s => q' s * sumn (du_K d) (fun k => row_of d k s * lam k)) <= sumn T (fun s => x s * sumn (du_K d) (fun k => row_of d k s * lam k)).
  Proof.
    intros [P [HE HL]].
    assert (R : forall w, sumn T (fun s => w s * sumn (du_K d) (fun k => row_of d k s * lam k)) = sumn (du_K d) (fun k => lam k * expectation T w (row_of d k))).
    { intros w. rewrite (sumn_ext T _ (fun s => sumn (du_K d) (fun k => lam k * (w s * row_of d k s)))).
      - rewrite sumn_swap. apply sumn_ext. intros k Hk. unfold expectation. rewrite <- sumn_scale. reflexivity.
      - intros s Hs. rewrite <- sumn_scale. apply sumn_ext. intros; ring. }
    rewrite !R. apply sumn_le. intros k Hk.
    destruct (lt_dec k (List.length A)) as [L|L].
    - destruct (row_eq k L) as [E1 E2]. assert (I : In (row_of d k, rhs_of d k) A).
      { rewrite E1, E2. rewrite <- surjective_pairing. apply nth_In; auto. }
      rewrite (HE _ _ I), (st_eq _ _ I). lra.
    - destruct (row_le k ltac:(lia)) as [E1 E2]. assert (I : In (row_of d k, rhs_of d k) (opt_rows G)).
      { rewrite E1, E2. rewrite <- surjective_pairing. apply nth_In. unfold du_K in Hk. cbn [ep_dual du_rows] in Hk. rewrite app_length in Hk. lia. }
      destruct ST as [_ S2]. destruct (S2 k) as [L0 [_ C]]; [cbn [ep_dual du_eq]; lia|].
      rewrite grad_val in C. pose proof (HL _ _ I).
      assert (lam k * (rhs_of d k - expectation T x (row_of d k)) = 0) by nra. nra.
  Qed.

  Hypothesis PP : forall s, (s < T)%nat -> 0 < of_list pn s.
  Lemma unclipped_x s : (s < T)%nat -> exp (-700) < x s < exp 700 ->
    ln (x s / of_list pn s) = -1 - sumn (du_K d) (fun k => row_of d k s * lam k).
  Proof.
    intros Hs [L U].
    assert (E : x s = exp (ep_exponent d lam s)).
    { unfold x, ep_x, clip in *. set (e := ep_exponent d lam s) in *. clearbody e. apply exp_lt_inv in L, U. f_equal.
      unfold Rmax in *. destruct (Rle_dec (-700) e); unfold Rmin in *; destruct (Rle_dec 700 _); lra. }
    unfold Rdiv. rewrite ln_mult; [|apply ep_x_pos|apply Rinv_0_lt_compat, PP; auto].
    rewrite ln_Rinv by (apply PP; auto). rewrite E, ln_exp. unfold ep_exponent. cbn [ep_dual du_logp]. lra.
  Qed.

  Lemma st_closest : has_ones T A -> (forall s, (s < T)%nat -> exp (-700) < x s) -> closest T (of_list pn) A (opt_rows G) x.
  Proof.
    intros Ho Hc. split; [apply st_obeys; auto|]. intros q' Hq'.
    assert (U : forall s, (s < T)%nat -> exp (-700) < x s < exp 700).
    { intros s Hs. split; auto. apply Rle_lt_trans with 1.
      - rewrite <- (st_sum Ho). clear -Hs.
        assert (Gn : forall n, (s < n)%nat -> x s <= sumn n x).
        { induction n; intros L; [lia|]. simpl. destruct (Nat.eq_dec s n) as [-> |N].
          - assert (0 <= sumn n x) by (apply sumn_nonneg; intros; apply Rlt_le, ep_x_pos). lra.
          - assert (s < n)%nat by lia. specialize (IHn H). pose proof (ep_x_pos n). lra. }
        apply Gn; auto.
      - rewrite <- exp_0. apply exp_increasing. lra. }
    destruct Hq' as [[P1 P2] HO]. pose proof (conj (conj P1 P2) HO : obeys T A (opt_rows G) q') as Hq'.
    assert (D : kl T q' (of_list pn) = kl T q' x + sumn T (fun s => q' s * (-1 - sumn (du_K d) (fun k => row_of d k s * lam k)))).
    { unfold kl. rewrite <- sumn_plus. apply sumn_ext. intros s Hs.
      destruct (Req_dec (q' s) 0) as [-> |N]; [lra|].
      rewrite <- (unclipped_x s Hs (U s Hs)). pose proof (P1 s Hs). assert (0 < q' s) by lra.
      pose proof (ep_x_pos s). pose proof (PP s Hs).
      rewrite <- Rmult_plus_distr_l. f_equal. rewrite <- ln_mult; [f_equal; field; lra|apply Rdiv_lt_0_compat; lra|apply Rdiv_lt_0_compat; lra]. }
    assert (D0 : kl T x (of_list pn) = sumn T (fun s => x s * (-1 - sumn (du_K d) (fun k => row_of d k s * lam k)))).
    { unfold kl. apply sumn_ext. intros s Hs. rewrite (unclipped_x s Hs (U s Hs)). reflexivity. }
    assert (X : forall w, sumn T w = 1 -> sumn T (fun s => w s * (-1 - sumn (du_K d) (fun k => row_of d k s * lam k))) =
                  -1 - sumn T (fun s => w s * sumn (du_K d) (fun k => row_of d k s * lam k))).
    { intros w Hw. rewrite (sumn_ext T _ (fun s => -1 * w s - w s * sumn (du_K d) (fun k => row_of d k s * lam k))).
      - rewrite sumn_minus, sumn_scale, Hw. lra.
      - intros; ring. }
    rewrite (X q' P2) in D. rewrite (X x (st_sum Ho)) in D0. pose proof (price q' Hq') as Pr.
    destruct (gibbs T q' x P1 (fun s _ => ep_x_pos s)) as [G1 G2]. { rewrite P2, st_sum; auto. }
    split; [lra|]. intros H. apply G2. lra.
  Qed.
End Dual.

(** ** The call *)
Lemma closest_scale T p c A G q : 0 < c -> (forall s, (s < T)%nat -> 0 < p s) -> closest T (fun s => p s / c) A G q -> closest T p A G q.
Proof.
  intros Hc Hp [O M]. split; auto. intros q' O'. destruct (M q' O') as [M1 M2].
  rewrite !kl_scale in * by (auto; first [apply O|apply O'|idtac]; auto).
  split; [lra|]. intros H. apply M2. lra.
Qed.
Lemma closest_ext T p p' A G q q' : (forall s, (s < T)%nat -> p s = p' s) -> (forall s, (s < T)%nat -> q s = q' s) -> closest T p A G q -> closest T p' A G q'.
Proof.
  intros Hp Hq [[[O1 O2] [O3 O4]] M].
  assert (X : forall r, expectation T q r = expectation T q' r) by (intros; apply sumn_ext; intros; rewrite Hq; auto).
  split.
  - split; [split|split].
    + intros t Ht. rewrite <- Hq by auto. auto.
    + rewrite <- O2. symmetry. apply sumn_ext. auto.
    + intros r b I. rewrite <- X. auto.
    + intros r b I. rewrite <- X. auto.
  - intros w Ow. destruct (M w Ow) as [M1 M2].
    rewrite (kl_ext T q q' p p'), (kl_ext T w w p p') in * by auto.
    split; auto. intros H s Hs. rewrite <- Hq by auto. auto.
Qed.

Lemma ep_q minimize p A G method q : sound minimize -> entropy_pooling minimize p A G method = Ok q -> has_ones (List.length p) A ->
  exists m pn lam, normalize_positive p = Ok pn /\ List.length pn = List.length p /\ stationary (ep_dual pn A G m) lam /\
    minimize (ep_dual pn A G m) = Some lam /\ forall s, q s = ep_x (ep_dual pn A G m) lam s.
Proof.
  intros So H Ho. destruct (ep_inv _ _ _ _ _ _ H) as [m [pn [lam [E [M Q]]]]].
  destruct (normalize_positive_inv _ _ E) as [_ [_ [L _]]]. exists m, pn, lam.
  pose proof (So _ _ M) as ST. repeat split; auto; try apply ST; auto.
  intros s. rewrite Q. rewrite <- L in *. rewrite (st_sum pn A G m lam ST Ho). field.
Qed.
Lemma ep_obeys_l minimize p A G method q : sound minimize -> entropy_pooling minimize p A G method = Ok q -> has_ones (List.length p) A ->
  (forall s, 0 < q s) /\ obeys (List.length p) A (opt_rows G) q.
Proof.
  intros So H Ho. destruct (ep_q _ _ _ _ _ _ So H Ho) as [m [pn [lam [E [L [ST [_ Q]]]]]]].
  split. { intros s. rewrite Q. apply exp_pos. }
  rewrite <- L in *. pose proof (st_obeys pn A G m lam ST Ho) as [[O1 O2] [O3 O4]].
  assert (X : forall r, expectation (List.length pn) q r = expectation (List.length pn) (ep_x (ep_dual pn A G m) lam) r) by (intros; apply sumn_ext; intros; rewrite Q; auto).
  split; [split|split].
  - intros t Ht. rewrite Q. auto.
  - rewrite <- O2. apply sumn_ext; intros; apply Q.
  - intros r b I. rewrite X. auto.
  - intros r b I. rewrite X. auto.
Qed.
Lemma ep_closest_l minimize p A G method q : sound minimize -> entropy_pooling minimize p A G method = Ok q -> has_ones (List.length p) A ->
  (forall s, (s < List.length p)%nat -> exp (-700) < q s) -> closest (List.length p) (of_list p) A (opt_rows G) q.
Proof.
  intros So H Ho Hc. destruct (ep_q _ _ _ _ _ _ So H Ho) as [m [pn [lam [E [L [ST [_ Q]]]]]]].
  destruct (normalize_positive_inv _ _ E) as [_ [Hp [_ [c [C0 [C _]]]]]].
  apply (closest_scale _ _ c); auto. { intros s Hs. apply of_list_pos; auto. }
  apply (closest_ext _ (of_list pn) _ _ _ (ep_x (ep_dual pn A G m) lam)); auto.
  rewrite <- L in *. apply st_closest; auto.
  - intros s Hs. rewrite C. apply Rdiv_lt_0_compat; auto. apply of_list_pos; [auto|lia].
  - intros s Hs. specialize (Hc s Hs). rewrite Q in Hc. exact Hc.
Qed.
