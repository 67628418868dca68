(** Theorems for the three-dimensional view of a distribution (C145 - C148). *)
From Coq Require Import List ZArith Lia Lra Permutation Psatz FunctionalExtensionality.
Import ListNotations.
From Verif Require Import Err RBase SortLib QpBase MomModel GlModel GlSpec PoProofs EigLib FrProperties GlProofs3 Pl3Model Pl3Spec Pl3Proofs Pl3Proofs2 Pl3Proofs3 Pl3Proofs4.
Open Scope R_scope.
Open Scope list_scope.

(** The hypotheses on the routines can be met. *)
Definition entries (n : nat) (K : mat) : mat := fun i j => if Nat.ltb i n && Nat.ltb j n then K i j else 0.
Definition ex_eigh : eigh_oracle := fun n K => best_eigh n (entries n K).
Lemma entries_in n K i j : (i < n)%nat -> (j < n)%nat -> entries n K i j = K i j.
Proof. intros Hi Hj. unfold entries. apply Nat.ltb_lt in Hi. apply Nat.ltb_lt in Hj. rewrite Hi, Hj. reflexivity. Qed.
Example routines_exist : exact_eigen ex_eigh /\ reads_entries ex_eigh /\ sorts Rle 0 (argsort_by Rleb 0).
Proof.
  split; [|split; [|exact rsort_sorts]].
  - intros n K HS. destruct (best_eigh_exact n (entries n K)) as (d & Q & E & D1 & D2).
    + intros i j Hi Hj. rewrite !entries_in by assumption. apply HS; assumption.
    + exists d, Q. split; [exact E|]. split; [exact D1|]. intros i j Hi Hj. rewrite <- D2 by assumption. symmetry. apply entries_in; assumption.
  - intros n A B H. unfold ex_eigh. f_equal. apply functional_extensionality. intros i. apply functional_extensionality. intros j. unfold entries.
    destruct (Nat.ltb_spec i n), (Nat.ltb_spec j n); cbn [andb]; auto.
Qed.

(** * C145 *)
(** For three or more assets the picture's axes are the first three principal directions of the covariance, and in its
    coordinates the covariance is diagonal, with the variances of those directions. *)
Theorem axes_are_principal : forall eigh argsort n mean cov scen, exact_eigen eigh -> sorts Rle 0 argsort -> (3 <= n)%nat ->
  exists p l, project eigh argsort n mean n n cov scen None = Ok p /\ principal3 n (symmetrise cov) (pj_comp p) l /\
    (forall f g, (f < 3)%nat -> (g < 3)%nat -> pj_cov p f g = delta f g * l f).
Proof. exact project_pca. Qed.
Print Assumptions axes_are_principal.

(** For any number of assets and any directions: reading the picture along [a] is reading the combination of assets
    [direction V a]: mean, variance and every scenario. *)
Theorem projection_faithful : forall eigh argsort n mean r c cov scen comp p, project eigh argsort n mean r c cov scen comp = Ok p ->
  forall a, dot 3 (pj_mean p) a = dot n mean (direction (pj_comp p) a) /\
    quad 3 (pj_cov p) a = quad n cov (direction (pj_comp p) a) /\
    forall T X, scen = Some (T, X) -> exists Y, pj_scen p = Some (T, Y) /\ forall t b, dot 3 (Y t) b = dot n (X t) (direction (pj_comp p) b).
Proof.
  intros eigh argsort n mean r c cov scen comp p H a. split; [|split].
  - eapply project_mean; eassumption.
  - eapply project_cov; eassumption.
  - intros T X ->. eapply project_scen; eassumption.
Qed.
Print Assumptions projection_faithful.

(** With one or two assets the coordinates are the assets themselves and the rest is zero. *)
Theorem projection_small : forall eigh argsort n mean cov scen comp p, (n < 3)%nat -> project eigh argsort n mean n n cov scen comp = Ok p ->
  forall f g, (f < n)%nat -> (g < 3)%nat -> pj_mean p f = mean f /\
    ((g < n)%nat -> pj_cov p f g = (cov f g + cov g f) / 2) /\
    ((n <= g)%nat -> pj_mean p g = 0 /\ pj_cov p f g = 0 /\ pj_cov p g f = 0).
Proof.
  intros eigh argsort n mean cov scen comp p Hn H f g Hf Hg. unfold project in H. rewrite !Nat.eqb_refl in H. cbn [negb] in H. cbv zeta in H.
  replace (Nat.leb 3 n) with false in H by (symmetry; apply Nat.leb_gt; exact Hn). injection H as <-. cbn [pj_mean pj_cov].
  replace (Nat.ltb f n) with true by (symmetry; apply Nat.ltb_lt; exact Hf). split; [reflexivity|]. split; intros L.
  - replace (Nat.ltb g n) with true by (symmetry; apply Nat.ltb_lt; exact L). reflexivity.
  - replace (Nat.ltb g n) with false by (symmetry; apply Nat.ltb_ge; exact L). repeat split.
Qed.
Print Assumptions projection_small.

(** * C146 *)
(** Every point of the surface lies on the ellipsoid [e' (C + 1e-16 I)^-1 e = n_std^2], and no direction of it is further from
    the centre than [n_std] standard deviations of that direction (up to 1e-16). *)
Theorem surface_is_ellipsoid : forall eigh cov n_std points, exact_eigen eigh -> psd 3 cov ->
  exists e, mesh eigh cov n_std points = Ok e /\ forall i j, on_ellipsoid (symmetrise cov) n_std (e i j) /\
    forall a, (dot 3 a (e i j)) ^ 2 <= n_std ^ 2 * (quad 3 cov a + 1 / 10000000000000000 * dot 3 a a).
Proof. exact mesh_spec. Qed.
Print Assumptions surface_is_ellipsoid.

(** The three segments are centred at the mean, along orthogonal eigenvectors in decreasing order of variance, of half-length
    sqrt(variance + 1e-16), and end on the ellipsoid of one standard deviation. *)
Theorem segments_are_axes : forall eigh argsort mean cov, exact_eigen eigh -> sorts Rle 0 argsort -> psd 3 cov ->
  exists ax v l, principal_axes eigh argsort mean cov = Ok ax /\
    (forall k a, fst (ax k) a = mean a - v k a /\ snd (ax k) a = mean a + v k a) /\
    (forall k, (k < 3)%nat -> on_ellipsoid (symmetrise cov) 1 (v k) /\ forall i, (i < 3)%nat -> mv 3 (symmetrise cov) (v k) i = l k * v k i) /\
    (forall j k, (j < 3)%nat -> (k < 3)%nat -> j <> k -> dot 3 (v j) (v k) = 0) /\
    (forall j k, (j <= k < 3)%nat -> l k <= l j) /\
    (forall k, (k < 3)%nat -> dot 3 (v k) (v k) = l k + 1 / 10000000000000000).
Proof. exact axes_spec. Qed.
Print Assumptions segments_are_axes.

(** Points of the ellipsoid have a definite level, so the segments do not reach the drawn surface unless [n_std = 1] (or -1):
    the same [e] cannot lie on two ellipsoids of a symmetric positive semidefinite matrix. *)
Theorem ellipsoid_level_unique : forall C m m' e, symmetric 3 C -> psd 3 C -> on_ellipsoid C m e -> on_ellipsoid C m' e -> m ^ 2 = m' ^ 2.
Proof.
  intros C m m' e SY P (y & Y1 & Y2) (z & Z1 & Z2). rewrite <- Y2, <- Z2.
  set (eps := / 10000000000000000). assert (E0 : 0 < eps) by (unfold eps; lra).
  set (w := fun i => y i - z i).
  assert (W : forall i, (i < 3)%nat -> mv 3 C w i + eps * w i = 0).
  { intros i Hi. pose proof (Y1 i Hi) as A. pose proof (Z1 i Hi) as B. unfold w, mv in *. rewrite dot_minus_r. unfold eps. unfold Rdiv in *. lra. }
  assert (Q : quad 3 C w + eps * dot 3 w w = 0).
  { rewrite quad_mv. rewrite <- dot_scale_r, <- dot_plus_r. unfold dot. apply sumn_0. intros i Hi. rewrite W by exact Hi. ring. }
  assert (N : dot 3 w w = 0). { pose proof (P w). pose proof (dot_self_nonneg 3 w). nra. }
  pose proof (dot_self_zero 3 w N) as Z. apply dot_ext; [auto|]. intros i Hi. specialize (Z i Hi). unfold w in Z. lra.
Qed.
Print Assumptions ellipsoid_level_unique.
Theorem segments_miss_surface_refuted : forall eigh argsort mean cov n_std, exact_eigen eigh -> sorts Rle 0 argsort -> psd 3 cov -> symmetric 3 cov -> 1 < n_std ->
  exists ax, principal_axes eigh argsort mean cov = Ok ax /\
    forall k, (k < 3)%nat -> ~ on_ellipsoid (symmetrise cov) n_std (fun a => snd (ax k) a - mean a).
Proof.
  intros eigh argsort mean cov m E SA P SY H. destruct (axes_spec eigh argsort mean cov E SA P) as (ax & v & l & Ea & A1 & A2 & _). exists ax. split; [exact Ea|].
  intros k Hk O. assert (Q : m ^ 2 = 1 ^ 2).
  { apply (ellipsoid_level_unique (symmetrise cov) m 1 (v k)); [apply sym_symmetrise|apply psd_symmetrise, P| |apply A2, Hk].
    eapply on_ellipsoid_ext; [|exact O]. intros a _. cbv beta. rewrite (proj2 (A1 k a)). ring. }
  nra.
Qed.
Print Assumptions segments_miss_surface_refuted.

Example ellipsoid_case : psd 3 (fun i j => delta i j) /\ symmetric 3 (fun i j => delta i j).
Proof. split; [|intros i j _ _; apply delta_sym]. intros x. unfold quad, delta. rewrite !sumn3. cbn. nra. Qed.

(** * C147 *)
(** At most [max_points] scenarios are shown: all of them if they fit; else exactly [max_points] different rows in order, the
    first always and (for two or more points) the last included; a negative limit raises ValueError. *)
Theorem rows_shown : forall T max_points,
  ((Z.of_nat T <= max_points)%Z -> shown_rows T max_points = Ok (seq 0 T)) /\
  ((0 <= max_points < Z.of_nat T)%Z -> exists idx, shown_rows T max_points = Ok idx /\ Z.of_nat (List.length idx) = max_points /\ spread_rows T idx) /\
  ((max_points < 0)%Z -> (max_points < Z.of_nat T)%Z -> shown_rows T max_points = Err ValueError).
Proof. exact shown_rows_spec. Qed.
Print Assumptions rows_shown.

(** The whole figure: every panel reads as the combinations of assets [direction V a] of its own moments, with one [V] for both
    panels; no point of a surface is further from the mean than the requested number of standard deviations. *)
Theorem figure_shows : forall eigh argsort n mean r c cov scen unc n_std unc_std max_points main second sh,
  exact_eigen eigh -> sorts Rle 0 argsort -> psd n cov -> (forall r' c' U, unc = Some (r', c', U) -> psd n U) ->
  plot_assumptions_3d eigh argsort n mean r c cov scen unc n_std unc_std max_points = Ok (main, second, sh) ->
  exists V,
    (forall a, dot 3 (p3_mean main) a = dot n mean (direction V a)) /\
    (forall i j a, (dot 3 a (fun q => p3_mesh main i j q - p3_mean main q)) ^ 2 <= n_std ^ 2 * (quad n cov (direction V a) + 1 / 10000000000000000 * dot 3 a a)) /\
    match scen with
    | None => p3_scen main = None
    | Some (T, _, X) => exists idx Y, shown_rows T max_points = Ok idx /\ p3_scen main = Some (List.length idx, Y) /\
        forall t a, dot 3 (Y t) a = dot n (X (nth t idx 0%nat)) (direction V a)
    end /\
    match unc with
    | None => second = None
    | Some (_, _, U) => exists up, second = Some up /\ p3_scen up = None /\ (forall a, dot 3 (p3_mean up) a = dot n mean (direction V a)) /\
        forall i j a, (dot 3 a (fun q => p3_mesh up i j q - p3_mean up q)) ^ 2 <= unc_std ^ 2 * (quad n U (direction V a) + 1 / 10000000000000000 * dot 3 a a)
    end.
Proof.
  intros eigh argsort n mean r c cov scen unc m mu mp main second sh E SA P PU H. unfold plot_assumptions_3d in H.
  apply bind_ok in H as (sc & Es & H). apply bind_ok in H as (p & Ep & H). apply bind_ok in H as (sh' & _ & H). apply bind_ok in H as (mn & Em & H).
  assert (Panel : forall mean0 cov0 sc0 s0 pn, psd 3 cov0 -> draw_panel eigh argsort mean0 cov0 sc0 s0 = Ok pn -> p3_mean pn = mean0 /\ p3_scen pn = sc0 /\
     forall i j a, (dot 3 a (fun q => p3_mesh pn i j q - p3_mean pn q)) ^ 2 <= s0 ^ 2 * (quad 3 cov0 a + tiny * dot 3 a a)).
  { intros mean0 cov0 sc0 s0 pn PC Hd. destruct (draw_panel_spec eigh argsort mean0 cov0 sc0 s0 E SA PC) as (pn' & Hd' & D1 & D2 & (e & D3) & _). rewrite Hd in Hd'. injection Hd' as <-.
    split; [exact D1|]. split; [exact D2|]. intros i j a. destruct (D3 i j 0%nat) as (_ & _ & B). rewrite D1.
    replace (dot 3 a (fun q => p3_mesh pn i j q - mean0 q)) with (dot 3 a (e i j)); [apply B|]. apply dot_ext; [auto|]. intros q Hq. destruct (D3 i j q) as (-> & _). ring. }
  destruct (Panel _ _ _ _ _ (project_psd _ _ _ _ _ _ _ _ _ _ Ep P) Em) as (M1 & M2 & M3).
  assert (main = mn) as -> by (destruct unc as [[[r' c'] U]|]; [apply bind_ok in H as (q & _ & H); apply bind_ok in H as (up & _ & H)|]; injection H as <- _ _; reflexivity).
  exists (pj_comp p). split; [intros a; rewrite M1; eapply project_mean; exact Ep|]. split; [|split].
  - intros i j a. rewrite <- (project_cov _ _ _ _ _ _ _ _ _ _ a Ep). apply M3.
  - rewrite M2. destruct scen as [[[T k] X]|].
    + destruct (negb (Nat.eqb k n)); [discriminate|]. apply bind_ok in Es as (idx & Ei & Es). injection Es as <-.
      destruct (project_scen _ _ _ _ _ _ _ _ _ _ _ Ep) as (Y & EY & HY). exists idx, Y. split; [exact Ei|]. split; [exact EY|]. exact HY.
    + injection Es as <-. unfold project in Ep. destruct (negb _); [discriminate|]. destruct (negb _); [discriminate|]. cbv zeta in Ep. destruct (Nat.leb 3 n).
      * apply bind_ok in Ep as (V & _ & Ep). injection Ep as <-. reflexivity.
      * injection Ep as <-. reflexivity.
  - destruct unc as [[[r' c'] U]|].
    + apply bind_ok in H as (q & Eq & H). apply bind_ok in H as (up & Eu & H). injection H as <- <-.
      destruct (Panel _ _ _ _ _ (project_psd _ _ _ _ _ _ _ _ _ _ Eq (PU _ _ _ eq_refl)) Eu) as (U1 & U2 & U3).
      assert (CQ : forall a, direction (pj_comp q) a = direction (pj_comp p) a).
      { intros a. clear - Ep Eq. unfold project in Ep, Eq. destruct (negb (Nat.eqb r c)); [discriminate|]. destruct (negb (Nat.eqb r n)); [discriminate|].
        destruct (negb (Nat.eqb r' c')); [discriminate|]. destruct (negb (Nat.eqb r' n)); [discriminate|]. cbv zeta in Ep, Eq. destruct (Nat.leb 3 n).
        - apply bind_ok in Eq as (V & EV & Eq). injection EV as <-. injection Eq as <-. reflexivity.
        - injection Ep as <-. injection Eq as <-. reflexivity. }
      exists up. split; [reflexivity|]. split; [exact U2|]. split.
      * intros a. rewrite U1, (project_mean _ _ _ _ _ _ _ _ _ _ a Eq), CQ. reflexivity.
      * intros i j a. rewrite <- CQ, <- (project_cov _ _ _ _ _ _ _ _ _ _ a Eq). apply U3.
    + injection H as <- _. reflexivity.
Qed.
Print Assumptions figure_shows.

(** * C148 *)
(** The figure is drawn iff the shapes fit: a square covariance of the mean's size, scenarios with one column per asset (and a
    limit that is not negative unless they fit), an uncertainty covariance of the same size. *)
Theorem figure_accepts_exactly : forall eigh argsort n mean r c cov scen unc n_std unc_std max_points,
  exact_eigen eigh -> sorts Rle 0 argsort -> psd n cov -> (forall r' c' U, unc = Some (r', c', U) -> psd n U) ->
  (exists fig, plot_assumptions_3d eigh argsort n mean r c cov scen unc n_std unc_std max_points = Ok fig) <->
  r = n /\ c = n /\ (forall T k X, scen = Some (T, k, X) -> k = n /\ (0 <= max_points \/ Z.of_nat T <= max_points)%Z) /\
  (forall r' c' U, unc = Some (r', c', U) -> r' = n /\ c' = n).
Proof. exact figure_accepts. Qed.
Print Assumptions figure_accepts_exactly.

(** The percentages in the axis labels are between 0 and 1, decreasing and sum to at most 1... *)
Theorem labels_are_shares : forall eigh argsort n cov, exact_eigen eigh -> sorts Rle 0 argsort ->
  exists sh, shares eigh argsort n cov = Ok sh /\ (forall f, 0 <= sh f <= 1) /\ (forall f g, (f <= g)%nat -> sh g <= sh f) /\ sh 0%nat + sh 1%nat + sh 2%nat <= 1.
Proof. exact shares_spec. Qed.
Print Assumptions labels_are_shares.
(** ...and, for three or more assets and a symmetric covariance, each is the variance along its axis over the total variance. *)
Theorem labels_match_axes : forall eigh argsort n mean cov scen p sh, exact_eigen eigh -> reads_entries eigh -> sorts Rle 0 argsort -> (3 <= n)%nat ->
  symmetric n cov -> psd n cov -> 0 < sumn n (fun i => cov i i) ->
  project eigh argsort n mean n n cov scen None = Ok p -> shares eigh argsort n cov = Ok sh ->
  forall f, (f < 3)%nat -> sh f = pj_cov p f f / sumn n (fun i => cov i i).
Proof. exact shares_match. Qed.
Print Assumptions labels_match_axes.

(** With two assets the axes are the assets, but the labels are the shares of principal components: an asset with a quarter of
    the variance is labelled 75%. *)
Definition two : mat := fun i j => if Nat.eqb i j then (if Nat.eqb i 0 then 1 else 3) else 0.
Theorem labels_two_assets_refuted : forall eigh argsort mean, exact_eigen eigh -> sorts Rle 0 argsort ->
  exists p sh, project eigh argsort 2 mean 2 2 two None None = Ok p /\ shares eigh argsort 2 two = Ok sh /\
    pj_cov p 0%nat 0%nat / sumn 2 (fun i => two i i) = 1 / 4 /\ sh 0%nat = 3 / 4.
Proof.
  intros eigh argsort mean E SA. destruct (proj2 (project_ok eigh argsort 2 mean 2 2 two None None E) (conj eq_refl eq_refl)) as (p & Ep).
  unfold shares. destruct (E 2%nat _ (lower_sym 2 two)) as (d & Q & EQ & D). rewrite EQ. set (e := fun k => Rmax (d k) 0).
  exists p. eexists. split; [exact Ep|]. split; [reflexivity|]. split.
  - unfold project in Ep. cbn in Ep. injection Ep as <-. cbn. unfold symmetrise, two. cbn. lra.
  - change (map (fun k => Rmax (d k) 0) (seq 0 2)) with (map e (seq 0 2)). destruct (order_descending argsort 2 e SA) as [P S0]. set (order := rev (argsort (map e (seq 0 2)))) in *.
    cbn [Nat.ltb Nat.leb].
    assert (PS : psd 2 (lower_triangle two)). { intros x. unfold quad, lower_triangle, two. cbn. nra. }
    assert (DP : forall k, (k < 2)%nat -> Rmax (d k) 0 = d k) by (intros k Hk; apply Rmax_left; apply (eig_psd 2 _ d Q D k PS Hk)).
    assert (L0 : (nth 0 order 0 < 2)%nat) by (apply (perm_nth_lt 2); [exact P|lia]).
    assert (TT : sumn 2 (fun k => Rmax (d (nth k order 0%nat)) 0) = 4).
    { transitivity (sumn 2 (fun k => d (nth k order 0%nat))); [apply sumn_ext; intros k Hk; apply DP, (perm_nth_lt 2); assumption|].
      rewrite (sumn_perm 2 order d P), <- (eig_trace 2 _ d Q D). unfold lower_triangle, two. cbn. lra. }
    rewrite TT. replace (Rltb 0 4) with true by (symmetry; apply Rltb_true; lra). rewrite DP by exact L0. unfold Rdiv. apply Rmult_eq_compat_r.
    apply Rle_antisym.
    + (* an eigenvalue is at most 3 *)
      pose proof (eig_form 2 _ d Q D _ _ L0 L0) as F. rewrite delta_refl, Rmult_1_l in F. destruct D as [D1 _]. specialize (D1 _ _ L0 L0). rewrite delta_refl in D1.
      unfold lower_triangle, two in F. cbn in F, D1. nra.
    + pose proof (eig_quad 2 _ d Q D (delta 1%nat)) as F. pose proof (eig_norm 2 _ d Q D (delta 1%nat)) as G.
      assert (Q3 : quad 2 (lower_triangle two) (delta 1%nat) = 3) by (unfold quad, lower_triangle, two, delta; cbn; lra). rewrite Q3 in F.
      assert (N1 : dot 2 (delta 1%nat) (delta 1%nat) = 1) by (rewrite (dot_delta_l 2 1%nat) by lia; apply delta_refl). rewrite N1 in G.
      rewrite F. replace (d (nth 0 order 0%nat)) with (d (nth 0 order 0%nat) * sumn 2 (fun k => dot 2 (fun i => Q i k) (delta 1%nat) * dot 2 (fun i => Q i k) (delta 1%nat))) by (rewrite <- G; ring).
      rewrite <- sumn_scale. apply sumn_le. intros k Hk. apply Rmult_le_compat_r; [apply Rle_0_sqr|].
      assert (exists r, (r < 2)%nat /\ nth r order 0%nat = k) as (r & Hr & Er).
      { assert (In k order) as HI by (apply (Permutation_in _ (Permutation_sym P)); apply in_seq; lia). apply (In_nth _ _ 0%nat) in HI as (r & Hr & Er). rewrite (Permutation_length P), seq_length in Hr. eauto. }
      rewrite <- Er. pose proof (S0 0%nat r ltac:(lia) Hr) as SS. unfold e in SS. rewrite !DP in SS; [exact SS|exact L0|rewrite Er; exact Hk].
Qed.
Print Assumptions labels_two_assets_refuted.
