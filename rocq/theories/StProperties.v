(** Stress tests, performance reports, scenario P&L, horizon reports and drawdowns. *)
From Coq Require Import Permutation Sorted.
From Verif Require Import RBase QpBase SortLib OptModel ConsModel DistModel ProbRModel ProbRSpec RiskModel RiskSpec MomSpec BlModel EpModel EpSpec EpProofs5 FvProofs4 FvProofs6 ProjModel ProjSpec ProjProofs ProjProofs2 StModel FvSpec FvProofs7 StSpec StProofs StProofs2 StProofs3 StProofs4 StProofs5 StProofs6 StProofs7 StProofs8 StProofs9.
From Verif Require FrProperties RiskProperties ExistProperties FvProperties.
Open Scope R_scope.
Open Scope list_scope.

(** ** What a stress test reports *)
Theorem stress_measures : forall argsort w sc p pst tr conf dm o, sorts Rle 0 argsort -> frame_ok sc -> clean p -> clean pst ->
  stress_test argsort w sc p pst tr conf dm = Ok o ->
  so_names o = names_of w /\
  exists q, in_force p (sc_T sc) q /\ prob_vector q (sc_T sc) /\ measures_book (so_nom o) w sc (sc_X sc) q conf dm /\
  (pst = None -> tr = None -> so_stress o = None /\ so_kl o = None) /\
  (pst <> None \/ tr <> None -> exists X qs st, so_stress o = Some st /\
     match tr with Some f => gives f sc X | None => X = sc_X sc end /\
     match pst with Some _ => in_force pst (sc_T sc) qs /\ so_kl o = Some (kl_divergence qs q) | None => qs = q /\ so_kl o = None end /\
     prob_vector qs (sc_T sc) /\ measures_book st w sc X qs conf dm).
Proof. exact stress_reports_l. Qed.
Print Assumptions stress_measures.

(** The measures of a P&L under given probabilities are unique, so the table is determined. *)
Theorem stress_measures_unique : forall p x conf dm m s v c m' s' v' c', prob_vector p (List.length x) -> 0 < conf < 1 ->
  measured p x conf dm m s v c -> measured p x conf dm m' s' v' c' -> m = m' /\ s = s' /\ v = v' /\ c = c'.
Proof.
  intros p x conf dm m s v c m' s' v' c' P C H H'.
  assert (E : map (fun y => 1 * y + 0) x = x) by (rewrite <- (map_id x) at 2; apply map_ext; intros; ring).
  rewrite <- E in H'. destruct (measured_affine p x conf dm 1 0 m s v c m' s' v' c' P C ltac:(lra) H H') as (-> & -> & -> & ->).
  destruct dm as [|[|]|]; repeat split; ring.
Qed.
Print Assumptions stress_measures_unique.

(** The columns of the table. *)
Theorem stress_columns : forall argsort w sc p pst tr conf dm o, frame_ok sc -> stress_test argsort w sc p pst tr conf dm = Ok o ->
  let c := dec_Z (py_round (conf * 100)) in
  let names s := [("return_" ++ s)%string; ("stdev_" ++ s)%string; ("VaR" ++ c ++ "_" ++ s)%string; ("CVaR" ++ c ++ "_" ++ s)%string; ("ENS_" ++ s)%string] in
  map fst (columns o) = names "nom"%string ++ (if is_some pst || is_some tr then names "stress"%string else []) ++ (if is_some pst then ["KL_q_p"%string] else []) /\
  (forall k v, In (k, v) (columns o) -> List.length v = List.length (names_of w)) /\ so_named o = is_some (labels_of w).
Proof.
  intros argsort w sc p pst tr conf dm o F H c names. destruct (stress_layout_l _ _ _ _ _ _ _ _ _ F H) as (E1 & E2 & E3 & E4).
  destruct (stress_inv _ _ _ _ _ _ _ _ _ F H) as (Hc & _ & _ & pn & _ & A & B).
  assert (L : forall X q, let m := metrics_core argsort (sc_T sc) (width w) (book w (sc_cols sc) (sc_N sc) X) q conf dm in
    List.length (m_mean m) = width w /\ List.length (m_sd m) = width w /\ List.length (m_var m) = width w /\ List.length (m_cvar m) = width w).
  { intros X q. cbn. rewrite !map_length, seq_length. auto. }
  assert (K : forall s z X q k v, In (k, v) (metric_columns s z (width w) (metrics_core argsort (sc_T sc) (width w) (book w (sc_cols sc) (sc_N sc) X) q conf dm)) -> List.length v = width w).
  { intros s z X q k v Hin. destruct (L X q) as (L1 & L2 & L3 & L4). unfold metric_columns in Hin. cbn [In] in Hin.
    destruct Hin as [E|[E|[E|[E|[E|[]]]]]]; apply (f_equal snd) in E; cbn [snd] in E; subst v; auto. apply repeat_length. }
  change (List.length (names_of w)) with (width w) in *.
  destruct pst as [ps|], tr as [f|]; cbn [is_some orb];
    try (destruct (B ltac:(first [left; discriminate | right; discriminate])) as (X & qs & _ & _ & Eo));
    try (pose proof (A eq_refl eq_refl) as Eo);
    (split; [rewrite Eo; unfold columns, out_of; cbn; reflexivity|split; [|exact E1]]);
    intros k v Hin; unfold columns in Hin; rewrite E3 in Hin; apply in_app_or in Hin as [Hin|Hin];
    try (rewrite Eo in Hin; unfold out_of in Hin; cbn [so_nom so_pct] in Hin; eapply K; exact Hin);
    rewrite Eo in Hin; unfold out_of in Hin; cbn [so_stress so_kl so_suffix so_pct is_some] in Hin; apply in_app_or in Hin as [Hin|Hin];
    try (eapply K; exact Hin); try (destruct Hin; fail);
    (destruct Hin as [E|[]]; apply (f_equal snd) in E; cbn [snd] in E; subst v; apply repeat_length).
Qed.
Print Assumptions stress_columns.

(** ** Requests *)
Theorem stress_accepts : forall argsort w sc p pst tr conf dm, frame_ok sc ->
  (exists o, stress_test argsort w sc p pst tr conf dm = Ok o) <->
  (0 < conf < 1 /\ dm <> DOther /\ fits w sc /\ usable p (sc_T sc) /\ (pst <> None -> usable pst (sc_T sc)) /\
   (forall f, tr = Some f -> exists Y, gives f sc Y)).
Proof. exact stress_accepts_l. Qed.
Print Assumptions stress_accepts.

(** Failures are ValueError, the transform's own error, or TypeError on mismatched labels. *)
Theorem stress_errors : forall argsort w sc p pst tr conf dm e, frame_ok sc ->
  stress_test argsort w sc p pst tr conf dm = Err e ->
  e = ValueError \/
  (e = TypeError /\ exists c idx, sc_cols sc = Some c /\ labels_of w = Some idx /\ ~ labels_match w (sc_cols sc)) \/
  (exists f, tr = Some f /\ f (sc_T sc) (sc_N sc) (sc_X sc) = Err e).
Proof. exact stress_errors_l. Qed.
Print Assumptions stress_errors.

(** Mismatched labels do not always raise ValueError: missing labels of two types cannot be sorted. *)
Theorem stress_mismatch_value_error_refuted : ~ (forall argsort w sc c idx e, frame_ok sc -> sc_cols sc = Some c -> labels_of w = Some idx ->
  stress_test argsort w sc None None None (95/100) DNone = Err e -> e = ValueError).
Proof.
  intros H. specialize (H (argsort_by Rleb 0) (WtSeries [LStr "a"] None (fun _ => 1)) (Scen (Some [LStr "b"; LInt 1]) 1 2 (fun _ _ => 0)) [LStr "b"; LInt 1] [LStr "a"] TypeError).
  assert (E : TypeError = ValueError); [|discriminate].
  apply H; try reflexivity.
  - intros c E. injection E as <-. reflexivity.
  - unfold stress_test. cbn [sc_T sc_N sc_cols sc_X]. rewrite (proj2 (Rltb_true 0 (95/100))), (proj2 (Rltb_true (95/100) 1)) by lra. reflexivity.
Qed.
Print Assumptions stress_mismatch_value_error_refuted.

(** ** Labels *)
(** Weights are matched by label: listing the same labelled positions and the same labelled scenario columns in another
    order gives the same table, or the same error. *)
Theorem stress_label_order : forall argsort w w' sc sc' p pst conf dm, same_book w w' -> same_columns sc sc' ->
  stress_test argsort w sc p pst None conf dm = stress_test argsort w' sc' p pst None conf dm.
Proof. exact stress_order_l. Qed.
Print Assumptions stress_label_order.
Example label_order_case :
  let w := WtSeries [LStr "A"; LStr "B"] None (fun i => match i with O => 1 | _ => 2 end) in
  let w' := WtSeries [LStr "B"; LStr "A"] None (fun i => match i with O => 2 | _ => 1 end) in
  let sc := Scen (Some [LStr "A"; LStr "B"]) 2 2 (fun t i => INR t + 10 * INR i) in
  let sc' := Scen (Some [LStr "B"; LStr "A"]) 2 2 (fun t i => INR t + 10 * INR (1 - i)) in
  same_book w w' /\ same_columns sc sc'.
Proof.
  assert (N : NoDup [LStr "A"; LStr "B"]) by (repeat constructor; cbn; intuition discriminate).
  assert (N' : NoDup [LStr "B"; LStr "A"]) by (repeat constructor; cbn; intuition discriminate).
  cbv zeta. split.
  - split; [split; [exact N|split; [exact N'|cbn; intuition]]|]. split; [reflexivity|]. intros l m x _. unfold at_label. cbn [labels_of wentry]. split.
    + intros (idx & k & E & K & ->). injection E as <-. destruct k as [|[|k]]; cbn in K; try (destruct k; discriminate); injection K as <-; eexists; [exists 1%nat|exists 0%nat]; split; auto.
    + intros (idx & k & E & K & ->). injection E as <-. destruct k as [|[|k]]; cbn in K; try (destruct k; discriminate); injection K as <-; eexists; [exists 1%nat|exists 0%nat]; split; auto.
  - split; [reflexivity|]. split; [intros c E; injection E as <-; reflexivity|]. split; [intros c E; injection E as <-; reflexivity|].
    split; [split; [exact N|split; [exact N'|cbn; intuition]]|]. intros l t x _. unfold at_column. cbn [sc_cols sc_X]. split.
    + intros (c & k & E & K & ->). injection E as <-. destruct k as [|[|k]]; cbn in K; try (destruct k; discriminate); injection K as <-; eexists; [exists 1%nat|exists 0%nat]; split; auto.
    + intros (c & k & E & K & ->). injection E as <-. destruct k as [|[|k]]; cbn in K; try (destruct k; discriminate); injection K as <-; eexists; [exists 1%nat|exists 0%nat]; split; auto.
Qed.

(** Repeated weight labels are accepted and all but the first dropped. *)
Theorem stress_all_weights_used_refuted : forall argsort v o,
  let w := fun b => WtSeries [LStr "A"; LStr "A"] None (fun i => match i with O => v | _ => b end) in
  let sc := Scen (Some [LStr "A"]) 1 1 (fun _ _ => 1) in
  stress_test argsort (w 0) sc None None None (95/100) DNone = Ok o ->
  forall b, stress_test argsort (w b) sc None None None (95/100) DNone = Ok o.
Proof.
  intros argsort v o w sc H b. rewrite <- H. unfold stress_test, align_weights, w, sc, metrics_of. cbn [sc_cols sc_T sc_N sc_X raw_weights bind]. reflexivity.
Qed.
Print Assumptions stress_all_weights_used_refuted.
Example duplicate_labels_accepted : exists o, stress_test (argsort_by Rleb 0)
  (WtSeries [LStr "A"; LStr "A"] None (fun i => match i with O => 1 | _ => 5 end)) (Scen (Some [LStr "A"]) 1 1 (fun _ _ => 1)) None None None (95/100) DNone = Ok o.
Proof.
  apply stress_accepts_l; [intros c E; injection E as <-; reflexivity|]. split; [lra|]. split; [discriminate|].
  split; [split; [discriminate|split; [cbn; intuition|exact I]]|]. split; [discriminate|]. split; [congruence|discriminate].
Qed.

(** ** Relative entropy *)
(** Up to 1e-16 per scenario the reported divergence is non-negative; with nominal probabilities of at least 1e-16 it is
    non-negative, zero exactly when the probabilities agree, and the exact relative entropy when the stressed ones are at
    least 1e-16 too. *)
Theorem stress_divergence : forall argsort w sc p pst tr conf dm o d, frame_ok sc -> clean p -> clean (Some pst) ->
  stress_test argsort w sc p (Some pst) tr conf dm = Ok o -> so_kl o = Some d ->
  exists q qs, in_force p (sc_T sc) q /\ in_force (Some pst) (sc_T sc) qs /\
    - (INR (sc_T sc) / 10 ^ 16) <= d <= (1 + INR (sc_T sc) / 10 ^ 16) * ln (10 ^ 16) /\
    ((forall x, In x q -> / 10 ^ 16 <= x) -> 0 <= d /\ (d = 0 <-> qs = q) /\
       ((forall x, In x qs -> / 10 ^ 16 <= x) -> d = rel_entropy qs q)).
Proof. exact stress_kl_sign_l. Qed.
Print Assumptions stress_divergence.

(** Same probabilities: the stressed half is the nominal half and the divergence is zero. *)
Theorem stress_no_change : forall argsort w sc p conf dm o, frame_ok sc -> stress_test argsort w sc (Some p) (Some p) None conf dm = Ok o ->
  so_stress o = Some (so_nom o) /\ so_kl o = Some 0.
Proof. exact stress_null_l. Qed.
Print Assumptions stress_no_change.

(** A divergence that should be infinite (the stressed distribution leaves the support of the nominal one) is reported as a
    finite number. *)
Theorem stress_divergence_support_refuted : forall argsort o,
  stress_test argsort (WtVec 1 (fun _ => 1)) (Scen None 2 1 (fun _ _ => 0)) (Some [1; 0]) (Some [0; 1]) None (95/100) DNone = Ok o ->
  exists d, so_kl o = Some d /\ d <= 2 * ln (10 ^ 16).
Proof.
  intros argsort o H. assert (F : frame_ok (Scen None 2 1 (fun _ _ => 0))) by (intros c E; discriminate E).
  assert (C : forall a b, a + b = 1 -> clean (Some [a; b])). { intros a b E l El. injection El as <-. left. unfold rsum. cbn [fold_right]. lra. }
  destruct (stress_inv _ _ _ _ _ _ _ _ _ F H) as (_ & _ & _ & pn & _ & _ & B). destruct (B ltac:(left; discriminate)) as (X & ps & _ & _ & Eo).
  assert (EK : so_kl o = Some (kl_divergence ps pn)) by (rewrite Eo; reflexivity).
  destruct (stress_kl_sign_l _ _ _ _ _ _ _ _ _ _ F (C 1 0 ltac:(lra)) (C 0 1 ltac:(lra)) H EK) as (q & qs & _ & _ & [_ U] & _).
  exists (kl_divergence ps pn). split; auto. eapply Rle_trans; [exact U|]. apply Rmult_le_compat_r.
  - rewrite <- ln_1. left. apply ln_increasing; [lra|]. simpl. lra.
  - cbn [sc_T]. simpl. lra.
Qed.
Print Assumptions stress_divergence_support_refuted.
Example divergence_support_case : exists o, stress_test (argsort_by Rleb 0) (WtVec 1 (fun _ => 1)) (Scen None 2 1 (fun _ _ => 0)) (Some [1; 0]) (Some [0; 1]) None (95/100) DNone = Ok o.
Proof.
  assert (U : forall a b, 0 <= a -> 0 <= b -> a + b = 1 -> usable (Some [a; b]) 2).
  { intros a b A B E. split; [reflexivity|]. split; [intros x [<-|[<-|[]]]; auto|]. unfold rsum. cbn [fold_right]. lra. }
  apply stress_accepts_l; [intros c E; discriminate E|]. split; [lra|]. split; [discriminate|]. split; [split; [discriminate|split; [exact I|reflexivity]]|].
  split; [apply U; lra|]. split; [intros _; apply U; lra|intros f E; discriminate E].
Qed.

(** Totals within 1.001e-5 of one are left alone, and then the divergence can be clearly negative. *)
Theorem stress_divergence_nonnegative_refuted : forall argsort o,
  stress_test argsort (WtVec 1 (fun _ => 1)) (Scen None 1 1 (fun _ _ => 0)) (Some [1 + 1 / 100000]) (Some [1]) None (95/100) DNone = Ok o ->
  exists d, so_kl o = Some d /\ d < 0.
Proof.
  intros argsort o H. assert (F : frame_ok (Scen None 1 1 (fun _ _ => 0))) by (intros c E; discriminate E).
  destruct (stress_inv _ _ _ _ _ _ _ _ _ F H) as (_ & _ & _ & pn & E1 & _ & B). destruct (B ltac:(left; discriminate)) as (X & ps & _ & E2 & Eo).
  exists (kl_divergence ps pn). split; [rewrite Eo; reflexivity|].
  assert (R : forall x T, 0 <= x -> risclose x 1 = true -> 0 < x -> resolve_probs (Some [x]) 1 = Ok T -> T = [x]).
  { intros x T Hx Hr Hp Er. unfold resolve_probs in Er. apply bind_ok in Er as (q & Eq & Er). apply guard_ok in Er as [_ Er]. injection Er as <-.
    apply normalize_ok in Eq as (_ & _ & _ & ->). replace (rsum [x]) with x by (unfold rsum; cbn [fold_right]; ring). rewrite Hr. reflexivity. }
  cbn [sc_T] in *.
  apply R in E1; [|lra|apply risclose1; rewrite Rabs_pos_eq; lra|lra]. apply R in E2; [|lra|apply risclose1; rewrite Rabs_pos_eq; lra|lra]. subst pn ps.
  unfold kl_divergence. cbn [map2]. unfold rsum. cbn [fold_right]. assert (K : kl_eps < 1) by apply eps_lt1.
  rewrite !Rmax_left by lra. rewrite Rplus_0_r, Rmult_1_l. rewrite <- ln_1. apply ln_increasing.
  - apply Rdiv_lt_0_compat; lra.
  - apply (Rmult_lt_reg_r (1 + 1 / 100000)); [lra|]. unfold Rdiv at 1. rewrite Rmult_assoc, Rinv_l by lra. lra.
Qed.
Print Assumptions stress_divergence_nonnegative_refuted.
Example divergence_negative_case : exists o, stress_test (argsort_by Rleb 0) (WtVec 1 (fun _ => 1)) (Scen None 1 1 (fun _ _ => 0)) (Some [1 + 1 / 100000]) (Some [1]) None (95/100) DNone = Ok o.
Proof.
  assert (U : forall a, 0 < a -> usable (Some [a]) 1).
  { intros a A. split; [reflexivity|]. split; [intros x [<-|[]]; lra|]. unfold rsum. cbn [fold_right]. lra. }
  apply stress_accepts_l; [intros c E; discriminate E|]. split; [lra|]. split; [discriminate|]. split; [split; [discriminate|split; [exact I|reflexivity]]|].
  split; [apply U; lra|]. split; [intros _; apply U; lra|intros f E; discriminate E].
Qed.

(** ** Linear maps *)
(** [linear_map] without a matrix scales the scenarios and then adds the shift. *)
Theorem linear_map_means : forall sh s sc Y, (sh <> ShOther /\ (forall n b, sh = ShVec n b -> n = sc_N sc)) ->
  (gives (linear_map sh s None) sc Y <-> forall t i, (t < sc_T sc)%nat -> (i < sc_N sc)%nat -> Y t i = scale_of s * sc_X sc t i + shift_vec sh i).
Proof.
  intros sh s sc Y [H1 H2]. split.
  - intros G t i Ht Hi. destruct (linear_gives _ _ _ _ G) as (_ & _ & E). rewrite E by auto. ring.
  - intros E. destruct (linear_accepts sh s sc H1 H2) as (Z & EZ & HZ). exists Z. split; auto. intros t i Ht Hi. rewrite HZ by auto. rewrite E by auto. f_equal. ring.
Qed.
Print Assumptions linear_map_means.

(** A positive scale [a] and shift [b] turn the mean into [a mean + b], the volatility into [a sd], and VaR and CVaR into
    [a risk - b] ([a risk] when demeaned), where [b] is the shift of the portfolio. *)
Theorem linear_map_effect : forall argsort w sc p sh s conf dm o, sorts Rle 0 argsort -> frame_ok sc -> clean p -> 0 < scale_of s ->
  stress_test argsort w sc p None (Some (linear_map sh s None)) conf dm = Ok o ->
  exists st, so_stress o = Some st /\ so_kl o = None /\ m_ens st = m_ens (so_nom o) /\
  forall j, (j < List.length (names_of w))%nat -> exists h : vec, (forall i, (i < sc_N sc)%nat -> holding w (sc_cols sc) i j (h i)) /\
    let b := sumn (sc_N sc) (fun i => shift_vec sh i * h i) in
    let b' := match dm with DBool true => 0 | _ => b end in
    nth j (m_mean st) 0 = scale_of s * nth j (m_mean (so_nom o)) 0 + b /\
    nth j (m_sd st) 0 = scale_of s * nth j (m_sd (so_nom o)) 0 /\
    nth j (m_var st) 0 = scale_of s * nth j (m_var (so_nom o)) 0 - b' /\
    nth j (m_cvar st) 0 = scale_of s * nth j (m_cvar (so_nom o)) 0 - b'.
Proof. exact linear_effect_l. Qed.
Print Assumptions linear_map_effect.

(** A matrix stresses the portfolio [W] like the nominal portfolio [B^T W]. *)
Theorem linear_map_matrix : forall argsort n m W sc p B conf dm o, frame_ok sc -> sc_cols sc = None ->
  stress_test argsort (WtMat n m W) sc p None (Some (linear_map ShNone None (Some (n, n, B)))) conf dm = Ok o ->
  exists o', stress_test argsort (WtMat n m (fun i j => sumn n (fun k => B k i * W k j))) sc p None None conf dm = Ok o' /\
  so_stress o = Some (so_nom o').
Proof. exact matrix_effect_l. Qed.
Print Assumptions linear_map_matrix.
Example linear_map_case : exists o, stress_test (argsort_by Rleb 0) (WtMat 2 1 (fun _ _ => 1/2)) (Scen None 2 2 (fun t i => INR t - INR i)) None None
  (Some (linear_map (ShVec 2 (fun _ => -1/10)) (Some 2) None)) (95/100) (DBool true) = Ok o.
Proof.
  apply stress_accepts_l; [intros c E; discriminate E|]. split; [lra|]. split; [discriminate|]. split; [split; [discriminate|split; [exact I|reflexivity]]|].
  split; [discriminate|]. split; [congruence|]. intros f E. injection E as <-. eexists. apply linear_accepts; [discriminate|]. intros n b E. injection E as <- _. reflexivity.
Qed.

(** ** Ready-made stresses *)
Theorem decay_stress : forall argsort w sc p hl conf dm o, sorts Rle 0 argsort -> frame_ok sc -> clean p ->
  exp_decay_stress argsort w sc p hl conf dm = Ok o ->
  exists q qs st, in_force p (sc_T sc) q /\ measures_book (so_nom o) w sc (sc_X sc) q conf dm /\
    List.length qs = sc_T sc /\ positive_distribution qs /\ (forall i j, (i <= j < sc_T sc)%nat -> nth i qs 0 = nth j qs 0 * Rpower 2 (- (INR (j - i) / hl))) /\
    so_stress o = Some st /\ measures_book st w sc (sc_X sc) qs conf dm /\ so_kl o = Some (kl_divergence qs q).
Proof. exact exp_decay_stress_l. Qed.
Print Assumptions decay_stress.
Theorem decay_stress_accepts : forall argsort w sc p hl conf dm, frame_ok sc ->
  ((exists o, exp_decay_stress argsort w sc p hl conf dm = Ok o) <-> (0 < hl /\ 0 < conf < 1 /\ dm <> DOther /\ fits w sc /\ usable p (sc_T sc))).
Proof. exact decay_accepts_l. Qed.
Print Assumptions decay_stress_accepts.
Theorem kernel_stress : forall argsort w sc focus p bw tg conf dm o, sorts Rle 0 argsort -> frame_ok sc -> clean p ->
  kernel_focus_stress argsort w sc focus p bw tg conf dm = Ok o ->
  List.length focus = sc_T sc /\
  exists q qs st, in_force p (sc_T sc) q /\ measures_book (so_nom o) w sc (sc_X sc) q conf dm /\
    List.length qs = sc_T sc /\ positive_distribution qs /\
    (let t := match tg with Some t => t | None => last focus 0 end in
     forall i j, (i < sc_T sc)%nat -> (j < sc_T sc)%nat -> Rabs (nth i focus 0 - t) <= Rabs (nth j focus 0 - t) -> nth j qs 0 <= nth i qs 0) /\
    so_stress o = Some st /\ measures_book st w sc (sc_X sc) qs conf dm /\ so_kl o = Some (kl_divergence qs q).
Proof. exact kernel_stress_l. Qed.
Print Assumptions kernel_stress.
(** Stressing with an entropy-pooling posterior reports the smallest divergence any distribution obeying the views has. *)
Theorem pooling_stress : forall argsort w sc minimize l A G method q conf dm o, frame_ok sc -> sound minimize -> has_ones (List.length l) A ->
  entropy_pooling minimize l A G method = Ok q -> rsum l = 1 ->
  (forall x, In x l -> / 10 ^ 16 <= x) -> (forall s, (s < List.length l)%nat -> / 10 ^ 16 <= q s) ->
  entropy_pooling_stress argsort w sc (map q (seq 0 (List.length l))) (Some l) conf dm = Ok o ->
  exists d, so_kl o = Some d /\ d = kl (List.length l) q (of_list l) /\ obeys (List.length l) A (opt_rows G) q /\
    forall q', obeys (List.length l) A (opt_rows G) q' -> d <= kl (List.length l) q' (of_list l).
Proof. exact pooling_stress_l. Qed.
Print Assumptions pooling_stress.

(** ** Performance reports *)
Theorem performance_means : forall argsort w sc p conf dm r, sorts Rle 0 argsort -> frame_ok sc -> distinct_labels w -> clean p ->
  performance_report argsort w sc p conf dm = Ok r ->
  exists q x, in_force p (sc_T sc) q /\ prob_vector q (sc_T sc) /\ pnl_of w sc (sc_X sc) 0 x /\
    measured q x conf dm (rp_mean r) (rp_sd r) (rp_var r) (rp_cvar r) /\
    rp_ens r = exp (- rsum (map (fun a => if Rlt_dec 0 a then a * ln a else 0) q)) /\ rp_pct r = py_round (conf * 100).
Proof. exact performance_means_l. Qed.
Print Assumptions performance_means.
Theorem performance_accepts : forall argsort w sc p conf dm, frame_ok sc -> distinct_labels w ->
  (exists r, performance_report argsort w sc p conf dm = Ok r) <-> (0 < conf < 1 /\ dm <> DOther /\ usable p (sc_T sc) /\ single w /\ covers w sc).
Proof. exact performance_accepts_l. Qed.
Print Assumptions performance_accepts.
(** On one portfolio the report is the nominal half of the stress test. *)
Theorem performance_is_nominal_stress : forall argsort w sc p conf dm r o, frame_ok sc -> distinct_labels w ->
  performance_report argsort w sc p conf dm = Ok r -> stress_test argsort w sc p None None conf dm = Ok o ->
  so_nom o = Metrics [rp_mean r] [rp_sd r] [rp_var r] [rp_cvar r] (rp_ens r) /\ so_pct o = rp_pct r.
Proof. exact report_is_nominal_l. Qed.
Print Assumptions performance_is_nominal_stress.
Example performance_case : let w := WtSeries [LStr "B"; LStr "A"] None (fun i => match i with O => 1/4 | _ => 3/4 end) in
  let sc := Scen (Some [LStr "A"; LStr "B"]) 2 2 (fun t i => INR t - INR i) in
  distinct_labels w /\ (exists r, performance_report (argsort_by Rleb 0) w sc None (95/100) (DBool false) = Ok r) /\
  exists o, stress_test (argsort_by Rleb 0) w sc None None None (95/100) (DBool false) = Ok o.
Proof.
  cbv zeta. assert (D : distinct_labels (WtSeries [LStr "B"; LStr "A"] None (fun i => match i with O => 1/4 | _ => 3/4 end))).
  { intros idx E. injection E as <-. repeat constructor; cbn; intuition discriminate. }
  assert (F : frame_ok (Scen (Some [LStr "A"; LStr "B"]) 2 2 (fun t i => INR t - INR i))) by (intros c E; injection E as <-; reflexivity).
  split; auto. split.
  - apply performance_accepts_l; auto. split; [lra|]. split; [discriminate|]. split; [discriminate|]. split; [exact I|]. cbn. intuition.
  - apply stress_accepts_l; auto. split; [lra|]. split; [discriminate|]. split; [split; [discriminate|split; [cbn; intuition|exact I]]|]. split; [discriminate|]. split; [congruence|discriminate].
Qed.
(** The report ignores weights whose label is not a scenario column: the same call is refused by the stress test. *)
Theorem performance_uses_all_weights_refuted : forall argsort b, let w := WtSeries [LStr "A"; LStr "B"] None (fun i => match i with O => 1/4 | _ => b end) in
  let sc := Scen (Some [LStr "A"]) 1 1 (fun _ _ => 1) in
  (exists r, performance_report argsort w sc None (95/100) DNone = Ok r /\ rp_mean r = 1/4) /\
  stress_test argsort w sc None None None (95/100) DNone = Err ValueError.
Proof.
  intros argsort b w sc. assert (D : distinct_labels w) by (intros idx E; injection E as <-; repeat constructor; cbn; intuition discriminate).
  assert (F : frame_ok sc) by (intros c E; injection E as <-; reflexivity). split.
  - destruct (proj2 (performance_accepts_l argsort w sc None (95/100) DNone F D)) as (r & Hr).
    { split; [lra|]. split; [discriminate|]. split; [discriminate|]. split; [exact I|]. cbn. intuition. }
    exists r. split; auto. destruct (performance_inv _ _ _ _ _ _ _ Hr) as (Hc & _ & q & v & Eq & Ev & Er).
    assert (Hv := single_holding w sc 1 v F D Ev eq_refl 0%nat ltac:(cbn; lia)). unfold holding in Hv. cbn [sc_cols sc labels_of w] in Hv. destruct Hv as (l & k & E1 & E2 & E3).
    cbn in E1. injection E1 as <-. apply FvProofs.index_first in E2. cbn in E2. injection E2 as <-. cbn in E3.
    rewrite single_report_core in Er; [|eapply resolve_valid; eauto|auto]. cbv zeta in Er. injection Er as <-. cbn [rp_mean]. cbn in Eq. injection Eq as <-. cbn [sc sc_T sc_N sc_X seq map]. unfold dot, expect. cbn. rewrite E3. unfold rsum. cbn. lra.
  - unfold stress_test. rewrite (proj2 (Rltb_true 0 (95/100))), (proj2 (Rltb_true (95/100) 1)) by lra. reflexivity.
Qed.
Print Assumptions performance_uses_all_weights_refuted.
(** A mapping of weights, documented for every function of the module, is refused by [performance_report]. *)
Theorem performance_mapping_refuted : forall argsort d sc p conf dm r, performance_report argsort (WtMap d) sc p conf dm <> Ok r.
Proof.
  intros argsort d sc p conf dm r H. destruct (performance_inv _ _ _ _ _ _ _ H) as (_ & _ & q & v & _ & E & _). discriminate E.
Qed.
Print Assumptions performance_mapping_refuted.
(** The confidence in the column names is rounded to whole percents, halves to even: different levels share a name. *)
Theorem confidence_label_refuted : py_round (975 / 1000 * 100) = py_round (98 / 100 * 100) /\ py_round (999 / 1000 * 100) = 100%Z.
Proof.
  assert (R : forall x z, IZR z <= x < IZR z + 1 -> Int_part x = z).
  { intros x z H. destruct (base_Int_part x) as [B1 B2]. assert (Int_part x < z + 1)%Z by (apply lt_IZR; rewrite plus_IZR; lra). assert (z < Int_part x + 1)%Z by (apply lt_IZR; rewrite plus_IZR; lra). lia. }
  unfold py_round. rewrite (R (975/1000*100) 97%Z), (R (98/100*100) 98%Z), (R (999/1000*100) 99%Z) by lra.
  rewrite (proj2 (Rltb_false (975/1000*100 - 97) (1/2))) by lra. rewrite (proj2 (Rltb_false (1/2) (975/1000*100 - 97))) by lra.
  rewrite (proj2 (Rltb_true (98/100*100 - 98) (1/2))) by lra. rewrite (proj2 (Rltb_false (999/1000*100 - 99) (1/2))) by lra. rewrite (proj2 (Rltb_true (1/2) (999/1000*100 - 99))) by lra.
  split; reflexivity.
Qed.
Print Assumptions confidence_label_refuted.

(** ** Scenario P&L *)
Theorem scenario_pnl_means : forall w sc m names f, frame_ok sc -> distinct_labels w -> scenario_pnl_of w sc = Ok (m, names, f) ->
  m = List.length (names_of w) /\
  (covers w sc -> forall j, exists h : vec, (forall i, (i < sc_N sc)%nat -> holding w (sc_cols sc) i j (h i)) /\
     forall t, f t j = Some (sumn (sc_N sc) (fun i => sc_X sc t i * h i))) /\
  (~ covers w sc -> forall t j, f t j = None).
Proof. exact scenario_pnl_l. Qed.
Print Assumptions scenario_pnl_means.
Theorem scenario_pnl_accepts : forall w sc, frame_ok sc -> distinct_labels w ->
  (exists r, scenario_pnl_of w sc = Ok r) <->
  (w <> WtOther /\ match sc_cols sc, labels_of w with Some _, Some _ => True | _, _ => rows_in w = sc_N sc end).
Proof. exact scenario_pnl_accepts_l. Qed.
Print Assumptions scenario_pnl_accepts.
(** A scenario column without a weight is not an error: every P&L is NaN. *)
Theorem scenario_pnl_missing_label_refuted : exists w sc m names f, frame_ok sc /\ distinct_labels w /\ scenario_pnl_of w sc = Ok (m, names, f) /\ forall t j, f t j = None.
Proof.
  exists (WtSeries [LStr "A"] None (fun _ => 1)), (Scen (Some [LStr "A"; LStr "B"]) 1 2 (fun _ _ => 1)).
  assert (D : distinct_labels (WtSeries [LStr "A"] None (fun _ => 1))) by (intros idx E; injection E as <-; repeat constructor; cbn; intuition).
  assert (F : frame_ok (Scen (Some [LStr "A"; LStr "B"]) 1 2 (fun _ _ => 1))) by (intros c E; injection E as <-; reflexivity).
  destruct (proj2 (scenario_pnl_accepts_l _ _ F D)) as ([[m nm] f] & H); [split; [discriminate|exact I]|].
  exists m, nm, f. split; auto. split; auto. split; auto. apply (scenario_pnl_l _ _ _ _ _ F D H).
  intros C. cbn in C. specialize (C (LStr "B")). cbn in C. intuition discriminate.
Qed.
Print Assumptions scenario_pnl_missing_label_refuted.

(** ** Horizon reports *)
(** The table has one row per distinct horizon, computed by the last entry with that horizon; the labels tell horizons apart. *)
Theorem horizon_table : forall argsort rng fresh w kd X hs nsim p reprice conf seed rows,
  horizon_report argsort rng fresh w kd X hs nsim p reprice conf seed = Ok rows ->
  NoDup (map fst rows) /\
  forall k r, In (k, r) rows <-> exists i h, nth_error hs i = Some h /\ k = horizon_label h /\
     horizon_row argsort rng fresh w kd X nsim p reprice conf seed i h = Ok r /\ forall j, (i < j)%nat -> nth_error hs j <> Some h.
Proof. exact horizon_table_l. Qed.
Print Assumptions horizon_table.
Theorem horizon_labels_distinct : forall a b, horizon_label a = horizon_label b -> a = b.
Proof. exact horizon_label_inj. Qed.
Print Assumptions horizon_labels_distinct.
Theorem horizon_accepts : forall argsort rng fresh w kd X hs nsim p reprice conf seed,
  (exists rows, horizon_report argsort rng fresh w kd X hs nsim p reprice conf seed = Ok rows) <->
  forall i h, nth_error hs i = Some h -> exists r, horizon_row argsort rng fresh w kd X nsim p reprice conf seed i h = Ok r.
Proof. exact horizon_accepts_l. Qed.
Print Assumptions horizon_accepts.
(** A row describes the portfolio over that horizon: each simulated scenario compounds the rows drawn for it. *)
Theorem horizon_row_means : forall argsort rng fresh w kd X T n nsim p conf seed i h r, sorts Rle 0 argsort -> distinct_labels w ->
  kind_ok kd X -> r_shape X = [T; n] -> uniform_draws (draws_for rng fresh seed i nsim h) ->
  horizon_row argsort rng fresh w kd X nsim p None conf seed i h = Ok r ->
  (0 < h)%Z /\ (0 < nsim)%Z /\ exists idx hold,
    bootstrap T (raw_weight p) (draws_for rng fresh seed i nsim h) (Z.to_nat nsim) (Z.to_nat h) idx /\
    (forall j, (j < n)%nat -> holding w (kind_cols kd) j 0 (hold j)) /\
    measured (repeat (1 / INR (Z.to_nat nsim)) (Z.to_nat nsim))
      (map (fun s => sumn n (fun j => hold j * compound n X (idx s) (Z.to_nat h) j)) (seq 0 (Z.to_nat nsim)))
      conf (DBool false) (rp_mean r) (rp_sd r) (rp_var r) (rp_cvar r).
Proof. exact horizon_row_l. Qed.
Print Assumptions horizon_row_means.
Theorem horizon_row_accepts : forall argsort rng fresh w kd X T n nsim p conf seed i h, distinct_labels w ->
  kind_ok kd X -> r_shape X = [T; n] -> uniform_draws (draws_for rng fresh seed i nsim h) ->
  ((exists r, horizon_row argsort rng fresh w kd X nsim p None conf seed i h = Ok r) <->
   ((0 < h)%Z /\ (0 < nsim)%Z /\ (0 < T)%nat /\ drawable T p /\ 0 < conf < 1 /\ single w /\ covers w (Scen (kind_cols kd) 0 n (fun _ _ => 0)))).
Proof. exact horizon_row_accepts_l. Qed.
Print Assumptions horizon_row_accepts.
(** With a seed [s] the row in position [i] is computed from the numbers of a generator seeded with [s + i], whatever the
    unseeded generator does: each row can be reproduced alone. *)
Theorem horizon_row_seed : forall argsort rng fresh fresh' w kd X nsim p reprice conf s i h,
  horizon_row argsort rng fresh w kd X nsim p reprice conf (Some s) i h =
  horizon_row argsort rng fresh' w kd X nsim p reprice conf (Some (s + Z.of_nat i)%Z) 0 h.
Proof. intros. unfold horizon_row, draws_for. rewrite Z.add_0_r. reflexivity. Qed.
Print Assumptions horizon_row_seed.
Theorem horizon_row_seed_draws : forall argsort rng rng' fresh w kd X nsim p reprice conf s i h,
  (forall a b, rng (s + Z.of_nat i)%Z (Z.to_nat nsim) (Z.to_nat h) a b = rng' (s + Z.of_nat i)%Z (Z.to_nat nsim) (Z.to_nat h) a b) ->
  horizon_row argsort rng fresh w kd X nsim p reprice conf (Some s) i h = horizon_row argsort rng' fresh w kd X nsim p reprice conf (Some s) i h.
Proof. intros. unfold horizon_row, draws_for. replace (rng (s + Z.of_nat i)%Z (Z.to_nat nsim) (Z.to_nat h)) with (rng' (s + Z.of_nat i)%Z (Z.to_nat nsim) (Z.to_nat h)); auto.
  apply FunctionalExtensionality.functional_extensionality; intros a. apply FunctionalExtensionality.functional_extensionality; intros b. symmetry; auto. Qed.
Print Assumptions horizon_row_seed_draws.
Example horizon_case : exists rows, horizon_report (argsort_by Rleb 0) (fun _ _ _ _ _ => 0) (fun _ _ _ => 0)
  (WtSeries [LStr "B"; LStr "A"] None (fun _ => 1/2)) (KFrame ["A"; "B"]%string) (mkR [3; 2]%nat INR) [4; 13; 4]%Z 100 None None (95/100) (Some 7%Z) = Ok rows /\
  NoDup (map fst rows).
Proof.
  match goal with |- exists rows, ?e = Ok rows /\ _ => assert (H : exists rows, e = Ok rows) end.
  { apply horizon_accepts_l. intros i h Hi. apply horizon_row_accepts_l with (T := 3%nat) (n := 2%nat).
    - intros idx E. injection E as <-. repeat constructor; cbn; intuition discriminate.
    - exists 3%nat. reflexivity.
    - reflexivity.
    - intros s k. cbn. lra.
    - split; [apply nth_error_In in Hi; cbn in Hi; lia|]. split; [lia|]. split; [lia|]. split; [exact I|]. split; [lra|]. split; [exact I|]. cbn. intuition. }
  destruct H as (rows & H). exists rows. split; auto. apply (horizon_table_l _ _ _ _ _ _ _ _ _ _ _ _ _ H).
Qed.

(** ** Drawdowns *)
Theorem drawdown_means : forall w X T n h conf np p u d, scenarios_of X T n -> uniform_draws u -> (forall a, p = Some a -> forall k, (k < T)%nat -> 0 <= as_vec a k) -> single w ->
  drawdown_quantile w X h conf np p None u = Ok d ->
  rows_in w = n /\ (0 < h)%Z /\ (0 < np)%Z /\ 0 <= conf <= 1 /\
  exists idx falls, bootstrap T (raw_weight p) u (Z.to_nat np) (Z.to_nat h) idx /\ List.length falls = Z.to_nat np /\
    (forall s, (s < Z.to_nat np)%nat -> let path := wealth_path n X (map (fun j => wentry w j 0) (seq 0 n)) (idx s) (Z.to_nat h) in
       0 < nth 0 path 0 -> is_max_drawdown path (nth s falls 0)) /\
    dd_mean d = rsum falls / INR (List.length falls) /\ linear_quantile falls (1 / 2) (dd_median d) /\
    linear_quantile falls conf (dd_q d) /\ linear_quantile falls 1 (dd_worst d) /\ dd_pct d = py_round (conf * 100).
Proof. exact drawdown_l. Qed.
Print Assumptions drawdown_means.
(** Long-only, unleveraged books: every statistic is in [0, 1), and none exceeds the worst. *)
Theorem drawdown_range : forall w X T n h conf np p u d, scenarios_of X T n -> uniform_draws u -> (forall a, p = Some a -> forall k, (k < T)%nat -> 0 <= as_vec a k) -> single w ->
  long_only (map (fun j => wentry w j 0) (seq 0 n)) ->
  drawdown_quantile w X h conf np p None u = Ok d ->
  0 <= dd_mean d <= dd_worst d /\ 0 <= dd_median d <= dd_worst d /\ 0 <= dd_q d <= dd_worst d /\ dd_worst d < 1 /\
  (1 / 2 <= conf -> dd_median d <= dd_q d) /\ (conf <= 1 / 2 -> dd_q d <= dd_median d).
Proof. exact drawdown_range_l. Qed.
Print Assumptions drawdown_range.
(** The maximum drawdown of positive wealth is the largest relative fall between two dates; it is unique and zero for a path
    that never falls. *)
Theorem drawdown_pairs : forall w d, (forall x, In x w -> 0 < x) -> is_max_drawdown w d ->
  (exists s t, (s <= t < List.length w)%nat /\ d = (nth s w 0 - nth t w 0) / nth s w 0) /\
  (forall s t, (s <= t < List.length w)%nat -> (nth s w 0 - nth t w 0) / nth s w 0 <= d) /\
  ((forall s t, (s <= t < List.length w)%nat -> nth s w 0 <= nth t w 0) -> d = 0) /\ forall d', is_max_drawdown w d' -> d' = d.
Proof.
  intros w d P H. destruct (max_drawdown_pairs w d P H) as [A B]. split; auto. split; auto. split; [intros M; eapply max_drawdown_rising; eauto|]. intros d' H'. eapply max_drawdown_unique; eauto.
Qed.
Print Assumptions drawdown_pairs.
(** The quantile counts: at least about [q] of the paths fall no further, at most about [q] fall less. *)
Theorem drawdown_quantile_counts : forall l q x, l <> [] -> 0 <= q <= 1 -> linear_quantile l q x ->
  q * (INR (List.length l) - 1) < INR (how_many (fun y => Rleb y x) l) /\
  INR (how_many (fun y => Rltb y x) l) <= q * (INR (List.length l) - 1) + 1.
Proof.
  intros l q x NE Hq H. rewrite (quantile_linear_unique l q x (np_quantile l q) H (quantile_linear l q NE Hq)). apply quantile_counts; auto.
Qed.
Print Assumptions drawdown_quantile_counts.
(** Losses from the initial wealth are not counted: over one step the drawdown is always zero, whatever is lost. *)
Theorem drawdown_from_start_refuted : forall w d, List.length w = 1%nat -> is_max_drawdown w d -> d = 0.
Proof.
  intros w d L [(t & m & Ht & [(s & Hs & Em) _] & ->) _]. assert (t = 0%nat) by lia. assert (s = 0%nat) by lia. subst. unfold Rdiv. rewrite Rminus_diag_eq by reflexivity. ring.
Qed.
Print Assumptions drawdown_from_start_refuted.
(** Labels are ignored by [drawdown_quantile]: a Series counts as its values in order. *)
Theorem drawdown_by_label_refuted : forall idx name v X h conf np p reprice u,
  drawdown_quantile (WtSeries idx name v) X h conf np p reprice u = drawdown_quantile (WtVec (List.length idx) v) X h conf np p reprice u.
Proof. reflexivity. Qed.
Print Assumptions drawdown_by_label_refuted.
Example drawdown_case : exists d, drawdown_quantile (WtVec 2 (fun _ => 1/2)) (mkR [1; 2]%nat (fun k => match k with O => -1 | _ => 1 end)) 3 (95/100) 2 None None (fun _ _ => 0) = Ok d /\
  uniform_draws (fun _ _ => 0) /\ long_only (map (fun j => wentry (WtVec 2 (fun _ => 1/2)) j 0) (seq 0 2)).
Proof.
  assert (E : forall f, exists o, simulate_paths (mkR [1; 2]%nat (fun k => match k with O => -1 | _ => 1 end)) 3 2 None (Some (fun a => Ok (reprice_exp a))) f = Ok o /\ r_shape o = [2; 3; 2]%nat).
  { intros f. unfold simulate_paths. cbn [r_shape bind path_weights Nat.eqb]. cbn [Z.ltb Z.compare orb].
    rewrite rng_choice_ok; [|lia|intros; cbn; lra|cbn; rewrite Rabs_pos_eq; [|lra]; pose proof choice_tol_small; lra].
    cbn [bind]. cbv zeta. erewrite StProofs9.mapM_pure.
    2:{ intros t _. cbn [bind reprice_exp r_shape]. destruct (list_eq_dec Nat.eq_dec [Z.to_nat 2; 2%nat] [Z.to_nat 2; 2%nat]); [reflexivity|congruence]. }
    cbn [bind]. eexists. split; reflexivity. }
  destruct (E (fun _ _ => 0)) as (o & Eo & So). unfold drawdown_quantile. cbn [ravel bind]. cbv zeta. rewrite Eo. cbn [bind]. rewrite So.
  cbn [map seq List.length Nat.eqb negb andb guard]. rewrite (proj2 (Rleb_true 0 (95/100))), (proj2 (Rleb_true (95/100) 1)) by lra. cbn [andb guard].
  eexists. split; [reflexivity|]. split; [intros s k; lra|]. split; [intros x Hx; cbn in Hx; destruct Hx as [<-|[<-|[]]]; lra|]. unfold rsum. cbn. lra.
Qed.

(** ** Stresses of invariants *)
(** Without views: one bootstrap of the drivers, repriced, reported like a stress test with weights matched by label. *)
Theorem invariants_nominal : forall minimize argsort chol normals cols T K X w rp f inst h ns rng fresh seed conf dm o, sorts Rle 0 argsort ->
  invariants_repricer rp cols = Ok (f, inst) -> uniform_draws (draws_for rng fresh seed 0 ns h) ->
  stress_invariants minimize argsort chol normals cols T K X w rp [] h ns rng fresh seed conf dm = Ok o ->
  (0 < h)%Z /\ (0 < ns)%Z /\ exists idx N a, bootstrap T (fun _ => 1) (draws_for rng fresh seed 0 ns h) (Z.to_nat ns) (Z.to_nat h) idx /\
    f (horizon_sums K (as_array T K X) (Z.to_nat ns) (Z.to_nat h) idx) = Ok a /\
    (pnl_labels inst cols <> None -> table_shape a (Z.to_nat ns) N) /\
    let sc := pnl_scen (pnl_labels inst cols) (hd 0%nat (r_shape a)) N a in
    so_names o = names_of w /\ so_stress o = None /\ so_kl o = None /\
    measures_book (so_nom o) w sc (sc_X sc) (repeat (1 / INR (sc_T sc)) (sc_T sc)) conf dm.
Proof. exact invariants_nominal_l. Qed.
Print Assumptions invariants_nominal.
(** With views: the nominal bootstrap draws rows uniformly, the stressed one (with the next seed) with the probabilities of
    the views' posterior; both are repriced and measured with the weights in positional order. *)
Theorem invariants_stressed : forall minimize argsort chol normals cols T K X w rp f inst views h ns rng fresh seed conf dm o, sorts Rle 0 argsort -> views <> [] -> single w -> 0 < conf < 1 ->
  invariants_repricer rp cols = Ok (f, inst) -> (forall i, uniform_draws (draws_for rng fresh seed i ns h)) ->
  stress_invariants minimize argsort chol normals cols T K X w rp views h ns rng fresh seed conf dm = Ok o ->
  exists r, flexible_views minimize argsort chol normals (PScen (option_map (map LStr) cols) T K X None) (Views (WDict views) WNone WNone WNone [] WNone [] None false) = Ok r /\
  exists idx idx' a b N S S' st,
    bootstrap T (fun _ => 1) (draws_for rng fresh seed 0 ns h) (Z.to_nat ns) (Z.to_nat h) idx /\
    f (horizon_sums K (as_array T K X) (Z.to_nat ns) (Z.to_nat h) idx) = Ok a /\ r_shape a = [S; N] /\
    bootstrap T (f_q r) (draws_for rng fresh seed 1 ns h) (Z.to_nat ns) (Z.to_nat h) idx' /\
    f (horizon_sums K (as_array T K X) (Z.to_nat ns) (Z.to_nat h) idx') = Ok b /\ r_shape b = [S'; N] /\
    rows_in w = N /\ so_stress o = Some st /\ so_kl o = None /\ so_suffix o = "stressed"%string /\
    reports (so_nom o) 1 (repeat (1 / INR S) S) (fun _ => book_pnl S N (entry N a) (fun i => wentry w i 0)) conf dm /\
    reports st 1 (repeat (1 / INR S') S') (fun _ => book_pnl S' N (entry N b) (fun i => wentry w i 0)) conf dm.
Proof. exact invariants_views_l. Qed.
Print Assumptions invariants_stressed.
(** With views the labels of the weights do not matter any more. *)
Theorem invariants_views_by_label_refuted : forall minimize argsort chol normals cols T K X idx name v rp v0 views h ns rng fresh seed conf dm,
  stress_invariants minimize argsort chol normals cols T K X (WtSeries idx name v) rp (v0 :: views) h ns rng fresh seed conf dm =
  stress_invariants minimize argsort chol normals cols T K X (WtVec (List.length idx) v) rp (v0 :: views) h ns rng fresh seed conf dm.
Proof.
  intros. unfold stress_invariants. destruct (invariants_repricer rp cols) as [[f inst]|e]; [|reflexivity]. cbn [bind]. cbv zeta.
  destruct (project_scenarios KArr _ _ None ns (Some f) _) as [a|e]; [|reflexivity]. cbn [bind]. destruct (flexible_views _ _ _ _ _ _) as [r|e]; [|reflexivity]. cbn [bind].
  destruct (project_scenarios KArr _ _ _ ns (Some f) _) as [b|e]; [|reflexivity]. cbn [bind]. destruct (wrap _ _ a); [|reflexivity]. reflexivity.
Qed.
Print Assumptions invariants_views_by_label_refuted.

(** Both kinds of call are possible. *)
Example invariants_nominal_case : exists o, stress_invariants best_minimize (argsort_by Rleb 0) ExistProperties.best_chol (fun _ _ _ _ => 0) (Some ["A"; "B"]%string) 3 2 (fun t i => INR t - INR i)
  (WtSeries [LStr "B"; LStr "A"] None (fun _ => 1/2)) RDefault [] 5 100 (fun _ _ _ _ _ => 0) (fun _ _ _ => 0) None (95/100) (DBool false) = Ok o.
Proof.
  unfold stress_invariants. cbn [invariants_repricer bind]. cbv zeta. fold (as_array 3 2 (fun t i => INR t - INR i)).
  assert (U : uniform_draws (draws_for (fun _ _ _ _ _ => 0) (fun _ _ _ => 0) None 0 100 5)) by (intros s k; cbn; lra).
  destruct (proj2 (project_accepts KArr (as_array 3 2 (fun t i => INR t - INR i)) (HInt 5) None 100 (draws_for (fun _ _ _ _ _ => 0) (fun _ _ _ => 0) None 0 100 5) 3 2 I (or_intror eq_refl))) as (o & Eo).
  { cbn [hor_int]. split; [lia|]. split; [lia|]. split; [lia|exact I]. }
  apply project_exp_total in Eo. rewrite Eo. cbn [bind].
  destruct (project_exp_means KArr (as_array 3 2 (fun t i => INR t - INR i)) 5 None 100 _ _ 3 2 I eq_refl U Eo) as (_ & _ & Sh & _). cbn [wrap]. rewrite Sh. cbn [List.length].
  destruct (list_eq_dec Nat.eq_dec [Z.to_nat 100; 2%nat] [Z.to_nat 100; 2%nat]); [|congruence]. cbn [bind]. unfold scen_of. rewrite Sh. cbn [bind].
  apply stress_accepts_l; [intros c E; injection E as <-; reflexivity|]. split; [lra|]. split; [discriminate|]. split; [split; [discriminate|split; [cbn; intuition|exact I]]|].
  split; [cbn [usable sc_T]; lia|]. split; [congruence|discriminate].
Qed.
Example invariants_stressed_case : exists o, stress_invariants best_minimize (argsort_by Rleb 0) ExistProperties.best_chol (fun _ _ _ _ => 0) (Some ["A"; "B"]%string) 2 2 X2
  (WtSeries [LStr "A"; LStr "B"] None (fun _ => 1/2)) RDefault [(keyA, SNum (4 / 10))] 5 100 (fun _ _ _ _ _ => 0) (fun _ _ _ => 0) None (95/100) (DBool false) = Ok o.
Proof.
  unfold stress_invariants. cbn [invariants_repricer bind]. cbv zeta. fold (as_array 2 2 X2).
  assert (U : forall i, uniform_draws (draws_for (fun _ _ _ _ _ => 0) (fun _ _ _ => 0) None i 100 5)) by (intros i s k; cbn; lra).
  assert (PR : forall p i, drawable 2 p -> exists o, project_scenarios KArr (as_array 2 2 X2) (HInt 5) p 100 (Some (fun a => Ok (reprice_exp a))) (draws_for (fun _ _ _ _ _ => 0) (fun _ _ _ => 0) None i 100 5) = Ok o /\ r_shape o = [Z.to_nat 100; 2%nat]).
  { intros p i Dp. destruct (proj2 (project_accepts KArr (as_array 2 2 X2) (HInt 5) p 100 (draws_for (fun _ _ _ _ _ => 0) (fun _ _ _ => 0) None i 100 5) 2 2 I (or_intror eq_refl))) as (o & Eo).
    { cbn [hor_int]. split; [lia|]. split; [lia|]. split; [lia|exact Dp]. }
    apply project_exp_total in Eo. destruct (project_exp_means KArr (as_array 2 2 X2) 5 p 100 _ _ 2 2 I eq_refl (U i) Eo) as (_ & _ & Sh & _). eauto. }
  destruct (PR None 0%nat I) as (a & Ea & Sa). rewrite Ea. cbn [bind].
  assert (E : fv_setup ExistProperties.best_chol (fun _ _ _ _ => 0) (PScen (option_map (map LStr) (Some ["A"; "B"]%string)) 2 2 X2 None) = Ok (true, lab2, 2%nat, 2%nat, X2, fun _ => 1 / INR 2)) by reflexivity.
  destruct (run_mean (argsort_by Rleb 0) false (4 / 10) ltac:(lra) (fun _ => 1 / INR 2) ltac:(simpl; lra) ltac:(simpl; lra)) as [q [Eq [Q0 Q1]]].
  pose proof (fv_build _ _ _ _ _ _ _ _ _ _ _ _ _ _ _ _ _ _ _ _ E ltac:(discriminate) Eq) as R. 
  match type of R with _ = ?o => assert (R' : flexible_views best_minimize (argsort_by Rleb 0) ExistProperties.best_chol (fun _ _ _ _ => 0) (PScen (option_map (map LStr) (Some ["A"; "B"]%string)) 2 2 X2 None) (Views (WDict [(keyA, SNum (4 / 10))]) WNone WNone WNone [] WNone [] None false) = o) by exact R end.
  rewrite R'. cbn [bind f_q].
  destruct (PR (Some (mkND [2%nat] (fun k => Fin (q k)))) 1%nat) as (b & Eb & Sb).
  { split; [reflexivity|]. 
    assert (ES : sumn 2 (as_vec (mkND [2%nat] (fun k => Fin (q k)))) = 1). { transitivity (q 0%nat + q 1%nat); [cbn; ring|lra]. }
    split; [intros k Hk; change (Fin (q k) = Fin (q k) /\ 0 <= q k); split; [reflexivity|]; destruct k as [|[|k]]; [rewrite Q0; lra|rewrite Q1; lra|lia]|]. rewrite ES. split; [lra|].
    left. replace (1 - 1) with 0 by ring. rewrite Rabs_R0. left. apply Rinv_0_lt_compat. apply pow_lt. lra. }
  rewrite Eb. cbn [bind wrap List.length]. rewrite Sa. destruct (list_eq_dec Nat.eq_dec [Z.to_nat 100; 2%nat] [Z.to_nat 100; 2%nat]); [|congruence]. cbn [bind]. unfold scen_of. rewrite Sa, Sb. cbn [bind sc_T sc_N sc_X].
  assert (RP : resolve_probs None (Z.to_nat 100) = Ok (repeat (1 / INR (Z.to_nat 100)) (Z.to_nat 100))) by reflexivity. rewrite RP. cbn [bind].
  unfold ravel. cbn [List.length seq map bind Nat.eqb andb guard].
  assert (V := resolve_valid _ _ _ RP). rewrite !metrics_of_core by (auto; lra). cbn [bind]. eauto.
Qed.
