(** Grids, weight bars, parameter plots and reports. *)
From Coq Require Import List ZArith String Lia Lra Permutation Sorting.Sorted.
Import ListNotations.
From Verif Require Import Err RBase SortLib FrModel FrSpec FrProofs FrProofs2 PlModel PlSpec PlProofs PlProofs2.
Open Scope R_scope.
Open Scope list_scope.

(** ** Weights *)
Lemma nondecreasing_split u v : nondecreasing (u ++ v) -> nondecreasing u /\ nondecreasing v /\ forall a b, In a u -> In b v -> a <= b.
Proof.
  intros H. split; [|split].
  - intros i j L. specialize (H i j). rewrite app_length, !app_nth1 in H by lia. apply H. lia.
  - intros i j L. specialize (H (i + List.length u) (j + List.length u))%nat. rewrite app_length, !app_nth2, !Nat.add_sub in H by lia. apply H. lia.
  - intros a b Ha Hb. apply (In_nth _ _ 0) in Ha as (i & Hi & <-). apply (In_nth _ _ 0) in Hb as (j & Hj & <-).
    specialize (H i (j + List.length u)%nat). rewrite app_length, app_nth1, app_nth2, Nat.add_sub in H by lia. apply H. lia.
Qed.
Lemma tail_n_split {A} k (l : list A) : exists hid, l = hid ++ tail_n k l /\ List.length (tail_n k l) = kept (List.length l) (Some k).
Proof.
  unfold tail_n, kept. destruct (k <? 0)%Z eqn:E.
  - exists (firstn (Z.to_nat (- k)) l). split; [symmetry; apply firstn_skipn|]. rewrite skipn_length. reflexivity.
  - exists (firstn (List.length l - Z.to_nat k) l). split; [symmetry; apply firstn_skipn|]. rewrite skipn_length. lia.
Qed.
Lemma head_n_split {A} k (l : list A) : exists hid, l = head_n k l ++ hid /\ List.length (head_n k l) = kept (List.length l) (Some k).
Proof.
  unfold head_n, kept. destruct (k <? 0)%Z eqn:E.
  - exists (skipn (List.length l - Z.to_nat (- k)) l). split; [symmetry; apply firstn_skipn|]. rewrite firstn_length. lia.
  - exists (skipn (Z.to_nat k) l). split; [symmetry; apply firstn_skipn|]. rewrite firstn_length. lia.
Qed.
Lemma plot_series asc desc l top kind pct : sorts_asc asc -> sorts_desc desc ->
  exists shown hidden b, plot_weights asc desc (WSeries l) top kind pct = Ok b /\ b_cols b = [shown] /\
    Permutation (shown ++ hidden) l /\ List.length shown = kept (List.length l) top /\ drawing_order kind shown /\
    (forall s h, In s shown -> In h hidden -> snd h <= snd s) /\
    b_pct_x b = pct /\ b_pct_y b = (pct && match kind with Bar => true | BarH => false end).
Proof.
  intros HA HD. destruct (HA l) as [PA SA], (HD l) as [PD SD]. destruct kind.
  - destruct top as [k|].
    + destruct (tail_n_split k (asc l)) as (hid & E & L). rewrite E in SA. rewrite map_app in SA. apply nondecreasing_split in SA as (_ & S2 & S3).
      exists (tail_n k (asc l)), hid, (mkBars [tail_n k (asc l)] pct (pct && false)). repeat split; auto.
      * eapply perm_trans; [apply Permutation_app_comm|]. rewrite <- E. exact PA.
      * rewrite L, (Permutation_length PA). reflexivity.
      * intros s h Hs Hh. apply S3; apply in_map; assumption.
    + exists (asc l), [], (mkBars [asc l] pct (pct && false)). repeat split; auto; [rewrite app_nil_r; auto|apply Permutation_length; auto|intros s h _ []].
  - destruct top as [k|].
    + destruct (head_n_split k (desc l)) as (hid & E & L). rewrite E in SD. rewrite map_app, rev_app_distr in SD. apply nondecreasing_split in SD as (_ & S2 & S3).
      exists (head_n k (desc l)), hid, (mkBars [head_n k (desc l)] pct (pct && true)). repeat split; auto.
      * rewrite <- E. exact PD.
      * rewrite L, (Permutation_length PD). reflexivity.
      * intros s h Hs Hh. apply S3; apply -> in_rev; apply in_map; assumption.
    + exists (desc l), [], (mkBars [desc l] pct (pct && true)). repeat split; auto; [rewrite app_nil_r; auto|apply Permutation_length; auto|intros s h _ []].
Qed.

(** ** Parameters *)
Lemma all_finite_spec l v : all_finite l = Some v <-> l = map Some v.
Proof.
  revert v. induction l as [|[x|] l IH]; intros v; cbn [all_finite].
  - split; [intros [= <-]; reflexivity|]. destruct v; [reflexivity|discriminate].
  - destruct (all_finite l) as [w|] eqn:E; cbn [option_map].
    + split; [intros [= <-]; cbn; f_equal; apply IH; reflexivity|]. destruct v as [|y v]; [discriminate|]. cbn. intros [= -> H]. apply IH in H. congruence.
    + split; [discriminate|]. destruct v as [|y v]; [discriminate|]. cbn. intros [= -> H]. apply IH in H. discriminate.
  - split; [discriminate|]. destruct v; discriminate.
Qed.
Lemma param_values_spec param ms v : (exists l, param_values param ms = Ok l /\ all_finite l = Some v) <-> parameters param ms v.
Proof.
  unfold parameters. revert v. induction ms as [|m ms IH]; intros v; unfold param_values in *; cbn [mapM].
  - split; [intros (l & [= <-] & [= <-]); constructor|]. intros H. inversion H. exists []. auto.
  - split.
    + intros (l & E & A). destruct (lookup param m) as [[x| | |]|] eqn:L; cbn [bind] in E;
        (apply bind_ok in E as (t & Et & E) || discriminate E); injection E as <-; cbn [all_finite] in A; try discriminate.
      destruct (all_finite t) as [w|] eqn:Ew; [|discriminate]. injection A as <-. constructor; [exact L|]. apply IH. exists t. auto.
    + intros H. inversion H as [|? x ? w L F]; subst. apply IH in F as (t & Et & Ew). rewrite L. cbn [bind]. rewrite Et. cbn [bind].
      exists (Some x :: t). split; [reflexivity|]. cbn. rewrite Ew. reflexivity.
Qed.
Lemma unit_grid_even n : (0 < n)%nat -> evenly_spaced n (unit_grid n).
Proof.
  intros Hn. unfold unit_grid. destruct n as [|[|n]]; [lia| |].
  - split; [reflexivity|]. split; [reflexivity|]. split; lia.
  - set (N := S (S n)). set (g := fun i => INR i / (INR N - 1)).
    assert (D : INR N - 1 <> 0). { unfold N. rewrite S_INR. pose proof (lt_0_INR (S n)). assert (0 < INR (S n)) by (apply H; lia). lra. }
    assert (Nth : forall i, (i < N)%nat -> nthr (map g (seq 0 N)) i = g i).
    { intros i Hi. unfold nthr. rewrite (nth_indep _ 0 (g 0%nat)) by (rewrite map_length, seq_length; exact Hi). rewrite map_nth, seq_nth by exact Hi. reflexivity. }
    change (map (fun i => INR i / (INR N - 1)) (seq 0 N)) with (map g (seq 0 N)).
    split; [rewrite map_length, seq_length; reflexivity|]. split; [rewrite Nth by (unfold N; lia); unfold g; cbn [INR]; unfold Rdiv; ring|].
    split.
    + intros _. rewrite Nth by (unfold N; lia). unfold g. rewrite minus_INR by (unfold N; lia). cbn [INR]. field. exact D.
    + intros i Hi. rewrite !Nth by lia. unfold g. rewrite S_INR. field. exact D.
Qed.
Lemma zip3_nth a b c i : List.length a = List.length b -> List.length b = List.length c -> (i < List.length c)%nat ->
  nth i (zip3 a b c) (0, 0, 0) = (nthr a i, nthr b i, nthr c i).
Proof.
  intros H1 H2 Hi. unfold zip3, nthr. rewrite combine_nth by (rewrite combine_length; lia). rewrite combine_nth by lia. reflexivity.
Qed.
Lemma zip3_length a b c : List.length a = List.length b -> List.length b = List.length c -> List.length (zip3 a b c) = List.length c.
Proof. intros H1 H2. unfold zip3. rewrite !combine_length. lia. Qed.

Lemma robust_path_spec p param rl ov line pp : frontier_ok p -> plot_robust_path p param rl ov line = Ok pp ->
  exists x vs, risks_for (pf_f p) rl x /\ List.length vs = size (pf_f p) /\
    List.length (pp_points pp) = size (pf_f p) /\
    (forall i, (i < size (pf_f p))%nat -> nth i (pp_points pp) (0, 0, 0) = (nthr x i, ret_of (pf_f p) i, nthr vs i)) /\
    ((exists ms, pf_meta p = Some ms /\ parameters param ms vs) \/
     ((forall ms ws, pf_meta p = Some ms -> ms <> [] -> ~ parameters param ms ws) /\ evenly_spaced (size (pf_f p)) vs)) /\
    curves (pp_lines pp) = (if line then [(""%string, x, f_ret (pf_f p))] else []) /\
    named [rl] (f_measure (pf_f p)) (pp_x pp).
Proof.
  intros [W S0] H. unfold plot_robust_path in H. apply bind_ok in H as (x & Ex & H). apply risk_vector_ok in Ex.
  pose proof (risks_for_length _ _ _ W Ex) as Lx. apply bind_ok in H as (vs & Ev & H).
  set (values := match vs with Some v => v | None => unit_grid (List.length x) end) in H.
  destruct (Nat.eqb (List.length values) (List.length x)) eqn:E; cbn [negb] in H; [|discriminate]. apply Nat.eqb_eq in E. injection H as <-.
  cbn [pp_points pp_lines pp_x]. exists x, values. split; [exact Ex|]. split; [congruence|].
  split; [rewrite zip3_length; unfold size in *; congruence|]. split.
  { intros i Hi. rewrite zip3_nth; unfold size in *; [reflexivity|congruence|congruence|lia]. }
  split.
  { destruct (pf_meta p) as [[|m ms]|] eqn:Em.
    - injection Ev as <-. right. split; [intros ms ws [= <-] N; congruence|]. rewrite <- Lx. apply unit_grid_even. lia.
    - apply bind_ok in Ev as (l & El & Ev). injection Ev as <-. destruct (all_finite l) as [v|] eqn:A.
      + left. exists (m :: ms). split; [reflexivity|]. apply param_values_spec. exists l. auto.
      + right. split; [|rewrite <- Lx; apply unit_grid_even; lia]. intros ms' ws [= <-] _ Q. apply param_values_spec in Q as (l' & El' & A'). congruence.
    - injection Ev as <-. right. split; [discriminate|]. rewrite <- Lx. apply unit_grid_even. lia. }
  split; [|apply or_str_named].
  rewrite curves_app. destruct ov as [o|]; [unfold risk_vector; destruct (String.eqb o _); [|destruct (lookup o _)]|]; destruct line; reflexivity.
Qed.

Lemma index_all_ok {A} (l : list A) o d r : index_all l o d = Ok r <-> (forall i, In i o -> (i < List.length l)%nat) /\ r = take d l o.
Proof.
  unfold index_all. destruct (forallb _ o) eqn:E.
  - rewrite forallb_forall in E. split; [intros [= <-]; split; [|reflexivity]; intros i Hi; apply Nat.ltb_lt, E, Hi|intros [_ ->]; reflexivity].
  - split; [discriminate|]. intros [H _]. exfalso. apply Bool.not_true_iff_false in E. apply E. apply forallb_forall. intros i Hi. apply Nat.ltb_lt, H, Hi.
Qed.
Lemma take_combine (v w : list R) o : List.length v = List.length w -> combine (take 0 v o) (take 0 w o) = take (0, 0) (combine v w) o.
Proof.
  intros L. unfold take. induction o as [|i o IH]; [reflexivity|]. cbn [map combine]. rewrite IH, combine_nth by exact L. reflexivity.
Qed.
Lemma map_fst_combine {A B} (v : list A) (w : list B) : List.length v = List.length w -> map fst (combine v w) = v.
Proof. revert w. induction v as [|x v IH]; intros [|y w] L; cbn in *; try discriminate; [reflexivity|]. f_equal. apply IH. lia. Qed.
Lemma sorted_nondecreasing l : StronglySorted Rle l -> nondecreasing l.
Proof.
  induction 1 as [|x l H IH F]; intros i j L; [cbn in L; lia|]. destruct i as [|i], j as [|j]; cbn [nth]; try lra; cbn [List.length] in L.
  - apply (proj1 (Forall_forall _ _) F). apply nth_In. lia.
  - lia.
  - apply IH. lia.
Qed.

Lemma param_impact_spec argsort p param rl a b : sorts Rle 0 argsort -> frontier_ok p -> plot_param_impact argsort p param rl NoAx = Ok (a, b) ->
  (forall ms, pf_meta p = Some ms -> List.length ms = size (pf_f p)) ->
  exists ms vs x, pf_meta p = Some ms /\ parameters param ms vs /\ risks_for (pf_f p) rl x /\
    Permutation a (combine vs (f_ret (pf_f p))) /\ Permutation b (combine vs x) /\ nondecreasing (map fst a) /\ map fst b = map fst a.
Proof.
  intros SA [W S0] H LM. unfold plot_param_impact in H. destruct (pf_meta p) as [ms|] eqn:Em; [|discriminate].
  apply bind_ok in H as (l & El & H). destruct (all_finite l) as [v|] eqn:A; [|discriminate].
  assert (P : parameters param ms v) by (apply param_values_spec; exists l; auto).
  assert (Lv : List.length v = size (pf_f p)) by (rewrite <- (LM ms eq_refl); symmetry; apply (Forall2_len _ _ _ P)).
  apply bind_ok in H as (rets & Er & H). apply index_all_ok in Er as [_ ->]. apply bind_ok in H as (x & Ex & H). apply risk_vector_ok in Ex.
  apply bind_ok in H as (rk & Ek & H). apply index_all_ok in Ek as [_ ->]. injection H as <- <-.
  pose proof (risks_for_length _ _ _ W Ex) as Lx. destruct (SA v) as [PP SS].
  exists ms, v, x. split; [reflexivity|]. split; [exact P|]. split; [exact Ex|].
  split; [rewrite take_combine by (unfold size in Lv; exact Lv); apply take_perm; rewrite combine_length; unfold size in Lv; rewrite <- Lv, Nat.min_id; exact PP|].
  split; [rewrite take_combine by congruence; apply take_perm; rewrite combine_length, Lx, <- Lv, Nat.min_id; exact PP|].
  rewrite !map_fst_combine by (rewrite !take_length; reflexivity). split; [apply sorted_nondecreasing, SS|reflexivity].
Qed.
Lemma param_impact_ok argsort p param rl ms vs : sorts Rle 0 argsort -> frontier_ok p -> pf_meta p = Some ms ->
  parameters param ms vs -> List.length ms = size (pf_f p) -> ~ unknown_label (pf_f p) rl ->
  exists ab, plot_param_impact argsort p param rl NoAx = Ok ab.
Proof.
  intros SA [W S0] Em P L U. unfold plot_param_impact. rewrite Em. pose proof (Forall2_len _ _ _ P) as Lv. apply param_values_spec in P as (l & El & A). rewrite El. cbn [bind]. rewrite A.
  destruct (SA vs) as [PP _]. assert (B : forall i, In i (argsort vs) -> (i < size (pf_f p))%nat).
  { intros i Hi. apply (Permutation_in _ PP), in_seq in Hi. assert (Q : List.length vs = size (pf_f p)) by (etransitivity; [symmetry; exact Lv|exact L]). lia. }
  rewrite (proj2 (index_all_ok _ _ 0 _) (conj B eq_refl)). cbn [bind]. apply risk_known in U as (x & Ex). rewrite (proj2 (risk_vector_ok _ _ _) Ex). cbn [bind].
  rewrite (proj2 (index_all_ok x (argsort vs) 0 _) (conj (fun i Hi => eq_ind_r (fun n => (i < n)%nat) (B i Hi) (risks_for_length _ _ _ W Ex)) eq_refl)). cbn [bind].
  eexists. reflexivity.
Qed.
Lemma surface_spec p param rl ms : frontier_ok p -> pf_meta p = Some ms -> List.length ms = size (pf_f p) ->
  forall pts, plot_robust_surface p param rl = Ok pts <->
  exists vs x, parameters param ms vs /\ risks_for (pf_f p) rl x /\ List.length pts = size (pf_f p) /\
    forall i, (i < size (pf_f p))%nat -> nth i pts (0, 0, 0) = (nthr vs i, nthr x i, ret_of (pf_f p) i).
Proof.
  intros [W S0] Em LM pts. unfold plot_robust_surface. rewrite Em. split.
  - intros H. apply bind_ok in H as (l & El & H). destruct (all_finite l) as [v|] eqn:A; [|discriminate].
    apply bind_ok in H as (x & Ex & H). apply risk_vector_ok in Ex. destruct (Nat.eqb _ _) eqn:E; [|discriminate]. apply Nat.eqb_eq in E. injection H as <-.
    pose proof (risks_for_length _ _ _ W Ex) as Lx. exists v, x. split; [apply param_values_spec; exists l; auto|]. split; [exact Ex|].
    split; [rewrite zip3_length; unfold size in *; congruence|]. intros i Hi. rewrite zip3_nth; unfold size in *; try congruence. reflexivity.
  - intros (vs & x & P & Ex & L & H). pose proof (risks_for_length _ _ _ W Ex) as Lx. pose proof (Forall2_len _ _ _ P) as Lv.
    assert (Q : List.length vs = size (pf_f p)) by (etransitivity; [symmetry; exact Lv|exact LM]). clear Lv.
    apply param_values_spec in P as (l & El & A). rewrite El. cbn [bind]. rewrite A. rewrite (proj2 (risk_vector_ok _ _ _) Ex). cbn [bind].
    rewrite (proj2 (Nat.eqb_eq _ _)) by congruence. f_equal. unfold size in *. apply (nth_ext _ _ (0, 0, 0) (0, 0, 0)); [rewrite zip3_length; congruence|].
    intros i Hi. rewrite zip3_length in Hi by congruence. rewrite zip3_nth by congruence. rewrite H by congruence. reflexivity.
Qed.
