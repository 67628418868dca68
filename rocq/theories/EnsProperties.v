(** C17-C20, C48, C49: blending portfolios. *)
From Verif Require Import RBase QpBase ConsModel EnsModel EnsSpec EnsProofs.
Open Scope R_scope.
Open Scope list_scope.

(** C17: the weights are the supplied values (by position, by label, or all equal) divided by their
    positive total; they sum to one. *)
Theorem normalized_weights_sum_to_one :
  forall w num names ws,
    labels_fit w num names ->
    normalize_weights w num names = Ok ws ->
    (0 < num)%nat /\ List.length ws = num /\ rsum ws = 1 /\
    0 < sumn num (supplied w num names) /\
    forall j, (j < num)%nat -> nth j ws 0 = supplied w num names j / sumn num (supplied w num names).
Proof. exact normalize_weights_ok. Qed.
Print Assumptions normalized_weights_sum_to_one.

(** C17: accepted exactly when there is one finite number per sample and the total is positive;
    everything else is a ValueError. *)
Theorem weights_accepted_iff :
  (forall l num names, (0 < num)%nat ->
    ((exists ws, normalize_weights (WSeq l) num names = Ok ws) <->
     exists rs, l = map Fin rs /\ List.length rs = num /\ 0 < rsum rs)) /\
  (forall w num names e, normalize_weights w num names = Err e -> e = ValueError) /\
  (forall w names, normalize_weights w 0 names = Err ValueError).
Proof.
  split; [|split; [exact normalize_weights_errors|reflexivity]].
  intros l num names Hn. rewrite normalize_weights_accept by (auto; discriminate). simpl.
  split; intros (rs & H1 & H2); exists rs; split; auto; congruence.
Qed.
Print Assumptions weights_accepted_iff.

(** C17: weights given with labels follow the labels, not the order in which they are listed. *)
Theorem labelled_weights_order_irrelevant :
  forall l l' num ks, NoDup (map fst l) -> Permutation l l' ->
    normalize_weights (WSeries l) num (Some ks) = normalize_weights (WSeries l') num (Some ks).
Proof. intros l l' num ks H1 H2. unfold normalize_weights. rewrite (reindex_perm l l' ks H1 H2). reflexivity. Qed.
Print Assumptions labelled_weights_order_irrelevant.

Example labelled_weights_case :
  normalize_weights (WSeries [("b"%string, Fin 3); ("a"%string, Fin 1)]) 2 (Some ["a"; "b"]%string) = Ok [1 / 4; 3 / 4].
Proof.
  unfold normalize_weights. simpl. destruct (Rleb_spec (1 + (3 + 0)) 0); [lra|].
  f_equal. f_equal; [field|]. f_equal. field.
Qed.

(** C17, finding: the docstring asks for non-negative weights, but a negative weight is accepted. *)
Theorem weights_nonnegative_refuted :
  ~ (forall l num names ws, normalize_weights (WSeq l) num names = Ok ws -> forall x, In x ws -> 0 <= x).
Proof.
  intros H. assert (E : normalize_weights (WSeq [Fin 2; Fin (-1)]) 2 None = Ok [2 / (2 + (-1 + 0)); -1 / (2 + (-1 + 0))]).
  { unfold normalize_weights. simpl. destruct (Rleb_spec (2 + (-1 + 0)) 0); [lra|reflexivity]. }
  specialize (H _ _ _ _ E (-1 / (2 + (-1 + 0)))). assert (0 <= -1 / (2 + (-1 + 0))) by (apply H; simpl; auto).
  replace (-1 / (2 + (-1 + 0))) with (-1) in H0 by field. lra.
Qed.
Print Assumptions weights_nonnegative_refuted.

(** C18: with non-negative weights the average keeps every linear inequality and equality satisfied by
    all samples, stays between the samples asset by asset, and keeps the asset labels. *)
Theorem average_preserves_constraints :
  forall p w v nm,
    (match pn_samples p with Some ks => List.length ks = List.length (pn_cols p) | None => True end) ->
    average_exposures p w = Ok (v, nm) ->
    (forall j, (j < List.length (pn_cols p))%nat -> 0 <= supplied w (List.length (pn_cols p)) (pn_samples p) j) ->
    nm = pn_assets p /\
    (exists ws, convex_weights (List.length (pn_cols p)) ws /\ is_combination (pn_cols p) ws v /\
       forall j, (j < List.length (pn_cols p))%nat ->
         nth j ws 0 = supplied w (List.length (pn_cols p)) (pn_samples p) j /
                      sumn (List.length (pn_cols p)) (supplied w (List.length (pn_cols p)) (pn_samples p))) /\
    (forall g h, (forall c, In c (pn_cols p) -> dot (pn_n p) g c <= h) -> dot (pn_n p) g v <= h) /\
    (forall g b, (forall c, In c (pn_cols p) -> dot (pn_n p) g c = b) -> dot (pn_n p) g v = b) /\
    (forall i lo hi, (forall c, In c (pn_cols p) -> lo <= c i <= hi) -> lo <= v i <= hi).
Proof.
  intros p w v nm Hs H Hp. destruct (average_ok p w v nm Hs H) as (E & ws & E2 & HL & H1 & HC).
  assert (HN : labels_fit w (List.length (pn_cols p)) (pn_samples p)) by (intros l ks _ E'; rewrite E' in Hs; exact Hs).
  pose proof (supplied_nonneg_weights w _ _ ws HN E2 Hp) as HW.
  pose proof (normalize_weights_ok w _ _ ws HN E2) as (_ & _ & _ & _ & Hj).
  split; [exact E|]. split; [exists ws; auto|]. split; [|split].
  - intros g h Hg. exact (combination_le (pn_n p) g h (pn_cols p) ws v HW HC Hg).
  - intros g b Hg. exact (combination_eq (pn_n p) g b (pn_cols p) ws v HL H1 HC Hg).
  - intros i lo hi Hb. exact (combination_bounds (pn_cols p) ws v i lo hi HW HC Hb).
Qed.
Print Assumptions average_preserves_constraints.

(** C18: equalities (for instance the budget) survive even with negative weights. *)
Theorem average_preserves_equalities :
  forall p w v nm g b,
    (match pn_samples p with Some ks => List.length ks = List.length (pn_cols p) | None => True end) ->
    average_exposures p w = Ok (v, nm) ->
    (forall c, In c (pn_cols p) -> dot (pn_n p) g c = b) -> dot (pn_n p) g v = b.
Proof.
  intros p w v nm g b Hs H Hg. destruct (average_ok p w v nm Hs H) as (E & ws & E2 & HL & H1 & HC).
  exact (combination_eq (pn_n p) g b (pn_cols p) ws v HL H1 HC Hg).
Qed.
Print Assumptions average_preserves_equalities.

(** C18, finding: with an (accepted) negative weight the average of long-only samples may be short. *)
Theorem average_long_only_refuted :
  ~ (forall p w v nm, average_exposures p w = Ok (v, nm) ->
       (forall c i, In c (pn_cols p) -> 0 <= c i) -> forall i, 0 <= v i).
Proof.
  intros H.
  set (p := mkPanel 2 [fun i => if Nat.eqb i 0 then 1 else 0; fun i => if Nat.eqb i 0 then 0 else 1] None None).
  assert (E : exists v, average_exposures p (WSeq [Fin 2; Fin (-1)]) = Ok (v, None) /\ v 1%nat = -1).
  { unfold average_exposures, normalize_weights. simpl. destruct (Rleb_spec (2 + (-1 + 0)) 0); [lra|]. simpl.
    eexists. split; [reflexivity|]. unfold combine_cols. simpl. field. }
  destruct E as (v & E & Ev). assert (0 <= v 1%nat); [|lra].
  apply (H p _ v None E). intros c i [<-|[<-|[]]]; destruct (Nat.eqb i 0); lra.
Qed.
Print Assumptions average_long_only_refuted.

Example average_case : exists v,
  average_exposures (mkPanel 2 [fun i => if Nat.eqb i 0 then 6/10 else 4/10; fun i => if Nat.eqb i 0 then 3/10 else 7/10] None None)
    (WSeq [Fin 1; Fin 3]) = Ok (v, None) /\ v 0%nat = 375 / 1000 /\ v 1%nat = 625 / 1000.
Proof.
  unfold average_exposures, normalize_weights. simpl. destruct (Rleb_spec (1 + (3 + 0)) 0); [lra|]. simpl.
  eexists. split; [reflexivity|]. unfold combine_cols; simpl. split; field.
Qed.

(** C19: stacking runs only with 2 <= L <= n; its folds are L non-empty blocks which together list
    every sample once; all but the last have floor(n/L) samples and the last takes the rest. *)
Theorem folds_partition_samples :
  (forall n L, (2 <= L <= n)%nat ->
     List.concat (partitions n L) = seq 0 n /\ List.length (partitions n L) = L /\
     Forall (fun f => f <> [] /\ (n / L <= List.length f <= n / L + (L - 1))%nat) (partitions n L)) /\
  (forall solver p L, pn_cols p <> [] -> (L < 2)%Z \/ (Z.of_nat (List.length (pn_cols p)) < L)%Z ->
     exposure_stacking solver p L = Err ValueError).
Proof.
  split; [exact partitions_spec|]. intros solver p L Hne HL. unfold exposure_stacking, ensure_samples.
  destruct (Nat.eqb_spec (List.length (pn_cols p)) 0) as [E|_]; [destruct (pn_cols p); [congruence|discriminate]|].
  simpl. destruct (Z.ltb_spec L 2); [reflexivity|]. destruct (Z.ltb_spec (Z.of_nat (List.length (pn_cols p))) L); [reflexivity|lia].
Qed.
Print Assumptions folds_partition_samples.

(** C19, finding: the folds are not balanced: five samples in three folds give sizes 1, 1, 3. *)
Theorem folds_balanced_refuted :
  ~ (forall n L, (2 <= L <= n)%nat -> forall f g, In f (partitions n L) -> In g (partitions n L) ->
       (List.length f <= List.length g + 1)%nat).
Proof.
  intros H. specialize (H 5%nat 3%nat ltac:(lia) [2;3;4]%nat [0]%nat).
  assert (E : partitions 5 3 = [[0]; [1]; [2; 3; 4]]%nat) by reflexivity. rewrite E in H. simpl in H.
  assert (3 <= 2)%nat by (apply H; auto). lia.
Qed.
Print Assumptions folds_balanced_refuted.

(** C20: the programme's objective is the cross-validated residual up to a constant, it is convex, and
    its feasible set is the simplex. *)
Theorem stacking_programme_is_cv_residual :
  forall N cols L, (2 <= L <= List.length cols)%nat ->
    (forall w, qp_obj (stack_qp N cols L) w =
       cv_residual N cols (partitions (List.length cols) L) w -
       rsum (map (fun f => sumn N (fun t => (fold_mean cols f t) ^ 2)) (partitions (List.length cols) L))) /\
    psd (qp_n (stack_qp N cols L)) (qp_P (stack_qp N cols L)) /\
    (forall w, qp_feasible (stack_qp N cols L) w <->
       convex_weights (List.length cols) (map w (seq 0 (List.length cols)))).
Proof.
  intros N cols L HL. split; [intros w; exact (stack_obj N cols L w HL)|]. split; [exact (stack_psd N cols L)|exact (stack_feasible N cols L)].
Qed.
Print Assumptions stacking_programme_is_cv_residual.

(** C20: so a returned stack is a convex combination of the samples whose weights minimise the
    cross-validated residual among all convex weights. *)
Theorem stacking_optimal :
  forall solver p L v nm w,
    exposure_stacking solver p L = Ok (v, nm) ->
    solver (stack_qp (pn_n p) (pn_cols p) (Z.to_nat L)) = Some w ->
    qp_optimum (stack_qp (pn_n p) (pn_cols p) (Z.to_nat L)) w ->
    let n := List.length (pn_cols p) in
    nm = pn_assets p /\ (2 <= L <= Z.of_nat n)%Z /\
    convex_weights n (map w (seq 0 n)) /\ is_combination (pn_cols p) (map w (seq 0 n)) v /\
    forall u, convex_weights n (map u (seq 0 n)) ->
      cv_residual (pn_n p) (pn_cols p) (partitions n (Z.to_nat L)) w <= cv_residual (pn_n p) (pn_cols p) (partitions n (Z.to_nat L)) u.
Proof. exact stacking_ok. Qed.
Print Assumptions stacking_optimal.

(** C20: and it keeps every linear constraint shared by the samples. *)
Theorem stacking_preserves_constraints :
  forall solver p L v nm,
    exposure_stacking solver p L = Ok (v, nm) ->
    (forall q x, solver q = Some x -> qp_feasible q x) ->
    (forall g h, (forall c, In c (pn_cols p) -> dot (pn_n p) g c <= h) -> dot (pn_n p) g v <= h) /\
    (forall g b, (forall c, In c (pn_cols p) -> dot (pn_n p) g c = b) -> dot (pn_n p) g v = b).
Proof.
  intros solver p L v nm H Hs. unfold exposure_stacking in H. apply bind_ok in H as (p' & E & H).
  assert (p' = p) as -> by (unfold ensure_samples in E; destruct (Nat.eqb _ 0); [discriminate|congruence]).
  destruct (Z.ltb L 2); [discriminate|]. destruct (Z.ltb _ L); [discriminate|].
  destruct (solver _) as [w|] eqn:Ew; [|discriminate]. injection H as <- _.
  apply Hs, stack_feasible in Ew.
  assert (HC : is_combination (pn_cols p) (map w (seq 0 (List.length (pn_cols p)))) (combine_cols (pn_cols p) (map w (seq 0 (List.length (pn_cols p))))))
    by (apply combine_cols_spec; rewrite map_length, seq_length; reflexivity).
  split; intros g h Hg.
  - exact (combination_le (pn_n p) g h (pn_cols p) _ _ Ew HC Hg).
  - destruct Ew as (W1 & W2 & _). exact (combination_eq (pn_n p) g h (pn_cols p) _ _ W1 W2 HC Hg).
Qed.
Print Assumptions stacking_preserves_constraints.

(** Two samples, two folds, one asset with exposures 1 and 3: residual (3 w2 - 1)^2 + (w1 - 3)^2, minimal
    on the simplex at w = (9/10, 1/10). *)
Definition two_cols : list vec := [fun _ => 1; fun _ => 3].
Example stacking_case :
  qp_optimum (stack_qp 1 two_cols 2) (fun j => if Nat.eqb j 0 then 9/10 else 1/10).
Proof.
  assert (R : forall w, cv_residual 1 two_cols (partitions 2 2) w = (3 * w 1%nat - 1) ^ 2 + (w 0%nat - 3) ^ 2).
  { intros w. unfold cv_residual, two_cols, outside, fold_mean. simpl. unfold rsum. simpl. field. }
  split.
  - apply stack_feasible. simpl. split; [reflexivity|]. split; [unfold rsum; simpl; lra|]. intros x Hx. destruct Hx as [<-|[<-|F]]; [lra|lra|destruct F].
  - intros y Hy. apply stack_feasible in Hy as (_ & H1 & H2). rewrite !stack_obj by (simpl; lia). cbn [List.length two_cols] in *.
    apply Rplus_le_compat_r. rewrite !R. simpl in H1. unfold rsum in H1; simpl in H1. assert (0 <= y 0%nat) by (apply H2; simpl; auto).
    assert (0 <= y 1%nat) by (apply H2; simpl; auto). simpl.
    assert (E : y 0%nat = 1 - y 1%nat) by lra. rewrite E. pose proof (pow2_ge_0 (y 1%nat - 1/10)). nra.
Qed.

(** C48: properly nested uses of [solver_options] leave the process-wide options as they were, whatever
    happens inside, and while inside the overrides apply on top of the previous values. *)
Theorem solver_options_restored :
  (forall es, nested_uses es -> forall g s, fst (opt_run (g, s) es) = g) /\
  (forall g ov k, assoc k (update g ov) = match assoc k ov with Some v => Some v | None => assoc k g end).
Proof. split; [exact nested_restores|exact assoc_update]. Qed.
Print Assumptions solver_options_restored.

Example nested_case : nested_uses [Enter 0 [("abstol"%string, 1)]; Assign []; Enter 0 [("feastol"%string, 2)]; Leave 0; Leave 0].
Proof.
  apply (nu_use 0 [("abstol"%string, 1)] [Assign []; Enter 0 [("feastol"%string, 2)]; Leave 0] []); [|constructor].
  constructor. apply (ic_nest 0 _ [] []); constructor.
Qed.

(** C48, finding: two threads stacking at the same time can leave one caller's overrides installed for
    good (enter 0, enter 1, leave 0, leave 1). *)
Theorem solver_options_restored_across_threads_refuted :
  ~ (forall g ov ov', fst (opt_run (g, fun _ => []) [Enter 0 ov; Enter 1 ov'; Leave 0; Leave 1]) = g).
Proof. intros H. specialize (H [] [("abstol"%string, 1)] []). simpl in H. discriminate. Qed.
Print Assumptions solver_options_restored_across_threads_refuted.

(** C49: collecting frontiers and panels takes exactly one column per frontier (the chosen one, counted
    from either end, or the first of least risk), all columns of each panel, in order; every entry has the
    same number of assets, and the labels of all labelled entries are identical. *)
Theorem blending_never_mixes_assets :
  forall entries selections p,
    Forall well_shaped entries -> collect_samples entries selections = Ok p ->
    exists sels pieces,
      match selections with Some s => sels = s | None => sels = repeat None (List.length entries) end /\
      List.length sels = List.length entries /\
      Forall2 (fun es c => contributes (fst es) (snd es) c) (combine entries sels) pieces /\
      pn_cols p = List.concat pieces /\ pn_cols p <> [] /\
      (forall e, In e entries -> entry_dim e = pn_n p) /\
      (forall e l, In e entries -> labelled (entry_labels e) = Some l -> pn_assets p = Some l) /\
      (forall l, pn_assets p = Some l -> exists e, In e entries /\ labelled (entry_labels e) = Some l).
Proof. exact collect_samples_ok. Qed.
Print Assumptions blending_never_mixes_assets.

(** C49: disagreeing labels, even a reordering, are rejected. *)
Theorem blending_rejects_other_labels :
  forall e e' l l' sel, Forall well_shaped [e; e'] ->
    labelled (entry_labels e) = Some l -> labelled (entry_labels e') = Some l' -> l <> l' ->
    forall p, collect_samples [e; e'] sel <> Ok p.
Proof.
  intros e e' l l' sel Hw H1 H2 Hne p H.
  destruct (collect_samples_ok _ _ _ Hw H) as (sels & ps & _ & _ & _ & _ & _ & _ & HL & _).
  pose proof (HL e l (or_introl eq_refl) H1) as A. pose proof (HL e' l' (or_intror (or_introl eq_refl)) H2) as B. congruence.
Qed.
Print Assumptions blending_rejects_other_labels.

(** Two frontiers with three portfolios each: the least-risk column of the first, the last of the second. *)
Definition fr1 := mkF 2 [fun _ => 1; fun _ => 2; fun _ => 3] [5; 4; 6] (Some ["a"; "b"]%string).
Definition fr2 := mkF 2 [fun _ => 7; fun _ => 8; fun _ => 9] [1; 2; 3] None.
Example collect_case :
  collect_samples [EFrontier fr1; EFrontier fr2] (Some [None; Some [(-1)%Z]]) =
  Ok (mkPanel 2 [fun _ => 2; fun _ => 9] (Some ["a"; "b"]%string) None).
Proof.
  unfold collect_samples. simpl. unfold Rltb.
  destruct (Rlt_dec 4 5); [|lra]. destruct (Rlt_dec 6 4); [lra|]. reflexivity.
Qed.
