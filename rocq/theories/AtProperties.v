(** C158: stacking degrades gracefully with the tolerances of the quadratic solver. *)
From Coq Require Import Psatz.
From Verif Require Import RBase QpBase ConsModel EnsModel EnsSpec EnsProofs EnsProperties OptModel OptSpec OptProofs6 ExistSpec AxSpec AxProperties AtSpec.
Open Scope R_scope.
Open Scope list_scope.

Lemma near_stack d N cols L w : near_qp d (stack_qp N cols L) w ->
  near_convex d (List.length cols) (map w (seq 0 (List.length cols))).
Proof.
  unfold near_qp, stack_qp, near_convex. cbn [qp_n qp_ineq qp_eq]. set (n := List.length cols). intros [H1 H2].
  assert (Ed : dot n (fun _ => 1) w = rsum (map w (seq 0 n))).
  { rewrite rsum_seq. apply sumn_ext. intros; simpl; ring. }
  split; [rewrite map_length, seq_length; reflexivity|]. split.
  - rewrite <- Ed. apply H2. simpl; auto.
  - intros x Hx. apply in_map_iff in Hx as (i & <- & Hi). pose proof Hi as Hi'. apply in_seq in Hi.
    assert (H := H1 (fun j => - delta i j) 0). cbv beta in H.
    assert (Hd : dot n (fun j => - delta i j) w = - w i).
    { unfold dot. rewrite (sumn_ext _ _ (fun j => - (delta i j * w j))) by (intros; ring). rewrite sumn_opp, sumn_delta_r by lia. reflexivity. }
    rewrite Hd in H. assert (- w i <= 0 + d); [|lra]. apply H. apply in_map_iff. exists i. auto.
Qed.

Lemma rsum_nth_f {A} (f : A -> R) (l : list A) (a : A) : rsum (map f l) = sumn (List.length l) (fun j => f (nth j l a)).
Proof.
  rewrite rsum_sumn, map_length. apply sumn_ext. intros j Hj. rewrite (nth_indep _ 0 (f a)) by (rewrite map_length; exact Hj).
  apply map_nth.
Qed.

Lemma near_combination_le d N g h cols w v : 0 <= d -> near_convex d (List.length cols) w -> is_combination cols w v ->
  (forall c, In c cols -> dot N g c <= h) -> dot N g v <= h + d * (Rabs h + total_slack N g h cols).
Proof.
  intros Hd (Hl & Hs & Hp) HC Hg. rewrite (combination_dot N g cols w v HC).
  set (n := List.length cols) in *. unfold total_slack. rewrite (rsum_nth_f _ cols (fun _ => 0)). fold n.
  assert (Es : rsum w = sumn n (fun j => nth j w 0)).
  { rewrite <- (map_id w) at 1. rewrite (rsum_nth_f (fun x => x) w 0), Hl. reflexivity. }
  assert (A1 : sumn n (fun j => nth j w 0 * dot N g (nth j cols (fun _ => 0))) <=
               sumn n (fun j => nth j w 0 * h + d * (h - dot N g (nth j cols (fun _ => 0))))).
  { apply sumn_le. intros j Hj.
    assert (- d <= nth j w 0) by (apply Hp, nth_In; lia).
    assert (dot N g (nth j cols (fun _ => 0)) <= h) by (apply Hg, nth_In; exact Hj). nra. }
  rewrite sumn_plus, sumn_scale_r, sumn_scale, <- Es in A1.
  assert (rsum w * h <= h + d * Rabs h).
  { replace (rsum w * h) with (h + (rsum w - 1) * h) by ring. apply Rplus_le_compat_l.
    eapply Rle_trans; [apply Rle_abs|]. rewrite Rabs_mult. apply Rmult_le_compat_r; [apply Rabs_pos|exact Hs]. }
  lra.
Qed.

Lemma near_combination_eq d N g b cols w v : near_convex d (List.length cols) w -> is_combination cols w v ->
  (forall c, In c cols -> dot N g c = b) -> Rabs (dot N g v - b) <= d * Rabs b.
Proof.
  intros (Hl & Hs & _) HC Hg. rewrite (combination_dot N g cols w v HC).
  set (n := List.length cols) in *.
  assert (Es : rsum w = sumn n (fun j => nth j w 0)).
  { rewrite <- (map_id w) at 1. rewrite (rsum_nth_f (fun x => x) w 0), Hl. reflexivity. }
  rewrite (sumn_ext n _ (fun j => nth j w 0 * b)).
  - rewrite sumn_scale_r, <- Es. replace (rsum w * b - b) with ((rsum w - 1) * b) by ring.
    rewrite Rabs_mult. apply Rmult_le_compat_r; [apply Rabs_pos|exact Hs].
  - intros j Hj. rewrite Hg; [reflexivity|]. apply nth_In. exact Hj.
Qed.

(** C158: the sample weights are convex up to [d], the stack is that combination, and its cross-validated residual is at
    most [e] above that of every convex combination. *)
Theorem stacking_inexact : forall solver d e p L v nm,
  approx_qp d e solver -> exposure_stacking solver p L = Ok (v, nm) ->
  let n := List.length (pn_cols p) in
  nm = pn_assets p /\ (2 <= L <= Z.of_nat n)%Z /\
  exists w, near_convex d n (map w (seq 0 n)) /\ is_combination (pn_cols p) (map w (seq 0 n)) v /\
    forall u, convex_weights n (map u (seq 0 n)) ->
      cv_residual (pn_n p) (pn_cols p) (partitions n (Z.to_nat L)) w <=
      cv_residual (pn_n p) (pn_cols p) (partitions n (Z.to_nat L)) u + e.
Proof.
  intros solver d e p L v nm Hs H n. unfold exposure_stacking in H. apply bind_ok in H as (p' & E & H).
  assert (p' = p) as -> by (unfold ensure_samples in E; destruct (Nat.eqb _ 0); [discriminate|congruence]).
  destruct (Z.ltb_spec L 2); [discriminate|]. fold n in H. destruct (Z.ltb_spec (Z.of_nat n) L); [discriminate|].
  destruct (solver _) as [w|] eqn:Ew; [|discriminate]. injection H as <- <-.
  split; [reflexivity|]. split; [lia|]. destruct (Hs _ _ Ew) as [Hf Ho]. exists w. split; [exact (near_stack _ _ _ _ _ Hf)|].
  split; [apply combine_cols_spec; rewrite map_length, seq_length; reflexivity|].
  intros u Hu. apply stack_feasible with (N := pn_n p) (L := Z.to_nat L) in Hu. specialize (Ho u Hu).
  rewrite !stack_obj in Ho by (fold n; lia). fold n in Ho. lra.
Qed.
Print Assumptions stacking_inexact.

(** C158: constraints shared by the samples hold up to a multiple of [d]. *)
Theorem stacking_inexact_constraints : forall solver d e p L v nm,
  0 <= d -> approx_qp d e solver -> exposure_stacking solver p L = Ok (v, nm) ->
  (forall g h, (forall c, In c (pn_cols p) -> dot (pn_n p) g c <= h) ->
     dot (pn_n p) g v <= h + d * (Rabs h + total_slack (pn_n p) g h (pn_cols p))) /\
  (forall g b, (forall c, In c (pn_cols p) -> dot (pn_n p) g c = b) -> Rabs (dot (pn_n p) g v - b) <= d * Rabs b).
Proof.
  intros solver d e p L v nm Hd Hs H. destruct (stacking_inexact _ _ _ _ _ _ _ Hs H) as (_ & _ & w & Hw & HC & _).
  split; intros g h Hg.
  - exact (near_combination_le d _ g h _ _ _ Hd Hw HC Hg).
  - exact (near_combination_eq d _ g h _ _ _ Hw HC Hg).
Qed.
Print Assumptions stacking_inexact_constraints.

(** C158: stacking frontiers stacks the selected columns, with the same guarantees. *)
Theorem stacking_frontiers_inexact : forall solver d e fs L sel v nm,
  0 <= d -> approx_qp d e solver -> exposure_stack_frontiers solver fs L sel = Ok (v, nm) ->
  exists p w, collect_samples fs sel = Ok p /\ nm = pn_assets p /\
    let n := List.length (pn_cols p) in
    near_convex d n (map w (seq 0 n)) /\ is_combination (pn_cols p) (map w (seq 0 n)) v /\
    (forall u, convex_weights n (map u (seq 0 n)) ->
      cv_residual (pn_n p) (pn_cols p) (partitions n (Z.to_nat L)) w <=
      cv_residual (pn_n p) (pn_cols p) (partitions n (Z.to_nat L)) u + e) /\
    (forall g h, (forall c, In c (pn_cols p) -> dot (pn_n p) g c <= h) ->
      dot (pn_n p) g v <= h + d * (Rabs h + total_slack (pn_n p) g h (pn_cols p))) /\
    (forall g b, (forall c, In c (pn_cols p) -> dot (pn_n p) g c = b) -> Rabs (dot (pn_n p) g v - b) <= d * Rabs b).
Proof.
  intros solver d e fs L sel v nm Hd Hs H. unfold exposure_stack_frontiers in H. apply bind_ok in H as (p & Ep & H).
  apply bind_ok in H as ([v' l] & Ev & H). injection H as <- <-.
  destruct (stacking_inexact _ _ _ _ _ _ _ Hs Ev) as (_ & _ & w & Hw & HC & Ho).
  destruct (stacking_inexact_constraints _ _ _ _ _ _ _ Hd Hs Ev) as [H1 H2].
  exists p, w. cbv zeta. cbn [pn_n pn_cols] in *. auto 10.
Qed.
Print Assumptions stacking_frontiers_inexact.

(** Two samples, two folds, exposures 1 and 3: a solver within 1/100 may answer (91/100, 1/10), so the stack is 1.21. *)
Example stacking_inexact_case :
  let solve := pin_qp (stack_qp 1 two_cols 2) (fun j => if Nat.eqb j 0 then 91/100 else 1/10) in
  approx_qp (1 / 100) 0 solve /\
  exists v, exposure_stacking solve (mkPanel 1 two_cols None None) 2 = Ok (v, None) /\ v 0%nat = 121 / 100.
Proof.
  intros solve.
  assert (R : forall w, cv_residual 1 two_cols (partitions 2 2) w = (3 * w 1%nat - 1) ^ 2 + (w 0%nat - 3) ^ 2).
  { intros w. unfold cv_residual, two_cols, outside, fold_mean. simpl. unfold rsum. simpl. field. }
  destruct (pin_qp_approx (1/100) 0 (stack_qp 1 two_cols 2) (fun j => if Nat.eqb j 0 then 91/100 else 1/10)) as (H1 & _ & H3); [lra|lra| | |].
  - split.
    + intros g h Hi. simpl in Hi. destruct Hi as [E|[E|[]]]; injection E as <- <-; unfold dot; simpl; unfold delta; simpl; lra.
    + intros a b [E|[]]. injection E as <- <-. unfold dot; simpl. rewrite Rabs_right; lra.
  - intros y Hy. destruct stacking_case as [_ Ho]. specialize (Ho y Hy). rewrite !stack_obj in * by (simpl; lia).
    cbn [List.length two_cols] in *. rewrite !R in *. simpl in *. lra.
  - split; [exact H1|]. unfold exposure_stacking. cbn. fold solve in H3. change (Pos.to_nat 2) with 2%nat.
    rewrite H3. eexists. split; [reflexivity|]. unfold combine_cols. simpl. lra.
Qed.
