(** C11, C12: constraint matrices. *)
From Verif Require Import RBase ConsModel ConsSpec ConsProofs.
Open Scope R_scope.

(** C11.  A weight vector satisfies the returned [G w <= h, A w = b] exactly when it satisfies
    every constraint the user listed. *)
Theorem constraint_matrices_mean_the_constraints : forall c n m ws,
  to_matrices c n = Ok (m, ws) ->
  forall w, List.length w = Z.to_nat n -> (feasible m w <-> satisfies c (Z.to_nat n) w).
Proof. intros c n m ws H. exact (proj2 (proj2 (to_matrices_l c n m ws H))). Qed.
Print Assumptions constraint_matrices_mean_the_constraints.

(** C11.  The defaults are the simplex: non-negative weights summing to one. *)
Theorem default_constraints_are_the_simplex : forall n m ws w,
  to_matrices default_constraints n = Ok (m, ws) -> List.length w = Z.to_nat n ->
  (feasible m w <-> (forall x, In x w -> 0 <= x) /\ rsum w = 1).
Proof. exact default_simplex. Qed.
Print Assumptions default_constraints_are_the_simplex.

(** C12.  [G],[h] and [A],[b] have matching shapes; an absent pair is absent together. *)
Theorem constraint_matrix_shapes : forall c n m ws,
  to_matrices c n = Ok (m, ws) ->
  shaped (Z.to_nat n) (m_G m) (m_h m) /\ shaped (Z.to_nat n) (m_A m) (m_b m).
Proof. intros c n m ws H. destruct (to_matrices_l c n m ws H) as (H1 & H2 & _). split; assumption. Qed.
Print Assumptions constraint_matrix_shapes.

(** C12.  The builder accepts exactly the well-formed specifications ... *)
Theorem constraints_accepted_iff_well_formed : forall c n,
  (exists r, to_matrices c n = Ok r) <-> well_formed c n.
Proof. exact to_matrices_succeeds. Qed.
Print Assumptions constraints_accepted_iff_well_formed.

(** C12.  ... and otherwise raises ValueError, TypeError or IndexError. *)
Theorem constraints_rejected_with_clear_errors : forall c n e,
  to_matrices c n = Err e -> e = ValueError \/ e = TypeError \/ e = IndexError.
Proof. exact to_matrices_err. Qed.
Print Assumptions constraints_rejected_with_clear_errors.

(** C12.  [from_dict] ignores keys that are not fields (documented), so a misspelt key silently
    leaves its default in place. *)
Theorem from_dict_ignores_unknown_keys : forall d,
  from_dict d = from_dict (filter (fun e => match e with Known _ => true | Unknown _ => false end) d).
Proof. exact from_dict_unknown. Qed.
Print Assumptions from_dict_ignores_unknown_keys.

(** C12.  When the "feasible set may be unbounded" warning is issued and no group or extra
    equality row is present, the feasible set really is unbounded. *)
Theorem unbounded_warning_is_right : forall c n m ws K,
  to_matrices c n = Ok (m, ws) -> In WUnbounded ws -> (2 <= n)%Z ->
  opt_list (c_groups c) = [] -> opt_list (c_extra_A c) = [] ->
  exists w, List.length w = Z.to_nat n /\ feasible m w /\ K < wt w 0.
Proof. exact unbounded_l. Qed.
Print Assumptions unbounded_warning_is_right.

(** A specification using every kind of constraint. *)
Definition sample : constraints :=
  mkC true (Some (Num (Fin 1))) (Some (BDict [(1%Z, [Some (Num (Fin (1/10))); None])]))
    (Some [RelTriple 0 2 (Num (Fin (1/5)))])
    (Some [("Equity"%string, ([0; 1; 1]%Z, Num (Fin (1/5)), Num (Fin (3/5))))])
    (Some [([Fin 1; Fin 0; Fin 2], Num (Fin 2))]) (Some [([Fin 0; Fin 1; Fin (-1)], Num (Fin 0))]).

Example sample_well_formed : well_formed sample 3.
Proof.
  unfold well_formed, sample, finite_num; simpl. split; [lia|].
  split; [intros x E; injection E as <-; eauto|].
  split.
  { intros i lu [E|[]]. injection E as <- <-. split; [unfold good_index; simpl; lia|].
    exists (Some (Num (Fin (1/10)))), None. repeat split; try discriminate.
    intros x E; injection E as <-. exists (1/10). reflexivity. }
  split.
  { intros e [<-|[]]. simpl. unfold good_index, finite_num. simpl. repeat split; try lia. eauto. }
  split.
  { intros e [<-|[]]. simpl. split.
    - unfold good_index. simpl. intros i [<-|[<-|[<-|[]]]]; lia.
    - exists (1/5), (3/5). repeat split; lra. }
  split; intros e [<-|[]]; unfold good_extra, finite_num; simpl; eauto.
Qed.

Example sample_satisfiable : satisfies sample 3 [1/5; 2/5; 2/5] /\ ~ satisfies sample 3 [2/5; 3/10; 3/10].
Proof.
  assert (E : forall a b c, group_weight 3 [0; 1; 1]%Z [a; b; c] = a + b)
    by (intros; unfold group_weight, wt; simpl; ring).
  split.
  - unfold satisfies, sample; simpl. split.
    { intros _ i Hi. destruct i as [|[|[|]]]; unfold wt; simpl; lra || lia. }
    split. { intros i lu [E'|[]]. injection E' as <- <-. simpl; unfold wt; simpl. lra. }
    split. { intros e [<-|[]]. simpl; unfold wt; simpl. lra. }
    split. { intros e [<-|[]]. cbn [group_hold]. rewrite E. split; lra. }
    split. { intros e [<-|[]]. exists [1; 0; 2]. split; [reflexivity|]. unfold rdot, rsum; simpl. lra. }
    split. { unfold rsum; simpl. lra. }
    intros e [<-|[]]. exists [0; 1; -1]. split; [reflexivity|]. unfold rdot, rsum; simpl. lra.
  - intros (_ & _ & _ & H & _). specialize (H _ (or_introl eq_refl)). cbn [group_hold] in H. rewrite E in H. lra.
Qed.

Example sample_builds : exists m ws, to_matrices sample 3 = Ok (m, ws).
Proof. destruct (proj2 (to_matrices_succeeds sample 3) sample_well_formed) as [[m ws] H]. eauto. Qed.

Example warned_constraints : exists m,
  to_matrices (mkC false (Some (Num (Fin 1))) None None None None None) 4 = Ok (m, [WUnbounded]).
Proof. eexists. reflexivity. Qed.

(** C12, finding: user-supplied rows are not checked for finiteness, although every scalar is;
    a NaN coefficient reaches the solver matrices. *)
Theorem constraint_matrices_finite_refuted :
  ~ (forall c n m ws G row x, to_matrices c n = Ok (m, ws) -> m_G m = Some G ->
       In row G -> In x row -> exists r, x = Fin r).
Proof.
  intros H.
  pose (c := mkC false None None None None (Some [([NaN], Num (Fin 0))]) None).
  assert (E : to_matrices c 1 = Ok (mkM (Some [[NaN]]) (Some [0]) None None, [])) by reflexivity.
  destruct (H c 1%Z _ _ [[NaN]] [NaN] NaN E eq_refl (or_introl eq_refl) (or_introl eq_refl)) as [r Hr]. discriminate.
Qed.
Print Assumptions constraint_matrices_finite_refuted.

(** C12, finding: no warning for [bounds=(None, None)], although nothing bounds the positions. *)
Theorem unbounded_always_warned_refuted :
  ~ (forall c n m ws, to_matrices c n = Ok (m, ws) -> ~ In WUnbounded ws ->
       exists K, forall w, List.length w = Z.to_nat n -> feasible m w -> wt w 0 <= K).
Proof.
  intros H.
  pose (c := mkC false (Some (Num (Fin 1))) (Some (BTuple [None; None])) None None None None).
  assert (E : exists m, to_matrices c 2 = Ok (m, [])) by (eexists; reflexivity).
  destruct E as [m E]. destruct (H c 2%Z m [] E (fun h => h)) as [K HK].
  specialize (HK [K + 1; - K] eq_refl).
  assert (wt [K + 1; - K] 0 <= K).
  { apply HK. apply (constraint_matrices_mean_the_constraints c 2 m [] E); [reflexivity|].
    unfold satisfies; simpl. repeat split; try easy. unfold total_hold, rsum; simpl. lra. }
  unfold wt in H0; simpl in H0. lra.
Qed.
Print Assumptions unbounded_always_warned_refuted.
