(** A perfect solver, and concrete calls. *)
From Coq Require Import ClassicalEpsilon.
From Verif Require Import RBase QpBase OptModel MomSpec BlModel EpModel EpSpec EpProofs EpProofs2 EpProofs3 EpProofs4.
Open Scope R_scope.
Open Scope list_scope.

Definition best_minimize (d : dual) : option vec :=
  match excluded_middle_informative (exists lam, stationary d lam) with
  | left H => Some (proj1_sig (constructive_indefinite_description _ H))
  | right _ => None
  end.
Lemma best_minimize_sound : sound best_minimize.
Proof.
  intros d lam. unfold best_minimize. destruct (excluded_middle_informative _) as [H|]; [|discriminate].
  destruct (constructive_indefinite_description _ H) as [l Hl]. simpl. intros E. injection E as <-. exact Hl.
Qed.
Lemma best_minimize_finds : finds best_minimize.
Proof. intros d lam H. unfold best_minimize. destruct (excluded_middle_informative _) as [|N]; [discriminate|]. exfalso. apply N. eauto. Qed.

Lemma exp_700_small x : 1 / 10 <= x -> exp (-700) < x.
Proof.
  intros H. apply Rlt_le_trans with (1 / 10); auto.
  assert (1 + 700 <= exp 700) by apply exp_ineq1_le. replace (-700) with (- (700)) by lra. rewrite exp_Ropp.
  apply Rle_lt_trans with (/ 701); [apply Rinv_le_contravar; lra|lra].
Qed.

(** Views determining the distribution: the call returns it. *)
Lemma determined minimize p A G method q : sound minimize -> finds minimize -> supported method ->
  p <> [] -> (forall x, In x p -> 0 < x) -> has_ones (List.length p) A -> obeys (List.length p) A (opt_rows G) q ->
  (forall q', obeys (List.length p) A (opt_rows G) q' -> forall s, (s < List.length p)%nat -> q' s = q s) ->
  (forall s, (s < List.length p)%nat -> 1 / 10 <= q s) ->
  exists q', entropy_pooling minimize p A G method = Ok q' /\ forall s, (s < List.length p)%nat -> q' s = q s.
Proof.
  intros So Fi Su Ne Pp Ho O U L. apply ep_finds_l; auto.
  - split; auto. intros q' O'. split; auto. right. apply kl_ext; auto. intros; symmetry; apply U; auto.
  - intros s Hs. apply exp_700_small; auto.
Qed.
Definition up_row : vec := of_list [0; 1].
Lemma two_states b : 1 / 10 <= b <= 9 / 10 -> forall p G method, p = [1 / 2; 1 / 2] -> opt_rows G = [] -> supported method ->
  exists q, entropy_pooling best_minimize p [(up_row, b); ones_row] G method = Ok q /\ q 0%nat = 1 - b /\ q 1%nat = b.
Proof.
  intros Hb p G method -> HG Su.
  destruct (determined best_minimize [1 / 2; 1 / 2] [(up_row, b); ones_row] G method (of_list [1 - b; b]) best_minimize_sound best_minimize_finds Su) as [q [E Q]].
  - discriminate.
  - simpl. intros x [<- |[<- |[]]]; lra.
  - exists (fun _ => 1). split; [right; left; reflexivity|auto].
  - rewrite HG. split; [split|split].
    + intros [|[|t]] Ht; cbn in *; try lia; unfold of_list; cbn; lra.
    + cbn. unfold of_list; cbn. lra.
    + intros r c [H|[H|[]]]; unfold ones_row in H; injection H as <- <-; unfold expectation; cbn; unfold up_row, of_list; cbn; lra.
    + intros r h [].
  - rewrite HG. intros q' [[P1 P2] [E _]] s Hs. pose proof (E up_row b (or_introl eq_refl)) as E1. unfold expectation in E1. cbn in *. unfold up_row, of_list in *. cbn in *.
    destruct s as [|[|s]]; [cbn; lra|cbn; lra|lia].
  - intros [|[|s]] Hs; cbn in *; try lia; unfold of_list; cbn; lra.
  - exists q. split; auto. rewrite (Q 0%nat), (Q 1%nat) by (cbn; lia). unfold of_list; cbn. split; reflexivity.
Qed.

(** Without the row of ones, stationarity constrains the unnormalised weights only. *)
Lemma no_ones_l : exists q, entropy_pooling best_minimize [1 / 2; 1 / 2] [(of_list [1; 0], 3 / 10)] None None = Ok q /\
  expectation 2 q (of_list [1; 0]) <> 3 / 10.
Proof.
  set (A := [(of_list [1; 0], 3 / 10)] : rows).
  destruct (normalize_positive_ok [1 / 2; 1 / 2]) as [pn E]; [discriminate|intros x [<- |[<- |[]]]; lra|].
  assert (N : pn = [1 / 2; 1 / 2]).
  { unfold normalize_positive in E. destruct (existsb _ _); [discriminate|]. cbn [negb guard] in E.
    assert (F : risclose (rsum [1 / 2; 1 / 2]) 1 = true).
    { unfold risclose. apply Rleb_true. replace (rsum [1 / 2; 1 / 2] - 1) with 0 by (cbn; lra). rewrite Rabs_R0, Rabs_R1. lra. }
    rewrite F in E. injection E as <-. reflexivity. }
  set (d := ep_dual pn A None "TNC"%string).
  assert (K : du_K d = 1%nat) by reflexivity.
  assert (X0 : forall lam, ep_exponent d lam 0 = ln (1 / 2) - 1 - lam 0%nat).
  { intros lam. unfold ep_exponent. rewrite K. cbn [sumn]. unfold d. cbn [ep_dual du_logp]. rewrite N. unfold row_of, A. cbn. unfold of_list. cbn. ring. }
  assert (X1 : forall lam, ep_exponent d lam 1 = ln (1 / 2) - 1).
  { intros lam. unfold ep_exponent. rewrite K. cbn [sumn]. unfold d. cbn [ep_dual du_logp]. rewrite N. unfold row_of, A. cbn. unfold of_list. cbn. ring. }
  assert (L : -2 <= ln (1 / 2) <= 0).
  { split; [|rewrite <- ln_1; apply Rlt_le, ln_increasing; lra].
    assert (ln (/ (1 / 2)) <= / (1 / 2) - 1) by (apply ln_le_sub1; lra). rewrite ln_Rinv in H by lra. lra. }
  assert (GR : forall lam, dual_gradient d lam 0 = 1000 * (3 / 10 - ep_x d lam 0)).
  { intros lam. unfold dual_gradient, d. cbn [ep_dual du_S]. rewrite N. cbn [List.length sumn]. unfold rhs_of, row_of, A. cbn [ep_dual du_rows opt_rows app nth fst snd]. unfold of_list. cbn [nth]. ring. }
  assert (ST : exists lam, stationary d lam).
  { exists (fun _ => ln (1 / 2) - 1 - ln (3 / 10)). split.
    - intros k Hk. assert (k = 0%nat) by (unfold d in Hk; cbn in Hk; lia). subst k. rewrite GR. unfold ep_x. rewrite X0.
      replace (ln (1 / 2) - 1 - (ln (1 / 2) - 1 - ln (3 / 10))) with (ln (3 / 10)) by ring.
      rewrite clip_id; [rewrite exp_ln by lra; ring|]. split.
      + assert (ln (/ (3 / 10)) <= / (3 / 10) - 1) by (apply ln_le_sub1; lra). rewrite ln_Rinv in H by lra. lra.
      + pose proof (ln_le_sub1 (3 / 10)). lra.
    - intros k Hk. unfold d in Hk. cbn in Hk. lia. }
  assert (R : exists q, entropy_pooling best_minimize [1 / 2; 1 / 2] A None None = Ok q).
  { unfold entropy_pooling. cbn [String.eqb]. rewrite E. cbn [bind]. fold (ep_dual pn A None "TNC"%string). fold d.
    destruct (best_minimize d) eqn:B; [cbn; eauto|]. exfalso. destruct ST as [lam St]. apply (best_minimize_finds d lam St B). }
  destruct R as [q R]. exists q. split; auto.
  unfold entropy_pooling in R. cbn [String.eqb] in R. rewrite E in R. cbn [bind] in R. fold (ep_dual pn A None "TNC"%string) in R. fold d in R.
  destruct (best_minimize d) as [lam|] eqn:B; [|discriminate R]. destruct (best_minimize_sound d lam B) as [S1 _].
  assert (G0 : dual_gradient d lam 0 = 0) by (apply S1; unfold d; cbn; lia). rewrite GR in G0.
  assert (Q : forall s, q s = ep_x d lam s / (ep_x d lam 0 + ep_x d lam 1)).
  { intros s. cbn in R. injection R as <-. rewrite N. cbn. f_equal. ring. }
  unfold expectation. cbn [sumn]. unfold of_list. cbn [nth]. rewrite !Q.
  assert (E0 : ep_x d lam 0 = 3 / 10) by lra. rewrite E0.
  assert (E1 : 0 < ep_x d lam 1 < 1 / 2).
  { unfold ep_x. rewrite X1. split; [apply exp_pos|]. rewrite clip_id by lra. rewrite <- (exp_ln (1 / 2)) at 2 by lra. apply exp_increasing. lra. }
  set (y := ep_x d lam 1) in *. clearbody y. intros H.
  assert (H2 : (0 + 3 / 10 / (3 / 10 + y) * 1 + y / (3 / 10 + y) * 0) * (3 / 10 + y) = 3 / 10 * (3 / 10 + y)) by (rewrite H; reflexivity).
  replace ((0 + 3 / 10 / (3 / 10 + y) * 1 + y / (3 / 10 + y) * 0) * (3 / 10 + y)) with (3 / 10) in H2 by (field; lra). lra.
Qed.
