(** The convenience function for Black-Litterman posteriors. *)
From Verif Require Import RBase QpBase OptModel OptSpec ExistSpec NiwModel BlModel BlSpec BlProofs4 LinLib BlProperties BfModel.
Open Scope R_scope.
Open Scope list_scope.

(** With [omega] given, the function returns the posterior of the processor built from the same arguments, or its error. *)
Theorem bl_function_is_processor : forall lsolve c om, k_omega c = Some om ->
  posterior_moments_black_litterman lsolve c = (let* b := BlackLittermanProcessor lsolve c in Ok (get_posterior b)).
Proof. intros lsolve c om H. unfold posterior_moments_black_litterman, BlackLittermanProcessor, function_args, class_args. rewrite H. reflexivity. Qed.
Print Assumptions bl_function_is_processor.

(** With [omega] omitted, the function derives it from confidences: a call with views and no confidences fails, whatever else is given. *)
Theorem bl_function_needs_confidences : forall lsolve c, k_omega c = None -> k_conf c = CNone ->
  (exists l, k_views c = MDict l /\ l <> []) \/ (exists l, k_views c = MVec l /\ l <> []) ->
  posterior_moments_black_litterman lsolve c = Err ValueError.
Proof.
  intros lsolve c HO HC HV. unfold posterior_moments_black_litterman.
  assert (H : black_litterman lsolve (function_args c) = Err ValueError); [|rewrite H; reflexivity].
  unfold black_litterman. set (a := function_args c). assert (Oa : a_omega a = OIdzorek) by (unfold a, function_args; cbn [a_omega]; rewrite HO; reflexivity).
  assert (Ca : a_conf a = CNone) by exact HC. assert (Va : a_views a = k_views c) by reflexivity. clearbody a.
  destruct (_ && _)%bool; [|reflexivity]. cbn [guard]. destruct (negb (Rleb (a_delta a) 0)); [|reflexivity]. cbn [guard].
  destruct (bl_prior _ _ a) as [[pi after]|e] eqn:Ep.
  2: { cbn [bind]. unfold bl_prior in Ep. destruct (a_pi a); [discriminate|]. destruct (a_weights a); [|destruct (a_mean a); [discriminate|congruence]].
       destruct (_ =? _)%nat; cbn [guard] in Ep; [discriminate|congruence]. }
  cbn [bind]. destruct (vec_to_dict _ _) as [d|e] eqn:Ed.
  2: { cbn [bind]. rewrite Va in Ed. unfold vec_to_dict in Ed. destruct (k_views c); try discriminate. destruct (_ =? _)%nat; cbn [guard] in Ed; [discriminate|congruence]. }
  cbn [bind]. assert (Nd : d <> []).
  { rewrite Va in Ed. destruct HV as [[l [E Nl]]|[l [E Nl]]]; rewrite E in Ed; cbn [vec_to_dict] in Ed; [congruence|].
    destruct (_ =? _)%nat eqn:L; cbn [guard] in Ed; [|discriminate]. apply Nat.eqb_eq in L. injection Ed as <-. destruct l as [|x l]; [congruence|]. destruct (bl_assets (a_cov a)) as [|y t]; [discriminate|].
    cbn [combine fold_left dict_set fst snd].
    assert (K : forall ps acc, acc <> [] -> fold_left (fun d p => dict_set d (KOne (fst p)) (VNum (snd p))) ps acc <> []).
    { induction ps as [|p ps IH]; intros acc Na; [exact Na|]. cbn [fold_left]. apply IH. destruct acc as [|[k' v'] acc]; [congruence|]. cbn [dict_set]. destruct (vkey_dec _ _); discriminate. }
    apply K. discriminate. }
  destruct (mapM _ d) as [vs|e] eqn:Ev.
  2: { cbn [bind]. f_equal. clear - Ev. revert e Ev. induction d as [|[key v] d IH]; intros e Ev; [discriminate|]. cbn [mapM] in Ev. destruct (build_view _ _) as [w|e'] eqn:Eb.
       - cbn [bind] in Ev. destruct (mapM _ d) as [ws|e2]; [discriminate|]. cbn [bind] in Ev. injection Ev as <-. apply (IH e2 eq_refl).
       - cbn [bind] in Ev. injection Ev as <-. clear - Eb. unfold build_view in Eb.
         assert (I : forall l e, bl_index (bl_assets (a_cov a)) l = Err e -> e = ValueError).
         { intros l e H. unfold bl_index in H. destruct (index_of _ _); [discriminate|]. destruct l as [s|z]; repeat match type of H with (match ?x with _ => _ end) = _ => destruct x | (if ?x then _ else _) = _ => destruct x | guard ?x _ _ = _ => destruct x; cbn [guard] in H end; try discriminate; congruence. }
         destruct v as [x|[|x [|y l]]]; cbn [bind] in Eb; try congruence;
           (destruct key as [l0|[|l1 [|l2 [|l3 ls]]]]; try congruence;
            [destruct (bl_index _ l0) as [i|e1] eqn:E1; cbn [bind] in Eb; [discriminate|injection Eb as <-; eauto]|
             destruct (bl_index _ l1) as [i|e1] eqn:E1; cbn [bind] in Eb; [destruct (bl_index _ l2) as [j|e2] eqn:E2; cbn [bind] in Eb; [discriminate|injection Eb as <-; eauto]|injection Eb as <-; eauto]]). }
  cbn [bind]. rewrite Ca, Oa. cbn [parse_conf bind].
  destruct vs as [|w vs]; [|reflexivity]. exfalso. destruct d as [|kv d]; [congruence|]. cbn [mapM] in Ev. destruct (build_view _ kv); [|discriminate]. cbn [bind] in Ev. destruct (mapM _ d); discriminate.
Qed.
Print Assumptions bl_function_needs_confidences.

(** One view held with confidence [p] (a number): the viewed mean moves the fraction [p] of the way from the prior to the target. *)
Theorem bl_function_single_view : forall lsolve c r n sigma key val idx p, exact_solve lsolve -> bl_setting (function_args c) n sigma [(key, val)] idx ->
  k_omega c = None -> k_use_tau c = None -> k_tau c = None -> k_conf c = CNum p -> 1 / 1000000 <= p <= 1 - 1 / 1000000 -> 0 < view_variance idx key sigma ->
  posterior_moments_black_litterman lsolve c = Ok r ->
  let mean := snd (fst r) in
  view_value idx key mean = (1 - p) * view_value idx key (prior_mean_of (function_args c)) + p * target_of val.
Proof.
  intros lsolve c r n sigma key val idx p Hl HS HO HU HT HC Hp Hv H mean. unfold posterior_moments_black_litterman in H. apply bind_ok in H. destruct H as [b [E H]]. injection H as <-.
  unfold mean. cbn [get_posterior fst snd].
  pose proof (bl_single_view_confidence lsolve (function_args c) b n sigma key val idx Hl HS E) as K.
  unfold function_args in K at 1 2 3 4. cbn [a_tau a_omega a_use_tau a_conf] in K. rewrite HO, HU, HT, HC in K. cbn [dflt] in K. specialize (K ltac:(lra) Hv eq_refl eq_refl). cbv zeta in K.
  cbn [confidence_of] in K. unfold confidence_used in K. rewrite Rmax_right in K by lra. rewrite Rmin_right in K by lra. exact K.
Qed.
Print Assumptions bl_function_single_view.

(** A view on the first of two uncorrelated assets. *)
Definition one_view_call (om : option omega_arg) (cf : conf) : bl_call :=
  BlCall (MIn (Some (["A"%string; "B"%string], ["A"%string; "B"%string])) 2 2 2 delta) (Some [1 / 2; 1 / 2]) None None None None None (MDict ex_views) cf om.

(** Not true: with the same arguments the function answers as the processor does.  The processor accepts a view without confidences. *)
Theorem bl_function_same_defaults_refuted : exists c b, k_omega c = None /\ BlackLittermanProcessor best_solve c = Ok b /\
  posterior_moments_black_litterman best_solve c = Err ValueError.
Proof.
  exists (one_view_call None CNone).
  destruct (bl_accepts best_solve (class_args (one_view_call None CNone)) 2 delta ex_views ex_idx) as [b Hb]; try (cbn; lra); auto.
  - intros k A m B H. apply best_solve_complete'. exact H.
  - constructor; cbn; auto; try (intros ix cx E; injection E as <- <-; reflexivity); try exact eye_sym; try discriminate. intros k v [E|[]]. injection E as <- <-. reflexivity.
  - exact eye_psd.
  - reflexivity.
  - intros k v [E|[]]; injection E as <- <-; exact I.
  - unfold omega_usable. cbn. intros v Hv. assert (v = 0%nat) by lia. subst v. cbn. unfold delta; cbn. lra.
  - exists b. split; [reflexivity|]. split; [exact Hb|]. apply bl_function_needs_confidences; try reflexivity. left. exists ex_views. split; [reflexivity|discriminate].
Qed.
Print Assumptions bl_function_same_defaults_refuted.

(** With confidence 0.8 the function answers, and the mean moves from 0.5 to 0.9. *)
Example bl_function_example : exists r, posterior_moments_black_litterman best_solve (one_view_call None (CNum (8 / 10))) = Ok r /\ snd (fst r) 0%nat = 9 / 10.
Proof.
  set (c := one_view_call None (CNum (8 / 10))).
  assert (HS : bl_setting (function_args c) 2 delta ex_views ex_idx).
  { constructor; cbn; auto; try (intros ix cx E; injection E as <- <-; reflexivity); try exact eye_sym; try discriminate. intros k v [E|[]]. injection E as <- <-. reflexivity. }
  destruct (bl_accepts best_solve (function_args c) 2 delta ex_views ex_idx) as [b Hb]; try (cbn; lra); auto.
  - intros k A m B H. apply best_solve_complete'. exact H.
  - exact eye_psd.
  - reflexivity.
  - intros k v [E|[]]; injection E as <- <-; exact I.
  - unfold omega_usable. cbn. split; [|discriminate]. intros v Hv. assert (v = 0%nat) by lia. subst v. cbn. unfold delta; cbn. lra.
  - assert (Hf : posterior_moments_black_litterman best_solve c = Ok (get_posterior b)) by (unfold posterior_moments_black_litterman; rewrite Hb; reflexivity).
    exists (get_posterior b). split; [exact Hf|].
    pose proof (bl_function_single_view best_solve c (get_posterior b) 2 delta (KOne (LStr "A")) (VNum 1) ex_idx (8 / 10) ltac:(intros k A m B X HX; apply best_solve_exact' with (1 := HX)) HS eq_refl eq_refl eq_refl eq_refl ltac:(lra)) as K.
    cbn [view_variance view_value] in K. specialize (K ltac:(unfold delta; cbn; lra) Hf). cbv zeta in K. change (ex_idx (LStr "A")) with 0%nat in K. rewrite K. unfold prior_mean_of, function_args, c, one_view_call. cbn. unfold of_list. cbn. field.
Qed.
