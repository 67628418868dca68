(** The constructor's [long_only], [total_weight] and [bounds] arguments, seen in the weights returned (C64).

    Solvers are exact, as in WrProperties. *)
From Coq Require Import String.
From Verif Require Import RBase QpBase SortLib RiskModel RiskSpec RiskProofs RiskProperties ConsModel ConsSpec ConsProofs MomModel MomSpec MomProofs DistModel DistSpec DistProofs2 DistProofs3 ConvModel OptModel OptSpec OptProofs OptProofs2 OptProofs3 OptProofs6 FrModel FrSpec FrProofs FrProperties ExistLib ExistSpec OptProofs7 OptProofs8 ExistProperties WrModel WrSpec WrProofs WrProofs2 WrProofs3 WrProofs4 WrProofs5 WrProofs6 WrProofs7 WrProofs8 WrProperties.
Open Scope R_scope.
Open Scope list_scope.

(** Weights a method of the wrapper returned, alone or as a column of a frontier. *)
Inductive weights_returned (E : env) (w : wrapper) (arg : cons_arg) (k : option costs) : list R -> Prop :=
| wr_min_variance t p : min_variance_at_return E w t arg k = Ok p -> weights_returned E w arg k (p_weights p)
| wr_min_cvar sim t alpha p : min_cvar_at_return E sim w t alpha arg k = Ok p -> weights_returned E w arg k (p_weights p)
| wr_gamma gm gs p : solve_robust_gamma E w gm gs arg k = Ok p -> weights_returned E w arg k (p_weights p)
| wr_relaxed lam mlt t rb p g : relaxed_risk_parity E w lam mlt t rb arg k = Ok (p, g) -> weights_returned E w arg k (p_weights p)
| wr_variance num f x : variance_frontier E w num arg k = Ok f -> In x (f_cols f) -> weights_returned E w arg k x
| wr_cvar sim lab raw num alpha enf f x : cvar_frontier_w E sim lab raw w num alpha enf arg k = Ok f -> In x (f_cols f) -> weights_returned E w arg k x
| wr_lambda num mx lams rc f pen x : robust_lambda_frontier E w num mx lams rc arg k = Ok (f, pen) -> In x (f_cols f) -> weights_returned E w arg k x
| wr_parity num mx lam mults inc rb f meta x :
    relaxed_risk_parity_frontier E w num mx lam mults inc rb arg k = Ok (f, meta) -> In x (f_cols f) -> weights_returned E w arg k x.

Lemma returned_satisfies E w c arg k x : exact_env E -> constructed w c -> weights_returned E w arg k x ->
  List.length x = assets w /\ satisfies (effective c arg) (assets w) x.
Proof.
  intros HE HC H. destruct (every_result_satisfies_constraints E w c arg k HE HC) as (H1 & H2 & H3 & H4 & H5 & H6 & H7 & H8).
  destruct H; eauto.
Qed.

(** ** C64: the constructor's arguments hold for every portfolio returned *)
(** Without a constraints argument, [long_only], [bounds] and [total_weight] are what every portfolio
    obeys; a constraints object or dict given to the constructor replaces them altogether, and one
    given to the method replaces whatever the wrapper was built with. *)
Theorem constructor_arguments_honoured :
  forall E i d k lo tot bds w kk x, exact_env E -> make_dist i = Ok d ->
    (make_wrapper d CNone k lo tot bds = Ok w -> weights_returned E w CNone kk x ->
       List.length x = d_N d /\ (lo = true -> forall a, In a x -> 0 <= a) /\ bounds_hold (d_N d) bds x /\ total_hold tot x) /\
    (forall c, make_wrapper d (CObj c) k lo tot bds = Ok w -> weights_returned E w CNone kk x -> satisfies c (d_N d) x) /\
    (forall l, make_wrapper d (CDict l) k lo tot bds = Ok w -> weights_returned E w CNone kk x -> satisfies (from_dict l) (d_N d) x) /\
    (forall arg c, make_wrapper d arg k lo tot bds = Ok w -> weights_returned E w (CObj c) kk x -> satisfies c (d_N d) x) /\
    (forall arg l, make_wrapper d arg k lo tot bds = Ok w -> weights_returned E w (CDict l) kk x -> satisfies (from_dict l) (d_N d) x).
Proof.
  intros E i d k lo tot bds w kk x HE Hd.
  assert (HN : forall arg, make_wrapper d arg k lo tot bds = Ok w -> assets w = d_N d).
  { intros arg H. unfold make_wrapper in H. apply bind_ok in H as ([m ws] & _ & H). apply bind_ok in H as ([[iw mic] pc] & _ & H). injection H as <-. reflexivity. }
  split; [|split; [|split; [|split]]].
  - intros Hw H. destruct (returned_satisfies E w _ _ _ x HE (by_init i d CNone k lo tot bds w Hd Hw) H) as [HL HS].
    cbn [effective asked] in HS. rewrite (HN _ Hw) in *. destruct HS as (S1 & S2 & _ & _ & _ & S6 & _). cbn in S1, S2, S6.
    split; [exact HL|]. split; [|split; [exact S2|exact S6]].
    intros Hlo a Ha. apply (In_nth _ _ 0) in Ha as (j & Hj & <-). apply S1; [exact Hlo|lia].
  - intros c Hw H. destruct (returned_satisfies E w _ _ _ x HE (by_init i d (CObj c) k lo tot bds w Hd Hw) H) as [_ HS].
    cbn [effective asked] in HS. rewrite (HN _ Hw) in HS. exact HS.
  - intros l Hw H. destruct (returned_satisfies E w _ _ _ x HE (by_init i d (CDict l) k lo tot bds w Hd Hw) H) as [_ HS].
    cbn [effective asked] in HS. rewrite (HN _ Hw) in HS. exact HS.
  - intros arg c Hw H. destruct (returned_satisfies E w _ _ _ x HE (by_init i d arg k lo tot bds w Hd Hw) H) as [_ HS].
    cbn [effective] in HS. rewrite (HN _ Hw) in HS. exact HS.
  - intros arg l Hw H. destruct (returned_satisfies E w _ _ _ x HE (by_init i d arg k lo tot bds w Hd Hw) H) as [_ HS].
    cbn [effective] in HS. rewrite (HN _ Hw) in HS. exact HS.
Qed.
Print Assumptions constructor_arguments_honoured.

(** Two assets with weights between 1/4 and 3/4: the method answers, and its weights respect both bounds. *)
Example bounds_honoured_case :
  let bds := Some (BTuple [Some (Num (Fin (1 / 4))); Some (Num (Fin (3 / 4)))]) in
  exists i d w p, make_dist i = Ok d /\ d_N d = 2%nat /\ make_wrapper d CNone None true (Some (Num (Fin 1))) bds = Ok w /\
    min_variance_at_return best_env w (3 / 5) CNone None = Ok p /\ weights_returned best_env w CNone None (p_weights p) /\
    (forall a, In a (p_weights p) -> 1 / 4 <= a <= 3 / 4).
Proof.
  intros bds. set (c := asked CNone true (Some (Num (Fin 1))) bds).
  set (i := mkIn (Some (None, nd_vec 2 mean2)) (Some (None, nd_mat 2 id2)) None None None).
  assert (Hc : consistent 2 i).
  { split; [lia|]. split; [exists (repeat EmptyString 2); split; [apply repeat_length|intros l []]|]. split; [|split].
    - cbn. split; [unfold nd_size; cbn; lia|]. exists mean2. reflexivity.
    - cbn. apply real_mat.
    - cbn. left. discriminate. }
  assert (Hwf : ConsSpec.well_formed c 2).
  { unfold ConsSpec.well_formed, c, asked, bds; cbn. split; [lia|]. split; [intros x E; injection E as <-; exists 1; reflexivity|].
    split; [exists (Some (Num (Fin (1 / 4)))), (Some (Num (Fin (3 / 4)))); split; [reflexivity|]; split; [intros x E; injection E as <-; exists (1 / 4); reflexivity|]; split; [intros x E; injection E as <-; exists (3 / 4); reflexivity|intros l u E1 E2; injection E1 as <-; injection E2 as <-; lra]|].
    split; [|split; [|split]]; intros ? []. }
  destruct (consistent_make_dist i 2 Hc) as (d & Ed & EN). destruct (make_dist_values i d Ed) as (_ & V2 & V3 & _ & _).
  specialize (V2 _ _ eq_refl). specialize (V3 _ _ eq_refl).
  assert (Hk : forall n, costs_fit n None) by (intros n kk E; discriminate).
  destruct (build_wrapper d CNone None true (Some (Num (Fin 1))) bds (Hk _)) as [w Ew]; [rewrite EN; exact Hwf|].
  destruct (make_wrapper_good d CNone None true _ bds w (make_dist_valid i d Ed) Ew) as (_ & Dw & _ & _).
  pose proof (by_init i d CNone None true _ bds w Ed Ew) as HC. fold c in HC.
  assert (HN : assets w = 2%nat) by (unfold assets; rewrite Dw; exact EN).
  assert (Hm : moments w mean2 (as_mat 2 (nd_mat 2 id2))).
  { exists (flat (nd_vec 2 mean2)), (nd_mat 2 id2). unfold assets. rewrite Dw, V2, V3, EN. repeat split. }
  assert (Hb : bounded (assets w) (allowed (effective c CNone) (assets w))).
  { exists 1. intros x (_ & H & _) j Hj. cbn in H. specialize (H j Hj). rewrite wt_to_list in H by exact Hj. cbn in H. rewrite Rabs_pos_eq; lra. }
  assert (HF : in_force c CNone (assets w)).
  { intros _ V. specialize (V (to_list (assets w) (fun _ => 0)) (to_list_length _ _)). destruct V as (_ & V & _). cbn in V.
    specialize (V 0%nat). rewrite wt_to_list in V by (rewrite HN; lia). cbn in V. rewrite HN in V. specialize (V ltac:(lia)). lra. }
  destruct (min_variance_at_return_answers best_env w c CNone None (3 / 5) mean2 (as_mat 2 (nd_mat 2 id2)) best_env_exact best_qp_complete HC HF (Hk _)) as [[p Ep] _]; try eassumption.
  { rewrite HN. exact Hwf. }
  { exists (fun j => if Nat.eqb j 0 then 1 / 3 else 2 / 3). rewrite HN. split.
    - unfold allowed, satisfies; cbn. split; [intros _ [|[|j]] Hj; unfold wt; cbn; [lra|lra|lia]|].
      split; [intros [|[|j]] Hj; unfold wt; cbn; [lra|lra|lia]|]. split; [intros ? []|]. split; [intros ? []|]. split; [intros ? []|]. split; [lra|intros ? []].
    - unfold dot, mean2, of_list; cbn. lra. }
  assert (HR : weights_returned best_env w CNone None (p_weights p)) by (econstructor; exact Ep).
  exists i, d, w, p. split; [exact Ed|]. split; [exact EN|]. split; [exact Ew|]. split; [exact Ep|]. split; [exact HR|].
  destruct (constructor_arguments_honoured best_env i d None true (Some (Num (Fin 1))) bds w None (p_weights p) best_env_exact Ed) as [H _].
  destruct (H Ew HR) as (HL & _ & HB & _). intros a Ha. apply (In_nth _ _ 0) in Ha as (j & Hj & <-).
  rewrite EN in HB. specialize (HB j). unfold wt in HB. cbn in HB. apply HB. lia.
Qed.
