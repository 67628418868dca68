(** Processor calls that share a dictionary of mean views or an array of market weights. *)
From Verif Require Import RBase QpBase SortLib OptModel OptSpec OptProofs3 MomModel MomSpec NiwModel RiskModel RiskSpec BlModel EpModel EpSpec EpProofs EpProofs2 EpProofs3 EpProofs4 EpProofs5 FvSpec FvProofs FvProofs2 FvProofs3 FvProofs4 FvProofs5 FvProofs6 FvProofs7 FvProperties BookModel BookSpec BookProofs.
From Verif Require ExistProperties BlProperties.
Open Scope R_scope.
Open Scope list_scope.

(** Whatever calls are made with a dictionary of mean views, and whether they succeed or not: its entries stay, in order, and
    all that is added are views "at least" for pairs some call ranked, each pair at most once and only if it had no view. *)
Theorem dictionary_only_grows : forall minimize argsort chol normals d calls,
  exists added, snd (book_session minimize argsort chol normals d calls) = d ++ added /\ NoDup (map fst added) /\
    forall k v, In (k, v) added -> v = at_least 0 /\ (forall u, ~ In (k, u) d) /\ exists x y, k = KTup [x; y] /\ ranked_by calls x y.
Proof. intros. apply book_session_extends. Qed.
Print Assumptions dictionary_only_grows.

(** Without rankings it is left alone. *)
Theorem no_ranking_no_change : forall minimize argsort chol normals d calls, (forall c, In c calls -> bc_rank c = None) ->
  snd (book_session minimize argsort chol normals d calls) = d.
Proof.
  intros minimize argsort chol normals d calls H. destruct (book_session_extends minimize argsort chol normals calls d) as (added & -> & _ & I).
  destruct added as [|[k v] t]; [apply app_nil_r|]. destruct (I k v (or_introl eq_refl)) as (_ & _ & x & y & _ & c & l & Ic & El & _). rewrite (H c Ic) in El. discriminate.
Qed.
Print Assumptions no_ranking_no_change.

(** The ranking of a successful call is imposed on every later successful call with that dictionary. *)
Theorem earlier_rankings_persist : forall minimize argsort chol normals d calls k1 k2 c1 l r1 r2, (k1 <= k2)%nat ->
  nth_error calls k1 = Some c1 -> bc_rank c1 = Some l ->
  let results := fst (book_session minimize argsort chol normals d calls) in
  answers results k1 (Ok r1) -> answers results k2 (Ok r2) ->
  forall x y, adjacent l x y -> exists v, In (KTup [x; y], v) (f_mean_views r2) /\ (In (KTup [x; y], v) d \/ v = at_least 0).
Proof.
  intros minimize argsort chol normals d calls k1 k2 c1 l r1 r2 Hk E1 El results A1 A2 x y Ad. unfold answers, results in *.
  rewrite (session_nth _ _ _ _ _ _ _ _ E1) in A1. apply (f_equal (fun o => match o with Some z => z | None => Err ValueError end)) in A1.
  destruct (nth_error calls k2) as [c2|] eqn:E2.
  2:{ apply nth_error_None in E2. assert (Z : nth_error (fst (book_session minimize argsort chol normals d calls)) k2 = None) by (apply nth_error_None; rewrite session_length; lia). congruence. }
  rewrite (session_nth _ _ _ _ _ _ _ _ E2) in A2. apply (f_equal (fun o => match o with Some z => z | None => Err ValueError end)) in A2.
  destruct (book_after_ok _ _ _ _ _ _ _ A1) as [B1 R1]. destruct (book_after_ok _ _ _ _ _ _ _ A2) as [B2 R2].
  rewrite El in R1. cbn [apply_rank] in R1. apply guard_ok in R1 as [_ R1]. injection R1 as R1.
  destruct (rank_views_spec l (book_at chol normals d calls k1)) as (_ & Q & _). destruct (Q x y Ad) as (v & I & _). rewrite R1, <- B1, <- (book_at_step _ _ _ _ _ _ E1) in I.
  assert (L2 : (Datatypes.S k2 <= List.length calls)%nat) by (apply nth_error_Some; congruence).
  assert (J : In (KTup [x; y], v) (book_at chol normals d calls (Datatypes.S k2))) by (apply (book_at_later _ _ _ _ (Datatypes.S k1)); auto; lia).
  rewrite (book_at_step _ _ _ _ _ _ E2), B2 in J. exists v. split; auto.
  pose proof (book_at_extends chol normals calls d (Datatypes.S k2)) as (added & Ea & _ & Ia). rewrite (book_at_step _ _ _ _ _ _ E2), B2 in Ea. rewrite Ea in J.
  apply in_app_or in J as [J|J]; [auto|]. right. apply (Ia _ _ J).
Qed.
Print Assumptions earlier_rankings_persist.

(** So with mean views only, the posterior means of later calls follow earlier rankings, whatever the later call ranks. *)
Theorem earlier_rankings_hold : forall minimize argsort chol normals d calls k1 k2 c1 c2 l r1 r2, sound minimize -> (k1 <= k2)%nat ->
  nth_error calls k1 = Some c1 -> bc_rank c1 = Some l -> nth_error calls k2 = Some c2 -> mean_views_only c2 ->
  let results := fst (book_session minimize argsort chol normals d calls) in
  answers results k1 (Ok r1) -> answers results k2 (Ok r2) ->
  forall x y, adjacent l x y -> (forall v, ~ In (KTup [x; y], v) d) ->
  exists i j, column (f_assets r2) x i /\ column (f_assets r2) y j /\ f_mean r2 j <= f_mean r2 i.
Proof.
  intros minimize argsort chol normals d calls k1 k2 c1 c2 l r1 r2 So Hk E1 El E2 Hm results A1 A2 x y Ad Hd.
  destruct (earlier_rankings_persist _ _ _ _ _ _ _ _ _ _ _ _ Hk E1 El A1 A2 x y Ad) as (v & I & [Z|Ev]); [destruct (Hd _ Z)|]. subst v.
  unfold answers, results in A2. rewrite (session_nth _ _ _ _ _ _ _ _ E2) in A2. apply (f_equal (fun o => match o with Some z => z | None => Err ValueError end)) in A2.
  destruct Hm as (M1 & M2 & M3 & M4 & M5 & M6). unfold with_book in A2. rewrite M1, M2, M3, M4, M5, M6 in A2.
  pose proof (flexible_moments _ _ _ _ _ _ _ A2) as [M _]. destruct (flexible_mean_views _ _ _ _ _ _ _ _ _ So A2) as [[_ Vh] _].
  { intros Z. rewrite Z in I. destruct I. }
  destruct (Vh _ _ I) as (z & S & Me). inversion S; subst. exists i, j. split; auto. split; auto. rewrite !M. cbn in Me. lra.
Qed.
Print Assumptions earlier_rankings_hold.

(** A successful call can be repeated with the dictionary it left, with or without its ranking: the answer is the same. *)
Theorem repeated_call_same : forall minimize argsort chol normals pr d vol var skew corr cvar quant rank b r rank',
  let call d rank := flexible_views minimize argsort chol normals pr (with_book d (mkCall pr vol var skew corr cvar quant rank b)) in
  call d rank = Ok r -> rank' = rank \/ rank' = None ->
  call (book_after chol normals d (mkCall pr vol var skew corr cvar quant rank b)) rank' = Ok r.
Proof.
  intros minimize argsort chol normals pr d vol var skew corr cvar quant rank b r rank' call H Hr.
  destruct (book_after_ok minimize argsort chol normals d (mkCall pr vol var skew corr cvar quant rank b) r H) as [B R]. rewrite B. cbn [bc_rank] in R.
  assert (R' : apply_rank (f_mean_views r) rank' = Ok (f_mean_views r)).
  { destruct rank' as [l|]; [|reflexivity]. destruct Hr as [<- |]; [|discriminate]. cbn [apply_rank] in R |- *. apply guard_ok in R as [G R]. rewrite G. cbn [guard]. injection R as R. f_equal.
    rewrite <- R at 2. rewrite <- R. apply rank_idem. }
  unfold call in *. unfold flexible_views in H |- *. apply bind_ok in H as ([[[[[pa as_] T] N] X] p0] & E & H). rewrite E. cbn [bind]. apply guard_ok in H as [G H]. rewrite G. cbn [guard].
  unfold with_book in H |- *. cbn [vs_mean vs_vol vs_var vs_skew vs_corr vs_cvar vs_quantile vs_rank vs_sequential bc_vol bc_var bc_skew bc_corr bc_cvar bc_quantile bc_rank bc_sequential to_dict bind] in H |- *.
  destruct (to_dict SNum as_ vol) as [x1|]; cbn [bind] in H |- *; [|discriminate]. destruct (to_dict SNum as_ var) as [x2|]; cbn [bind] in H |- *; [|discriminate].
  destruct (to_dict SNum as_ skew) as [x3|]; cbn [bind] in H |- *; [|discriminate]. destruct (to_dict CvNum as_ cvar) as [x4|]; cbn [bind] in H |- *; [|discriminate].
  rewrite R in H. rewrite R'. cbn [bind] in H |- *. exact H.
Qed.
Print Assumptions repeated_call_same.

(** Every view of the dictionary has to name assets of the data: once a ranking is in it, no later call succeeds on data
    that lack one of the ranked assets, even if the call that ranked them failed. *)
Theorem ranked_assets_required : forall minimize argsort chol normals d calls k1 k2 x y r, sound minimize -> sorts Rle 0 argsort -> (k1 <= k2)%nat ->
  (exists v, In (KTup [x; y], v) (snd (book_session minimize argsort chol normals d (firstn k1 calls)))) ->
  answers (fst (book_session minimize argsort chol normals d calls)) k2 (Ok r) ->
  exists i j, column (f_assets r) x i /\ column (f_assets r) y j.
Proof.
  intros minimize argsort chol normals d calls k1 k2 x y r So AS Hk (v & I) A. unfold answers in A.
  destruct (nth_error calls k2) as [c|] eqn:E.
  2:{ apply nth_error_None in E. assert (Z : nth_error (fst (book_session minimize argsort chol normals d calls)) k2 = None) by (apply nth_error_None; rewrite session_length; lia). congruence. }
  rewrite (session_nth _ _ _ _ _ _ _ _ E) in A. apply (f_equal (fun o => match o with Some z => z | None => Err ValueError end)) in A.
  rewrite book_end in I. assert (L : (k2 < List.length calls)%nat) by (apply nth_error_Some; congruence). rewrite firstn_length_le in I by lia.
  assert (F : forall cs k d0, book_at chol normals d0 (firstn k cs) k = book_at chol normals d0 cs k).
  { induction cs as [|c0 cs IH]; intros [|k] d0; auto. cbn. apply IH. }
  rewrite F in I. apply (book_at_later _ _ _ _ k1 k2) in I; [|lia|lia].
  destruct (book_after_ok _ _ _ _ _ _ _ A) as [B _]. pose proof (extends_in _ _ _ _ (book_after_extends chol normals (book_at chol normals d calls k2) c) I) as J. rewrite B in J.
  destruct (fv_as_dicts _ _ _ _ _ _ _ A) as (vo & va & sk & cv & Hd & _). destruct (flexible_accepts_valid _ _ _ _ _ _ _ _ _ _ _ _ _ _ So AS Hd) as (_ & V & _).
  destruct (V MMean (f_mean_views r) (or_introl eq_refl) _ _ J) as (Hn & _). cbn [names] in Hn. destruct Hn as (a & b & i & j & El & Ci & Cj). injection El as <- <-. eauto.
Qed.
Print Assumptions ranked_assets_required.

(** A ranking of a call with mean views only is in the dictionary afterwards, whatever becomes of the call, if there are scenarios
    with equal weights for more than one asset. *)
Theorem ranking_recorded : forall chol normals lab T N X d l b, (0 < T)%nat -> N <> 1%nat -> (2 <= List.length l)%nat ->
  forall x y, adjacent l x y ->
  exists v, In (KTup [x; y], v) (book_after chol normals d (mkCall (PScen lab T N X None) WNone WNone WNone [] WNone [] (Some l) b)).
Proof.
  intros chol normals lab T N X d l b HT HN Hl x y Ad. unfold book_after. cbn [bc_prior fv_setup].
  destruct (Nat.eqb_spec T 0); [lia|]. cbn [negb guard bind]. destruct (Nat.eqb_spec N 1); [congruence|]. cbn [negb guard bc_vol bc_var bc_skew bc_cvar bc_rank to_dict bind apply_rank].
  destruct (Nat.ltb_spec (List.length l) 2); [lia|]. cbn [negb guard]. destruct (rank_views_spec l d) as (_ & Q & _). destruct (Q x y Ad) as (v & I & _). eauto.
Qed.
Print Assumptions ranking_recorded.

(** Refuted: "a call that fails leaves the dictionary alone", and "a call does not affect later ones": ranking an unknown asset
    once makes the same dictionary useless, although it works when no such call was made. *)
Definition equal2 : fv_prior := PScen (Some lab2) 2 2 X2 None.
Definition rank_call (rank : option (list label)) : book_call := mkCall equal2 WNone WNone WNone [] WNone [] rank true.
Definition unknown : list label := [LStr "A"%string; LStr "Z"%string].
Lemma no_Z : ~ exists i, column lab2 (LStr "Z"%string) i.
Proof.
  intros [i [[E _]|(_ & s & k & E & Dg & _)]].
  - unfold lab2 in E. destruct i as [|[|i]]; cbn in E; try discriminate. destruct i; discriminate.
  - injection E as <-. cbn in Dg. discriminate.
Qed.
Theorem failed_call_harmless_refuted : exists d e,
  flexible_views best_minimize (argsort_by Rleb 0) ExistProperties.best_chol (fun _ _ _ _ => 0) equal2 (with_book d (rank_call (Some unknown))) = Err e /\
  (exists r, fst (book_session best_minimize (argsort_by Rleb 0) ExistProperties.best_chol (fun _ _ _ _ => 0) d [rank_call None]) = [Ok r]) /\
  exists e1 e2, fst (book_session best_minimize (argsort_by Rleb 0) ExistProperties.best_chol (fun _ _ _ _ => 0) d [rank_call (Some unknown); rank_call None]) = [Err e1; Err e2].
Proof.
  assert (F : forall d c, bc_prior c = equal2 -> (exists v, In (KTup unknown, v) (book_after ExistProperties.best_chol (fun _ _ _ _ => 0) d c)) ->
     exists e, flexible_views best_minimize (argsort_by Rleb 0) ExistProperties.best_chol (fun _ _ _ _ => 0) equal2 (with_book d c) = Err e).
  { intros d c Ec (v & I). destruct (flexible_views best_minimize (argsort_by Rleb 0) ExistProperties.best_chol (fun _ _ _ _ => 0) equal2 (with_book d c)) as [r|e] eqn:E; [|eauto]. exfalso.
    rewrite <- Ec in E. destruct (book_after_ok _ _ _ _ _ _ _ E) as [B _]. rewrite B in I.
    destruct (fv_as_dicts _ _ _ _ _ _ _ E) as (vo & va & sk & cv & Hd & _).
    destruct (flexible_accepts_valid _ _ _ _ _ _ _ _ _ _ _ _ _ _ best_minimize_sound FrProperties.rsort_sorts Hd) as (_ & V & _).
    destruct (V MMean (f_mean_views r) (or_introl eq_refl) _ _ I) as (Hn & _). cbn [names] in Hn. destruct Hn as (a & b & i & j & El & Ci & Cj). injection El as <- <-.
    apply no_Z. exists j. destruct (flexible_prior _ _ _ _ _ _ _ E) as (_ & _ & P). rewrite Ec in P. destruct P as (_ & _ & _ & _ & P & _). rewrite (P _ eq_refl) in Cj. exact Cj. }
  assert (Adj : adjacent unknown (LStr "A"%string) (LStr "Z"%string)) by (exists 0%nat; auto).
  assert (R0 : forall d, exists v, In (KTup unknown, v) (book_after ExistProperties.best_chol (fun _ _ _ _ => 0) d (rank_call (Some unknown)))).
  { intros d. apply (ranking_recorded ExistProperties.best_chol (fun _ _ _ _ => 0) (Some lab2) 2 2 X2 d unknown true ltac:(lia) ltac:(lia) ltac:(cbn; lia) _ _ Adj). }
  exists []. destruct (F [] (rank_call (Some unknown)) eq_refl (R0 [])) as [e Ee]. exists e. split; [exact Ee|]. split.
  - destruct (flexible_views best_minimize (argsort_by Rleb 0) ExistProperties.best_chol (fun _ _ _ _ => 0) equal2 (with_book [] (rank_call None))) as [r|e'] eqn:E.
    + exists r. unfold book_session. cbn [fst]. change (bc_prior (rank_call None)) with equal2. rewrite E. reflexivity.
    + exfalso. revert E. unfold flexible_views, equal2. cbn [fv_setup Nat.eqb negb guard bind]. cbn [with_book rank_call vs_mean vs_vol vs_var vs_skew vs_corr vs_cvar vs_quantile vs_rank vs_sequential bc_vol bc_var bc_skew bc_corr bc_cvar bc_quantile bc_rank bc_sequential to_dict bind apply_rank].
      rewrite (posterior_none best_minimize (argsort_by Rleb 0) lab2 2 X2 (fun _ => 1 / INR 2) true). cbn [bind]. discriminate.
  - set (d1 := book_after ExistProperties.best_chol (fun _ _ _ _ => 0) [] (rank_call (Some unknown))).
    assert (R1 : exists v, In (KTup unknown, v) (book_after ExistProperties.best_chol (fun _ _ _ _ => 0) d1 (rank_call None))).
    { destruct (R0 []) as (v & I). exists v. eapply extends_in; [apply book_after_extends|exact I]. }
    destruct (F d1 (rank_call None) eq_refl R1) as [e2 E2]. exists e, e2. cbn [book_session fst]. change (bc_prior (rank_call (Some unknown))) with equal2. change (bc_prior (rank_call None)) with equal2. fold d1. rewrite Ee, E2. reflexivity.
Qed.
Print Assumptions failed_call_harmless_refuted.

(** ** Market weights *)

Lemma with_weights_after a w : rsum (w_vals w) <> 0 ->
  weights_after a w = w_vals w \/ (w_shared w = true /\ weights_after a w = map (fun x => x / rsum (w_vals w)) (w_vals w)).
Proof.
  intros H. unfold weights_after. destruct (guard _ ValueError _) as [l|e] eqn:E; [|auto].
  apply guard_ok in E as [_ E]. apply guard_ok in E as [_ E]. destruct (a_pi a); [injection E as <-; auto|]. apply guard_ok in E as [_ E]. injection E as <-.
  destruct (w_shared w); auto.
Qed.
Lemma normalised_same lsolve a w : rsum (w_vals w) <> 0 ->
  same_posterior (black_litterman lsolve (with_weights (Weights (map (fun x => x / rsum (w_vals w)) (w_vals w)) (w_shared w)) a)) (black_litterman lsolve (with_weights w a)).
Proof.
  intros H. set (w' := Weights (map (fun x => x / rsum (w_vals w)) (w_vals w)) (w_shared w)).
  unfold black_litterman. cbn [with_weights a_cov a_mean a_weights a_delta a_tau a_use_tau a_pi a_views a_conf a_omega].
  destruct ((m_nd (a_cov a) =? 2) && (m_cols (a_cov a) =? m_rows (a_cov a)))%nat; cbn [guard]; [|reflexivity].
  destruct (negb (Rleb (a_delta a) 0)); cbn [guard]; [|reflexivity].
  set (n := m_rows (a_cov a)). set (sigma := bl_sigma n (m_at (a_cov a))).
  assert (P : (exists e, bl_prior n sigma (with_weights w' a) = Err e /\ bl_prior n sigma (with_weights w a) = Err e) \/
              (exists l u v, bl_prior n sigma (with_weights w' a) = Ok (l, u) /\ bl_prior n sigma (with_weights w a) = Ok (l, v))).
  { unfold bl_prior. cbn [with_weights a_mean a_weights a_delta a_pi]. destruct (a_pi a) as [l|]; [right; eauto|].
    unfold w'. cbn [w_vals w_shared]. rewrite map_length. destruct (List.length (w_vals w) =? n)%nat; cbn [guard]; [right|left; eauto].
    rewrite normalised_again by auto. eauto. }
  cbn [with_weights a_cov a_mean a_weights a_delta a_tau a_use_tau a_pi a_views a_conf a_omega] in P.
  destruct P as [(e & -> & ->)|(l & u & v & -> & ->)]; cbn [bind]; [reflexivity|].
  destruct (vec_to_dict _ _) as [d|e]; cbn [bind]; [|reflexivity]. destruct (mapM _ d) as [vs|e]; cbn [bind]; [|reflexivity].
  destruct (parse_conf _ _) as [cf|e]; cbn [bind]; [|reflexivity]. destruct (build_omega _ _ _ _ _ _ _) as [om|e]; cbn [bind]; [|reflexivity].
  destruct (compute_posterior _ _ _ _ _ _ _ _ _) as [[lm C]|e]; cbn [bind]; [|reflexivity].
  destruct (m_lab (a_cov a)); [|cbn; repeat split]. destruct (fst lm =? n)%nat; cbn [guard]; [cbn; repeat split|reflexivity].
Qed.
Lemma same_posterior_refl r : same_posterior r r.
Proof. destruct r; cbn; repeat split. Qed.

(** Whether earlier calls normalised the array makes no difference to the posterior of a call. *)
Theorem weights_session_answers : forall lsolve calls w k a, rsum (w_vals w) <> 0 -> nth_error calls k = Some a ->
  exists r, answers (fst (weights_session lsolve w calls)) k r /\ same_posterior r (black_litterman lsolve (with_weights w a)).
Proof.
  intros lsolve calls w k a H.
  assert (G : forall calls k w', (w' = w \/ w' = Weights (map (fun x => x / rsum (w_vals w)) (w_vals w)) (w_shared w)) -> nth_error calls k = Some a ->
    exists r, nth_error (fst (weights_session lsolve w' calls)) k = Some r /\ same_posterior r (black_litterman lsolve (with_weights w a))).
  { clear calls k. induction calls as [|c t IH]; intros k w' Hw E; [destruct k; discriminate|]. destruct k as [|k].
    - cbn in E. injection E as ->. cbn [weights_session fst nth_error]. eexists. split; [reflexivity|]. destruct Hw as [->| ->]; [apply same_posterior_refl|apply normalised_same; auto].
    - cbn [nth_error] in E. cbn [weights_session fst nth_error]. apply (IH k); auto. destruct Hw as [->| ->].
      + destruct (with_weights_after c w H) as [Z|[_ Z]]; rewrite Z; [left; destruct w; reflexivity|auto].
      + right. set (w1 := Weights (map (fun x => x / rsum (w_vals w)) (w_vals w)) (w_shared w)).
        assert (H1 : rsum (w_vals w1) <> 0) by (unfold w1; cbn [w_vals]; rewrite rsum_scaled; replace (rsum (w_vals w) / rsum (w_vals w)) with 1 by (field; auto); lra).
        destruct (with_weights_after c w1 H1) as [Z|[_ Z]]; rewrite Z; [reflexivity|]. unfold w1. cbn [w_vals w_shared]. rewrite normalised_again by auto. reflexivity. }
  intros E. unfold answers. apply G; auto.
Qed.
Print Assumptions weights_session_answers.

(** The array keeps its proportions, and is divided by its sum once. *)
Theorem weights_session_proportions : forall lsolve calls w, rsum (w_vals w) <> 0 ->
  let after := snd (weights_session lsolve w calls) in
  after = w_vals w \/ (rsum after = 1 /\ w_shared w = true /\ after = map (fun x => x / rsum (w_vals w)) (w_vals w)).
Proof.
  intros lsolve calls w H. cbv zeta. set (w1 := Weights (map (fun x => x / rsum (w_vals w)) (w_vals w)) (w_shared w)).
  assert (S1 : rsum (w_vals w1) = 1) by (unfold w1; cbn [w_vals]; rewrite rsum_scaled; field; auto).
  assert (G1 : forall calls, snd (weights_session lsolve w1 calls) = w_vals w1).
  { clear calls. induction calls as [|c t IH]; [reflexivity|]. cbn [weights_session snd].
    destruct (with_weights_after c w1 ltac:(lra)) as [Z|[_ Z]]; rewrite Z; [exact IH|]. unfold w1 at 1 2. cbn [w_vals]. rewrite normalised_again by auto. exact IH. }
  induction calls as [|c t IH]; [left; reflexivity|]. cbn [weights_session snd].
  destruct (with_weights_after c w H) as [Z|[Zs Z]]; rewrite Z; [destruct w; exact IH|]. right. fold w1. rewrite G1. split; [exact S1|]. split; [exact Zs|reflexivity].
Qed.
Print Assumptions weights_session_proportions.

(** Refuted: "a call that fails leaves the weights alone". *)
Theorem failed_call_keeps_weights_refuted : exists a w e, w_vals w = [1; 3] /\
  fst (weights_session BlProperties.solve_one w [a]) = [Err e] /\ snd (weights_session BlProperties.solve_one w [a]) = [1 / 4; 3 / 4].
Proof.
  exists (BlProperties.ex_args 1 (MDict [(KOne (LStr "Z"%string), VNum 1)]) CNone ONone), (Weights [1; 3] true), ValueError. split; [reflexivity|].
  cbn [weights_session fst snd]. unfold weights_after, black_litterman. simpl. rewrite (proj2 (Rleb_false 2 0)) by lra. simpl. split; [reflexivity|].
  f_equal; [field|f_equal; field].
Qed.
Print Assumptions failed_call_keeps_weights_refuted.

(** Cases that meet the hypotheses: a call that ranks, then one that does not, with the same dictionary. *)
Definition book0 : list (vkey * vspec) := [(keyA, SNum (6 / 10))].
Definition rank_row : vec := fun s => X2 s 0%nat - X2 s 1%nat.
Lemma ranked_posterior p0 : 0 < p0 0%nat -> 0 < p0 1%nat ->
  exists q, posterior best_minimize (argsort_by Rleb 0) lab2 2 X2 p0 (rank_views book0 lab2) [] [] [] [] [] [] true = Ok q.
Proof.
  intros P0 P1.
  destruct (determined best_minimize [p0 0%nat; p0 1%nat] [(fun s => X2 s 0%nat, 6 / 10); ones_row] (Some [(fun s => - rank_row s, - 0)]) None (of_list [4 / 10; 6 / 10])
    best_minimize_sound best_minimize_finds (or_introl eq_refl)) as [q [F Q]].
  - discriminate.
  - simpl. intros x [<- |[<- |[]]]; auto.
  - exists (fun _ => 1). split; [right; left; reflexivity|auto].
  - split; [split|split].
    + intros [|[|t]] Ht; cbn in *; try lia; unfold of_list; cbn; lra.
    + cbn. unfold of_list; cbn. lra.
    + intros r' c [H|[H|[]]].
      * injection H as <- <-. unfold expectation, X2. cbn. unfold of_list; cbn. lra.
      * unfold ones_row in H. injection H as <- <-. unfold expectation. cbn. unfold of_list; cbn. lra.
    + intros r' h [H|[]]. injection H as <- <-. unfold expectation, rank_row, X2. cbn. unfold of_list; cbn. lra.
  - intros q' [[S1 S2] [He _]] s Hs. pose proof (He _ _ (or_introl eq_refl)) as E1. unfold expectation, X2 in E1. cbn in *. unfold of_list.
    destruct s as [|[|s]]; [cbn; lra|cbn; lra|lia].
  - intros [|[|s]] Hs; cbn in *; try lia; unfold of_list; cbn; lra.
  - exists q. unfold posterior.
    assert (EB : rank_views book0 lab2 = [(keyA, SNum (6 / 10)); (KTup lab2, SOp Ge 0)]) by reflexivity. rewrite EB.
    assert (B : forall mu va, build_constraints lab2 X2 mu va MMean [(keyA, SNum (6 / 10)); (KTup lab2, SOp Ge 0)] ([], []) =
      Ok ([(fun s => X2 s 0%nat, 6 / 10)], [(fun s => - rank_row s, - 0)])) by reflexivity.
    cbn [sequential_blocks nonempty]. rewrite B. cbn [bind].
    assert (F' : do_ep best_minimize 2 p0 ([(fun s => X2 s 0%nat, 6 / 10)], [(fun s => - rank_row s, - 0)]) = Ok q) by exact F. rewrite F'. reflexivity.
Qed.
Example book_case : exists r1 r2,
  let calls := [rank_call (Some lab2); rank_call None] in
  let results := fst (book_session best_minimize (argsort_by Rleb 0) ExistProperties.best_chol (fun _ _ _ _ => 0) book0 calls) in
  answers results 0 (Ok r1) /\ answers results 1 (Ok r2) /\ f_mean_views r2 = [(keyA, SNum (6 / 10)); (KTup lab2, at_least 0)].
Proof.
  assert (H2 : 0 < 1 / INR 2) by (cbn; lra). destruct (ranked_posterior (fun _ => 1 / INR 2) H2 H2) as [q Eq].
  set (run := fun d rank => flexible_views best_minimize (argsort_by Rleb 0) ExistProperties.best_chol (fun _ _ _ _ => 0) equal2 (with_book d (rank_call rank))).
  assert (R1 : exists r1, run book0 (Some lab2) = Ok r1).
  { unfold run, flexible_views, equal2. cbn [fv_setup Nat.eqb negb guard bind].
    cbn [with_book rank_call vs_mean vs_vol vs_var vs_skew vs_corr vs_cvar vs_quantile vs_rank vs_sequential bc_vol bc_var bc_skew bc_corr bc_cvar bc_quantile bc_rank bc_sequential to_dict bind].
    unfold apply_rank. replace (negb (List.length lab2 <? 2)%nat) with true by reflexivity. cbn [guard bind]. rewrite Eq. cbn [bind]. eauto. }
  destruct R1 as [r1 R1]. exists r1, r1. cbv zeta. cbn [book_session fst]. change (bc_prior (rank_call (Some lab2))) with equal2. change (bc_prior (rank_call None)) with equal2.
  split; [unfold answers; cbn [nth_error]; f_equal; exact R1|]. split.
  - unfold answers. cbn [nth_error]. f_equal. apply (repeated_call_same best_minimize (argsort_by Rleb 0) ExistProperties.best_chol (fun _ _ _ _ => 0) equal2 book0 WNone WNone WNone [] WNone [] (Some lab2) true r1 None R1). auto.
  - destruct (book_after_ok best_minimize (argsort_by Rleb 0) ExistProperties.best_chol (fun _ _ _ _ => 0) book0 (rank_call (Some lab2)) r1 R1) as [_ Z]. cbn [rank_call bc_rank apply_rank] in Z. apply guard_ok in Z as [_ Z]. apply (f_equal (fun o => match o with Ok z => z | Err _ => [] end)) in Z. cbv beta iota in Z. rewrite <- Z. reflexivity.
Qed.
