(** Several kinds of views are processed one after the other; each kind alone. *)
From Coq Require Import Permutation Sorted FunctionalExtensionality.
From Verif Require Import RBase QpBase SortLib OptModel MomSpec NiwModel BlModel RiskModel RiskSpec EpModel EpSpec EpProofs EpProofs2 EpProofs3 EpProofs4 EpProofs5 FvSpec FvProofs FvProofs2 FvProofs3 FvProofs4.
Open Scope R_scope.
Open Scope list_scope.

Definition eqT (T : nat) (p p' : vec) : Prop := forall s, (s < T)%nat -> p s = p' s.
Lemma eqT_list T p p' : eqT T p p' -> map p (seq 0 T) = map p' (seq 0 T).
Proof. intros E. apply map_ext_in. intros s H. apply in_seq in H. apply E. lia. Qed.
Lemma lin_mean T X p p' : eqT T p p' -> q_mean T X p = q_mean T X p'.
Proof. intros E. apply functional_extensionality. intros i. apply sumn_ext. intros s Hs. rewrite E; auto. Qed.
Lemma lin_cov T X p p' : eqT T p p' -> np_cov T X p = np_cov T X p'.
Proof.
  intros E. apply functional_extensionality. intros i. apply functional_extensionality. intros j.
  pose proof (lin_mean T X p p' E) as M. unfold np_cov. fold (q_mean T X p i) (q_mean T X p j) (q_mean T X p' i) (q_mean T X p' j). rewrite M.
  rewrite (sumn_ext T p p' E). f_equal. apply sumn_ext. intros s Hs. rewrite E; auto.
Qed.
Lemma do_ep_ext minimize T p p' c : eqT T p p' -> do_ep minimize T p c = do_ep minimize T p' c.
Proof. intros E. unfold do_ep. rewrite (eqT_list T p p' E). reflexivity. Qed.
Lemma at_s_ext minimize argsort T X i gamma target p p' : eqT T p p' -> forall s, at_s minimize argsort T X i gamma target p s = at_s minimize argsort T X i gamma target p' s.
Proof.
  intros E s. unfold at_s, solve_for. rewrite (eqT_list T p p' E). destruct (entropy_pooling _ _ _ _ _); [|reflexivity].
  f_equal. f_equal. apply sumn_ext. intros t Ht. rewrite E; auto.
Qed.
Lemma newton_ext minimize argsort T X i gamma target p p' : eqT T p p' -> forall fuel s best,
  newton minimize argsort T X fuel i gamma target p s best = newton minimize argsort T X fuel i gamma target p' s best.
Proof.
  intros E. induction fuel as [|n IH]; intros s best; [reflexivity|]. cbn [newton]. rewrite !(at_s_ext _ _ _ _ _ _ _ p p' E).
  destruct (at_s _ _ _ _ _ _ _ p' (Z.max 1 (s - 1))) as [[? ?]|]; [|reflexivity]. destruct (at_s _ _ _ _ _ _ _ p' s) as [[? ?]|]; [|reflexivity].
  destruct (at_s _ _ _ _ _ _ _ p' (Z.min _ _)) as [[? ?]|]; [|reflexivity]. destruct (Rltb _ _); [reflexivity|]. destruct (_ =? _)%Z; [reflexivity|]. rewrite (at_s_ext _ _ _ _ _ _ _ p p' E). apply IH.
Qed.
Lemma solve_cvar_ext minimize argsort T X i gamma target p p' : eqT T p p' -> solve_cvar minimize argsort T X i gamma target p = solve_cvar minimize argsort T X i gamma target p'.
Proof.
  intros E. rewrite !solve_cvar_unfold. assert (S : start_s argsort T X i gamma p = start_s argsort T X i gamma p') by (unfold start_s; rewrite (eqT_list T p p' E); reflexivity).
  rewrite S, (at_s_ext _ _ _ _ _ _ _ p p' E), (newton_ext _ _ _ _ _ _ _ p p' E). reflexivity.
Qed.
Lemma cvar_steps_ext minimize argsort assets T X d p p' q : eqT T p p' -> cvar_steps minimize argsort assets T X d p = Ok q -> exists q', cvar_steps minimize argsort assets T X d p' = Ok q' /\ eqT T q q'.
Proof.
  intros E H. destruct d as [|[key sp] d].
  - injection H as <-. exists p'. split; auto.
  - exists q. split; [|intros s _; reflexivity]. cbn [cvar_steps] in *. destruct (key_idx assets key); [|discriminate]. cbn [bind] in *.
    match goal with |- bind ?x _ = _ => destruct x as [[t g]|] end; [|discriminate]. cbn [bind] in *. rewrite <- (solve_cvar_ext _ _ _ _ _ _ _ p p' E). exact H.
Qed.
Lemma seq_blocks_ext minimize assets T X bs : forall p p' mu var q, eqT T p p' -> sequential_blocks minimize assets T X bs p mu var = Ok q ->
  exists q', sequential_blocks minimize assets T X bs p' mu var = Ok q' /\ eqT T q q'.
Proof.
  induction bs as [|[mt d] bs IH]; intros p p' mu var q E H; cbn [sequential_blocks] in *.
  - injection H as <-. exists p'. auto.
  - destruct (nonempty d); [|eauto]. exists q. split; [|intros s _; reflexivity]. destruct (build_constraints _ _ _ _ _ _ _); [|discriminate]. cbn [bind] in *.
    rewrite <- (do_ep_ext _ _ p p' _ E). exact H.
Qed.

(** Stages of the computation. *)
Definition stage1 minimize assets T X b bs p : res vec :=
  if b : bool then sequential_blocks minimize assets T X bs p (q_mean T X p) (fun i => np_cov T X p i i) else Ok p.
Definition stage2 minimize assets T X quant p : res vec :=
  if nonempty quant then let* c := quantile_rows assets X quant ([], []) in if nonempty (fst c) || nonempty (snd c) then do_ep minimize T p c else Ok p else Ok p.
Lemma posterior_seq minimize argsort assets T X p mean vol var skew corr cvar quant :
  posterior minimize argsort assets T X p mean vol var skew corr cvar quant true =
  (let* q1 := stage1 minimize assets T X true (blocks_of mean vol var skew corr) p in let* q2 := stage2 minimize assets T X quant q1 in cvar_steps minimize argsort assets T X cvar q2).
Proof. reflexivity. Qed.
Lemma posterior_rest minimize argsort assets T X p mean vol var skew corr cvar quant b :
  posterior minimize argsort assets T X p mean vol var skew corr cvar quant b =
  (let* q1 := posterior minimize argsort assets T X p mean vol var skew corr [] [] b in let* q2 := stage2 minimize assets T X quant q1 in cvar_steps minimize argsort assets T X cvar q2).
Proof.
  unfold posterior at 1 2. fold (stage2 minimize assets T X). 
  match goal with |- bind ?x _ = _ => destruct x as [q1|] end; reflexivity.
Qed.
Lemma stage2_ext minimize assets T X quant p p' q : eqT T p p' -> stage2 minimize assets T X quant p = Ok q -> exists q', stage2 minimize assets T X quant p' = Ok q' /\ eqT T q q'.
Proof.
  intros E H. unfold stage2 in *. destruct (nonempty quant); [|injection H as <-; eauto]. destruct (quantile_rows _ _ _ _) as [c|]; [|discriminate]. cbn [bind] in *.
  destruct (_ || _); [|injection H as <-; eauto]. exists q. rewrite <- (do_ep_ext _ _ p p' _ E). split; auto. intros s _; reflexivity.
Qed.
Lemma seq_app minimize assets T X : sound minimize -> forall b1 b2 p q, sequential_blocks minimize assets T X (b1 ++ b2) p (q_mean T X p) (fun i => np_cov T X p i i) = Ok q ->
  exists q1, sequential_blocks minimize assets T X b1 p (q_mean T X p) (fun i => np_cov T X p i i) = Ok q1 /\
    sequential_blocks minimize assets T X b2 q1 (q_mean T X q1) (fun i => np_cov T X q1 i i) = Ok q.
Proof.
  intros So. induction b1 as [|[mt d] b1 IH]; intros b2 p q H; cbn [app sequential_blocks] in *.
  - eauto.
  - destruct (nonempty d); [|eauto]. destruct (build_constraints _ _ _ _ _ _ _) as [c|]; [|discriminate]. cbn [bind] in *.
    destruct (do_ep minimize T p c) as [q'|] eqn:D; [|discriminate]. cbn [bind] in *. destruct (do_ep_ok _ _ _ _ _ So D) as [_ [[_ Q] _]].
    assert (V : q_var T X q' (q_mean T X q') = (fun i => np_cov T X q' i i)).
    { apply functional_extensionality. intros i. rewrite np_cov_eq by exact Q. rewrite cov_of_diag. apply q_var_eq. }
    rewrite V in *. eauto.
Qed.

Lemma posterior_rest_ext minimize argsort assets T X p p' cvar quant q b : eqT T p p' ->
  (let* q2 := stage2 minimize assets T X quant p in cvar_steps minimize argsort assets T X cvar q2) = Ok q ->
  exists q', posterior minimize argsort assets T X p' [] [] [] [] [] cvar quant b = Ok q' /\ eqT T q q'.
Proof.
  intros E H. apply bind_ok in H. destruct H as [q2 [H2 H3]]. destruct (stage2_ext _ _ _ _ _ _ _ _ E H2) as [q2' [E2 E2']].
  destruct (cvar_steps_ext _ _ _ _ _ _ _ _ _ E2' H3) as [q' [E3 E3']]. exists q'. split; auto. rewrite posterior_rest, posterior_none. cbn [bind]. rewrite E2. cbn [bind]. exact E3.
Qed.
Lemma chain_posterior minimize argsort assets T X p mean vol var skew corr cvar quant b q k : sound minimize -> (b = true \/ (5 <= k)%nat) ->
  posterior minimize argsort assets T X p mean vol var skew corr cvar quant b = Ok q ->
  exists q1, posterior minimize argsort assets T X p (upto k 0 mean) (upto k 1 vol) (upto k 2 var) (upto k 3 skew) (upto k 4 corr) (upto k 6 cvar) (upto k 5 quant) b = Ok q1 /\
    forall p', eqT T q1 p' -> exists q', posterior minimize argsort assets T X p' (from k 0 mean) (from k 1 vol) (from k 2 var) (from k 3 skew) (from k 4 corr) (from k 6 cvar) (from k 5 quant) b = Ok q' /\ eqT T q q'.
Proof.
  intros So HB H. destruct (le_lt_dec 5 k) as [K|K].
  - assert (U : forall B n (l : list B), (n < 5)%nat -> upto k n l = l /\ from k n l = []).
    { intros B n l Hn. unfold upto, from. assert (Z : (n <? k)%nat = true) by (apply Nat.ltb_lt; lia). rewrite Z. auto. }
    rewrite !(fun B n l h => proj1 (U B n l h)) by lia. rewrite posterior_rest in H. apply bind_ok in H. destruct H as [q1 [H1 H]].
    destruct (Nat.eq_dec k 5) as [-> |K5].
    + unfold upto, from. cbn [Nat.ltb Nat.leb]. exists q1. split; auto. intros p' E. eapply posterior_rest_ext; eauto.
    + apply bind_ok in H. destruct H as [q2 [H2 H3]]. destruct (Nat.eq_dec k 6) as [-> |K6].
      * unfold upto, from. cbn [Nat.ltb Nat.leb]. exists q2. split; [rewrite posterior_rest, H1; cbn [bind]; rewrite H2; reflexivity|].
        intros p' E. apply (posterior_rest_ext _ _ _ _ _ q2); auto.
      * assert (U5 : (5 <? k)%nat = true) by (apply Nat.ltb_lt; lia). assert (U6 : (6 <? k)%nat = true) by (apply Nat.ltb_lt; lia).
        assert (U4 : forall n, (n < 5)%nat -> (n <? k)%nat = true) by (intros; apply Nat.ltb_lt; lia).
        unfold upto, from. rewrite U5, U6, !U4 by lia. exists q. split; [rewrite posterior_rest, H1; cbn [bind]; rewrite H2; exact H3|].
        intros p' E. exists p'. rewrite posterior_none. auto.
  - destruct HB as [-> |]; [|lia]. rewrite posterior_seq in H. apply bind_ok in H. destruct H as [qa [H1 H]].
    set (f := fun bs => sequential_blocks minimize assets T X bs p (q_mean T X p) (fun i => np_cov T X p i i)).
    assert (Z : exists q1, sequential_blocks minimize assets T X (blocks_of (upto k 0 mean) (upto k 1 vol) (upto k 2 var) (upto k 3 skew) (upto k 4 corr)) p (q_mean T X p) (fun i => np_cov T X p i i) = Ok q1 /\
      sequential_blocks minimize assets T X (blocks_of (from k 0 mean) (from k 1 vol) (from k 2 var) (from k 3 skew) (from k 4 corr)) q1 (q_mean T X q1) (fun i => np_cov T X q1 i i) = Ok qa).
    { unfold stage1, blocks_of in H1. unfold blocks_of.
      destruct k as [|[|[|[|[|k]]]]]; [| | | | |lia]; unfold upto, from; cbn [Nat.ltb Nat.leb].
      - exists p. split; [reflexivity|exact H1].
      - apply (seq_app _ _ _ _ So [_]) in H1. exact H1.
      - apply (seq_app _ _ _ _ So [_; _]) in H1. exact H1.
      - apply (seq_app _ _ _ _ So [_; _; _]) in H1. exact H1.
      - apply (seq_app _ _ _ _ So [_; _; _; _]) in H1. destruct H1 as [q1 [A B]]. exists q1. split; [|exact B]. cbn [app] in *. exact A. }
    destruct Z as [q1 [Z1 Z2]]. assert (U5 : (5 <? k)%nat = false) by (apply Nat.ltb_ge; lia). assert (U6 : (6 <? k)%nat = false) by (apply Nat.ltb_ge; lia).
    exists q1. split.
    + rewrite posterior_seq. unfold stage1. rewrite Z1. unfold upto. rewrite U5, U6. reflexivity.
    + intros p' E. destruct (seq_blocks_ext _ _ _ _ _ _ p' _ _ _ E Z2) as [qa' [A A']]. rewrite (lin_mean T X q1 p' E), (lin_cov T X q1 p' E) in A.
      apply bind_ok in H. destruct H as [q2 [H2 H3]]. destruct (stage2_ext _ _ _ _ _ _ _ _ A' H2) as [q2' [B B']]. destruct (cvar_steps_ext _ _ _ _ _ _ _ _ _ B' H3) as [q3 [C C']].
      exists q3. split; auto. rewrite posterior_seq. unfold stage1. rewrite A. cbn [bind]. unfold from at 1. rewrite U5, B. cbn [bind]. unfold from. rewrite U6. exact C.
Qed.

(** ** Starting again from a posterior *)
Lemma rsum_seq0 (p : vec) T : rsum (map p (seq 0 T)) = sumn T p.
Proof. rewrite rsum_seq. apply sumn_ext. intros; reflexivity. Qed.
Lemma risclose_one x : x = 1 -> risclose x 1 = true.
Proof. intros ->. unfold risclose. apply Rleb_true. replace (1 - 1) with 0 by ring. rewrite Rabs_R0, Rabs_R1. lra. Qed.
Lemma setup_close chol normals pr pa as_ T N X p0 : fv_setup chol normals pr = Ok (pa, as_, T, N, X, p0) -> risclose (rsum (map p0 (seq 0 T))) 1 = true.
Proof.
  assert (U : forall n, n <> 0%nat -> risclose (rsum (map (fun _ => 1 / INR n) (seq 0 n))) 1 = true).
  { intros n Hn. apply risclose_one. rewrite rsum_seq0, sumn_const. field. apply not_0_INR; auto. }
  destruct pr as [lab T' N' X' [w|]|ml n mu cl rr cc cov num fn]; cbn [fv_setup]; intros H.
  - apply bind_ok in H. destruct H as [pn [E H]]. apply guard_ok in H. destruct H as [L H]. apply Nat.eqb_eq in L. injection H as <- <- <- <- <- <-.
    assert (M : map (of_list pn) (seq 0 T') = pn).
    { rewrite <- L. clear. apply (nth_ext _ _ 0 0); [rewrite map_length, seq_length; auto|]. intros s Hs. rewrite map_length, seq_length in Hs. rewrite (nth_map_seq (of_list pn)) by auto. reflexivity. }
    rewrite M. unfold normalize_positive in E. destruct w as [|a t]; [discriminate|]. apply guard_ok in E. destruct E as [G E].
    set (l := a :: t) in *. destruct (risclose (rsum l) 1) eqn:C; apply (f_equal (fun x => match x with Ok y => y | Err _ => [] end)) in E; cbv beta iota in E; subst pn; [exact C|]. apply risclose_one.
    assert (P : 0 < rsum l). { apply rsum_pos; [discriminate|]. apply existsb_pos. apply negb_true_iff. exact G. }
    assert (D : forall c l, rsum (map (fun x => x / c) l) = rsum l / c) by (intros c; induction l0 as [|b l0 IH]; cbn; [unfold Rdiv; ring|unfold rsum in *; rewrite IH; unfold Rdiv; ring]).
    rewrite D. field. lra.
  - apply guard_ok in H. destruct H as [L H]. injection H as <- <- <- <- <- <-. apply U. destruct (Nat.eqb_spec T' 0); [discriminate|auto].
  - apply guard_ok in H. destruct H as [L H]. destruct (Nat.eqb_spec num 0); [discriminate|]. apply guard_ok in H. destruct H as [_ H].
    apply bind_ok in H. destruct H as [Lc [_ H]]. destruct fn as [f|].
    + destruct (f mu _ num) as [[T' N'] X']. apply guard_ok in H. destruct H as [_ H]. injection H as <- <- <- <- <- <-. auto.
    + injection H as <- <- <- <- <- <-. auto.
Qed.
Lemma restart chol normals as_ T N X q : (0 < T)%nat -> (forall s, (s < T)%nat -> 0 < q s) -> risclose (rsum (map q (seq 0 T))) 1 = true ->
  fv_setup chol normals (PScen (Some as_) T N X (Some (map q (seq 0 T)))) = Ok (true, as_, T, N, X, of_list (map q (seq 0 T))).
Proof.
  intros T0 P C. cbn [fv_setup]. assert (E : normalize_positive (map q (seq 0 T)) = Ok (map q (seq 0 T))).
  { unfold normalize_positive. destruct (map q (seq 0 T)) as [|a t] eqn:M; [destruct T; [lia|discriminate]|]. rewrite <- M in *.
    destruct (existsb _ _) eqn:B; [|cbn [negb guard]; rewrite C; reflexivity]. exfalso. apply existsb_exists in B. destruct B as [x [I L]]. apply Rleb_true in L.
    apply in_map_iff in I. destruct I as [s [<- I]]. apply in_seq in I. pose proof (P s ltac:(lia)). lra. }
  rewrite E. cbn [bind]. rewrite seq_len, Nat.eqb_refl. reflexivity.
Qed.
Lemma chain_l minimize argsort chol normals pr mean vol var skew corr cvar quant b r k : sound minimize -> sorts Rle 0 argsort -> (b = true \/ (5 <= k)%nat) ->
  flexible_views minimize argsort chol normals pr (dicts mean vol var skew corr cvar quant b) = Ok r ->
  exists r1 r2,
    flexible_views minimize argsort chol normals pr
      (dicts (upto k 0 mean) (upto k 1 vol) (upto k 2 var) (upto k 3 skew) (upto k 4 corr) (upto k 6 cvar) (upto k 5 quant) b) = Ok r1 /\
    flexible_views minimize argsort chol normals (PScen (Some (f_assets r1)) (f_S r1) (f_N r1) (f_R r1) (Some (map (f_q r1) (seq 0 (f_S r1)))))
      (dicts (from k 0 mean) (from k 1 vol) (from k 2 var) (from k 3 skew) (from k 4 corr) (from k 6 cvar) (from k 5 quant) b) = Ok r2 /\
    f_S r1 = f_S r /\ f_R r1 = f_R r /\ f_assets r1 = f_assets r /\ (forall s, (s < f_S r)%nat -> f_q r2 s = f_q r s).
Proof.
  intros So AS HB H. destruct (fv_inv _ _ _ _ _ _ _ H) as [E [HN [m' [vo [va [sk [cv [E1 [E2 [E3 [E4 [E5 [E6 [E7 _]]]]]]]]]]]]]].
  unfold dicts in *. cbn [vs_mean vs_vol vs_var vs_skew vs_corr vs_cvar vs_quantile vs_rank vs_sequential to_dict apply_rank] in *.
  injection E1 as <-. injection E2 as <-. injection E3 as <-. injection E4 as <-. injection E5 as <-. injection E6 as E6. rewrite <- E6 in E7.
  destruct (chain_posterior _ _ _ _ _ _ _ _ _ _ _ _ _ _ _ k So HB E7) as [q1 [P1 P2]].
  pose proof (fv_build _ _ _ _ _ _ _ _ _ _ _ _ _ _ _ _ _ _ _ _ E HN P1) as R1. eexists. destruct (setup_prior _ _ _ _ _ _ _ _ _ E) as [T0 Pp].
  assert (Q1 : (forall s, (s < f_S r)%nat -> 0 < q1 s) /\ risclose (rsum (map q1 (seq 0 (f_S r)))) 1 = true).
  { destruct (posterior_prob _ _ _ _ _ _ _ _ _ _ _ _ _ _ _ So AS P1) as [[-> _]|[P [_ S]]].
    - split; auto. eapply setup_close; eauto.
    - split; auto. apply risclose_one. rewrite rsum_seq0. exact S. }
  destruct Q1 as [Q1 Q2]. pose proof (restart chol normals (f_assets r) (f_S r) (f_N r) (f_R r) q1 T0 Q1 Q2) as RS.
  destruct (P2 (of_list (map q1 (seq 0 (f_S r))))) as [q' [P3 P4]]. { intros s Hs. rewrite seq_at; auto. }
  pose proof (fv_build _ _ _ _ _ _ _ _ _ _ _ _ _ _ _ _ _ _ _ _ RS HN P3) as R2. eexists. split; [exact R1|]. cbn. split; [exact R2|]. cbn. repeat (split; [reflexivity|]).
  intros s Hs. symmetry. apply P4; auto.
Qed.
