(** The posterior: one entropy pooling step, and what each combination of views guarantees. *)
From Verif Require Import RBase QpBase SortLib OptModel MomSpec BlModel RiskModel RiskSpec EpModel EpSpec EpProofs EpProofs2 EpProofs3 EpProofs4 FvSpec FvProofs.
Open Scope R_scope.
Open Scope list_scope.

Lemma build_each assets T X mu var mt q : is_prob T q -> forall vs acc acc', build_constraints assets X mu var mt vs acc = Ok acc' -> sat T acc' q ->
  sat T acc q /\ forall key v, In (key, v) vs -> (mt = MCorr -> exists l, key = KTup l) ->
    (forall a i, In a (key_labels key) -> column assets a i -> exact_at T X q mu var mt i) -> exists x, stat_of assets T X q mt key x /\ meets x v.
Proof.
  intros Q. induction vs as [|[key v] vs IH]; intros acc acc' H S; cbn [build_constraints] in H.
  - injection H as <-. split; [auto|intros ? ? []].
  - apply bind_ok in H. destruct H as [[[row ok] rhs] [E H]]. apply bind_ok in H. destruct H as [l [P H]].
    apply bind_ok in H. destruct H as [acc1 [A H]]. destruct (IH _ _ H S) as [S1 R].
    destruct (add_specs_sat T row ok rhs l _ _ A) as [K S2]. apply S2 in S1. destruct S1 as [S0 C]. split; auto.
    intros key' v' [Ek|I] PK EX; [|eauto]. injection Ek as <- <-.
    destruct (view_row_meaning assets T X mu var mt key row ok rhs q E Q PK EX) as [x [St M]].
    exists x. split; auto. apply (specs_meets v l ok rhs (expectation T q row) x P K M); auto.
Qed.

(** ** One step *)
Lemma seq_len (p : vec) T : List.length (map p (seq 0 T)) = T.
Proof. rewrite map_length, seq_length. reflexivity. Qed.
Lemma seq_at (p : vec) T s : (s < T)%nat -> of_list (map p (seq 0 T)) s = p s.
Proof. intros H. unfold of_list. apply nth_map_seq; auto. Qed.
Lemma opt_rows_nil (G : rows) : opt_rows (match G with [] => None | G' => Some G' end) = G.
Proof. destruct G; reflexivity. Qed.
Lemma ones_has T c : has_ones T (c ++ [ones_row]).
Proof. exists (fun _ => 1). split; [apply in_or_app; right; left; reflexivity|auto]. Qed.
Lemma obeys_sat T (c : rows * rows) q : obeys T (fst c ++ [ones_row]) (snd c) q <-> is_prob T q /\ sat T c q.
Proof.
  unfold obeys, sat. rewrite holds_eq_app. split; [tauto|]. intros [P [E L]]. split; auto. split; auto. split; auto.
  intros r b [H|[]]. injection H as <- <-. destruct P as [_ P]. transitivity (sumn T q); [apply sumn_ext; intros; ring|exact P].
Qed.
Lemma ep_floor_seq minimize (p : vec) T A G method q : sound minimize -> has_ones T A ->
  entropy_pooling minimize (map p (seq 0 T)) A G method = Ok q ->
  (forall s, 0 < q s) /\ closest_above (exp (-700)) T p A (opt_rows G) q.
Proof.
  intros So Ho H. assert (Ho' : has_ones (List.length (map p (seq 0 T))) A) by (rewrite seq_len; auto).
  split; [apply (ep_obeys_l _ _ _ _ _ _ So H Ho')|].
  pose proof (ep_floor_l _ _ _ _ _ _ So H Ho') as [O [F M]]. rewrite seq_len in *. split; auto. split; auto.
  intros q' O' F'. specialize (M q' O' F').
  rewrite (kl_ext T q q (of_list (map p (seq 0 T))) p), (kl_ext T q' q' (of_list (map p (seq 0 T))) p) in M by (auto; intros; apply seq_at; auto). exact M.
Qed.
Lemma do_ep_ok minimize T p c q : sound minimize -> do_ep minimize T p c = Ok q ->
  (forall s, 0 < q s) /\ is_prob T q /\ sat T c q /\ nearest (exp (-700)) T p (fun w => is_prob T w /\ sat T c w) q.
Proof.
  intros So H. unfold do_ep in H.
  destruct (ep_floor_seq _ _ _ _ _ _ _ So (ones_has T (fst c)) H) as [P [O [F M]]].
  match type of O with obeys _ _ ?g _ => assert (EG : g = snd c) by (destruct (snd c); reflexivity); rewrite EG in O, M end. pose proof (proj1 (obeys_sat T c q) O) as [Pq Sq]. split; auto. split; auto. split; auto.
  split; auto. split; auto. intros q' Hq'. apply M. apply obeys_sat. exact Hq'.
Qed.
Lemma do_ep_prior minimize T p c q : do_ep minimize T p c = Ok q -> (0 < T)%nat /\ forall s, (s < T)%nat -> 0 < p s.
Proof.
  intros H. unfold do_ep in H. destruct (ep_inv _ _ _ _ _ _ H) as [m [pn [lam [E _]]]]. destruct (normalize_positive_inv _ _ E) as [N [P _]].
  split. { destruct T; [exfalso; apply N; reflexivity|lia]. }
  intros s Hs. apply P. apply in_map_iff. exists s. split; auto. apply in_seq. lia.
Qed.
Lemma nearest_weaken lo T p (P Q : vec -> Prop) q : (forall w, P w <-> Q w) -> nearest lo T p P q -> nearest lo T p Q q.
Proof. intros E [H [F M]]. split; [apply E; auto|]. split; auto. intros q' Hq'. apply M, E; auto. Qed.

Definition ne (c : rows * rows) : bool := nonempty (fst c) || nonempty (snd c).
Lemma add_row_ne acc o r b : ne (add_row acc o r b) = true.
Proof. destruct acc as [a1 a2]. unfold ne. destruct o; cbn; rewrite ?orb_true_iff; try (left; destruct a1; reflexivity); try (right; destruct a2; reflexivity). Qed.
Lemma add_specs_ne row ok rhs l : forall acc acc', add_specs acc row ok rhs l = Ok acc' -> l <> [] \/ ne acc = true -> ne acc' = true.
Proof.
  induction l as [|[o t] l IH]; intros acc acc' H N; cbn [add_specs] in H.
  - injection H as <-. destruct N; [congruence|auto].
  - apply guard_ok in H. destruct H as [_ H]. apply (IH _ _ H). right. apply add_row_ne.
Qed.
Lemma parse_ne v l : parse_specs v = Ok l -> l <> [].
Proof. destruct v; cbn; intros H; try (injection H as <-; discriminate); try discriminate. apply guard_ok in H. destruct H as [_ H]. injection H as <-. discriminate. Qed.
Lemma build_ne assets X mu var mt vs : forall acc acc', build_constraints assets X mu var mt vs acc = Ok acc' -> vs <> [] \/ ne acc = true -> ne acc' = true.
Proof.
  induction vs as [|[key v] vs IH]; intros acc acc' H N; cbn [build_constraints] in H.
  - injection H as <-. destruct N; [congruence|auto].
  - apply bind_ok in H. destruct H as [[[row ok] rhs] [E H]]. apply bind_ok in H. destruct H as [l [P H]].
    apply bind_ok in H. destruct H as [acc1 [A H]]. apply (IH _ _ H). right. apply (add_specs_ne _ _ _ _ _ _ A). left. eapply parse_ne; eauto.
Qed.

(** ** No views; mean views *)
Lemma posterior_none minimize argsort assets T X p0 b : posterior minimize argsort assets T X p0 [] [] [] [] [] [] [] b = Ok p0.
Proof. destruct b; reflexivity. Qed.
Lemma posterior_mean minimize argsort assets T X p0 m b q : sound minimize -> m <> [] ->
  posterior minimize argsort assets T X p0 m [] [] [] [] [] [] b = Ok q ->
  (forall s, 0 < q s) /\ nearest (exp (-700)) T p0 (fun w => is_prob T w /\ views_hold assets T X w MMean m) q.
Proof.
  intros So Nm H. assert (E : exists c mu var, build_constraints assets X mu var MMean m ([], []) = Ok c /\ do_ep minimize T p0 c = Ok q).
  { unfold posterior in H. destruct m as [|kv m']; [congruence|]. set (m := kv :: m') in *. destruct b.
    - cbn [sequential_blocks nonempty] in H. change (nonempty m) with true in H. cbv iota in H.
      apply bind_ok in H. destruct H as [q1 [H H2]]. apply bind_ok in H. destruct H as [c [B H]]. apply bind_ok in H. destruct H as [q' [D H]].
      injection H as <-. cbn [bind nonempty cvar_steps] in H2. injection H2 as <-. eauto.
    - apply bind_ok in H. destruct H as [q1 [H H2]]. cbn [nonempty andb orb] in H. rewrite andb_false_r in H. cbn [bind all_blocks] in H.
      apply bind_ok in H. destruct H as [c [B H]]. apply bind_ok in B. destruct B as [c' [B B2]]. cbn [build_constraints bind] in B2. injection B2 as <-.
      assert (NE : nonempty (fst c') || nonempty (snd c') = true).
      { apply (build_ne _ _ _ _ _ m _ _ B). left. unfold m. discriminate. }
      rewrite NE in H. cbn [bind nonempty cvar_steps] in H2. injection H2 as <-. eauto. }
  destruct E as [c [mu [var [B D]]]]. destruct (do_ep_ok _ _ _ _ _ So D) as [P [Pq [Sq N]]]. split; auto.
  apply (nearest_weaken _ _ _ (fun w => is_prob T w /\ sat T c w)); auto. intros w. split; intros [Pw Hw]; split; auto.
  - apply (build_sat assets T X mu var MMean w Pw m _ _ B); auto; [discriminate|intros; exact I].
  - apply (build_sat assets T X mu var MMean w Pw m _ _ B); auto; [discriminate|intros; exact I|]. split; auto. split; intros ? ? [].
Qed.
