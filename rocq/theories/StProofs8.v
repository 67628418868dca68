(** Performance reports agree with stress tests; scenario P&L; horizon reports. *)
From Coq Require Import DecimalString DecimalZ Decimal.
From Verif Require Import RBase QpBase SortLib OptModel ConsModel DistModel ProbRModel RiskModel RiskSpec RiskProofs MomSpec MomProofs BlModel ProjModel ProjSpec ProjProofs ProjProofs2 ProjProofs3 StModel FvSpec FvProofs StSpec StProofs StProofs2 StProofs3 StProofs4 StProofs5 StProofs6.
From Verif Require MomModel.
Open Scope R_scope.
Open Scope list_scope.

(** ** One portfolio: the report is the nominal half of the stress test *)
Lemma single_width w : single w -> width w = 1%nat.
Proof. destruct w; cbn; intros; subst; auto; try contradiction. Qed.

Lemma report_is_nominal_l argsort w sc p conf dm r o : frame_ok sc -> distinct_labels w ->
  performance_report argsort w sc p conf dm = Ok r -> stress_test argsort w sc p None None conf dm = Ok o ->
  so_nom o = Metrics [rp_mean r] [rp_sd r] [rp_var r] [rp_cvar r] (rp_ens r) /\ so_pct o = rp_pct r.
Proof.
  intros HF HD HP HS.
  assert (HA : exists r, performance_report argsort w sc p conf dm = Ok r) by eauto.
  apply performance_accepts_l in HA; auto. destruct HA as (_ & _ & _ & Hs & _).
  destruct (performance_inv _ _ _ _ _ _ _ HP) as (Hc & Hdm & q & v & Eq & Ev & Er).
  destruct (stress_inv _ _ _ _ _ _ _ _ _ HF HS) as (_ & _ & HFit & q' & Eq' & Ho & _).
  rewrite Eq in Eq'. injection Eq' as <-. rewrite (Ho eq_refl eq_refl).
  rewrite single_report_core in Er; [|eapply resolve_valid; eauto|auto].
  unfold out_of. cbn [so_nom so_pct]. rewrite (single_width w Hs). unfold metrics_core. cbn [seq map].
  assert (EC : col (sc_T sc) (book w (sc_cols sc) (sc_N sc) (sc_X sc)) 0 = map (fun t => dot (sc_N sc) (sc_X sc t) v) (seq 0 (sc_T sc))).
  { apply map_ext. intros t. unfold book, dot. apply sumn_ext. intros i Hi. f_equal.
    apply (holding_unique w (sc_cols sc) i 0).
    - apply aligned_holding; [apply HFit|]. intros c Ec. rewrite (HF c Ec). exact Hi.
    - eapply single_holding; eauto. }
  rewrite EC. destruct dm; try congruence; injection Er as <-; cbn [rp_mean rp_sd rp_var rp_cvar rp_ens rp_pct]; auto.
Qed.

(** ** Scenario P&L *)
Lemma osum_some n f g : (forall i, (i < n)%nat -> f i = Some (g i)) -> osum n f = Some (sumn n g).
Proof.
  induction n; intros H; simpl; [reflexivity|]. rewrite IHn by auto. rewrite H by lia. reflexivity.
Qed.
Lemma osum_none n f i : (i < n)%nat -> f i = None -> osum n f = None.
Proof.
  induction n; intros Hi H; [lia|]. simpl. destruct (Nat.eq_dec i n) as [E|E].
  - subst. rewrite H. destruct (osum n f); reflexivity.
  - rewrite IHn by (auto; lia). reflexivity.
Qed.
Lemma odot_some n x w g : (forall i, (i < n)%nat -> w i = Some (g i)) -> odot n x w = Some (sumn n (fun i => x i * g i)).
Proof. intros H. apply osum_some. intros i Hi. rewrite H by auto. reflexivity. Qed.
Lemma odot_none n x w i : (i < n)%nat -> w i = None -> odot n x w = None.
Proof. intros Hi H. apply (osum_none n _ i); auto. rewrite H. reflexivity. Qed.

(** The reindexed weights of any argument. *)
Definition spread (w : weights) (cols : option (list label)) : res (nat * (nat -> nat -> option R)) :=
  match labels_of w with
  | Some idx => reindexed idx (wentry w) cols
  | None => Ok (rows_in w, fun i j => Some (wentry w i j))
  end.
Lemma spread_pnl w sc m names f : scenario_pnl_of w sc = Ok (m, names, f) ->
  w <> WtOther /\ m = width w /\ exists V, spread w (sc_cols sc) = Ok (sc_N sc, V) /\ forall t j, f t j = odot (sc_N sc) (sc_X sc t) (fun i => V i j).
Proof.
  intros H. unfold scenario_pnl_of in H. apply bind_ok in H. destruct H as ([[[n m'] V] nm] & E & H).
  apply guard_ok in H. destruct H as [Hn H]. apply Nat.eqb_eq in Hn. subst n.
  assert (m' = m /\ (forall t j, f t j = odot (sc_N sc) (sc_X sc t) (fun i => V i j))) as [-> Hf].
  { split; [exact (f_equal (fun r => match r with Ok (a, _, _) => a | _ => 0%nat end) H)|].
    intros t j. exact (f_equal (fun r => match r with Ok (_, _, g) => g t j | _ => None end) (eq_sym H)). }
  clear H. unfold spread.
  destruct w as [idx cols W|idx name v|d|n v|n m' W|]; cbn [labels_of rows_in] in *; try discriminate;
  (split; [intros HH; discriminate HH|]);
  try (apply bind_ok in E; destruct E as ([n' V'] & E' & E);
       assert (HV : n' = sc_N sc /\ V' = V) by (split; [exact (f_equal (fun r => match r with Ok (a, _, _, _) => a | _ => 0%nat end) E)|exact (f_equal (fun r => match r with Ok (_, _, a, _) => a | _ => V end) E)]);
       assert (Hm := f_equal (fun r => match r with Ok (_, a, _, _) => a | _ => 0%nat end) E); cbn in Hm;
       destruct HV as [-> ->]; split; [subst; reflexivity|exists V; split; [exact E'|exact Hf]]).
  - assert (HV : n = sc_N sc /\ (fun i _ => Some (v i)) = V) by (split; [exact (f_equal (fun r => match r with Ok (a, _, _, _) => a | _ => 0%nat end) E)|exact (f_equal (fun r => match r with Ok (_, _, a, _) => a | _ => V end) E)]).
    assert (Hm := f_equal (fun r => match r with Ok (_, a, _, _) => a | _ => 0%nat end) E); cbn in Hm.
    destruct HV as [-> <-]. split; [subst; reflexivity|]. eexists. split; [reflexivity|exact Hf].
  - assert (HV : n = sc_N sc /\ (fun i j => Some (W i j)) = V) by (split; [exact (f_equal (fun r => match r with Ok (a, _, _, _) => a | _ => 0%nat end) E)|exact (f_equal (fun r => match r with Ok (_, _, a, _) => a | _ => V end) E)]).
    assert (Hm := f_equal (fun r => match r with Ok (_, a, _, _) => a | _ => 0%nat end) E); cbn in Hm.
    destruct HV as [-> <-]. split; [subst; cbn; rewrite map_length, seq_length; reflexivity|]. eexists. split; [reflexivity|exact Hf].
Qed.

Lemma spread_ok w sc V : frame_ok sc -> distinct_labels w -> spread w (sc_cols sc) = Ok (sc_N sc, V) ->
  (covers w sc -> forall i j, (i < sc_N sc)%nat -> exists x, V i j = Some x /\ holding w (sc_cols sc) i j x) /\
  (~ covers w sc -> exists i, (i < sc_N sc)%nat /\ forall j, V i j = None).
Proof.
  intros Hf D H. unfold spread in H. destruct (labels_of w) as [idx|] eqn:L.
  - assert (N : NoDup idx) by (apply D; exact L). destruct (reindexed_ok _ _ _ _ _ H) as (_ & En & EV). split.
    + intros Cv i j Hi. assert (HX : exists x, V i j = Some x).
      { rewrite EV by auto. destruct (sc_cols sc) as [c|] eqn:C; eauto. destruct (list_eq_dec label_dec idx c); eauto.
        unfold covers in Cv. rewrite C, L in Cv. assert (In (nth i c (LInt 0)) idx) by (apply Cv, nth_In; lia).
        destruct (index_of (nth i c (LInt 0)) idx) eqn:K; eauto. apply index_none in K. tauto. }
      destruct HX as (x & Hx). exists x. split; auto. eapply reindexed_holding; eauto.
    + intros NC. unfold covers in NC. rewrite L in NC. destruct (sc_cols sc) as [c|] eqn:C.
      * destruct (Exists_dec (fun l => ~ In l idx) c) as [HE|HE].
        { intros l. destruct (in_dec label_dec l idx); [right; tauto|left; auto]. }
        -- apply Exists_exists in HE as (l & Hl & Hn). apply (In_nth _ _ (LInt 0)) in Hl as (i & Hi & El).
           exists i. split; [lia|]. intros j. rewrite EV by lia. destruct (list_eq_dec label_dec idx c) as [e|e].
           ++ exfalso. apply Hn. rewrite e, <- El. apply nth_In; auto.
           ++ rewrite El. rewrite (proj2 (index_none idx l) Hn). reflexivity.
        -- exfalso. apply NC. intros l Hl. destruct (in_dec label_dec l idx); auto. exfalso. apply HE. apply Exists_exists. eauto.
      * exfalso. apply NC. rewrite (labels_rows _ _ L). congruence.
  - assert (HV : rows_in w = sc_N sc /\ (fun i j => Some (wentry w i j)) = V) by (split; [exact (f_equal (fun r => match r with Ok (a, _) => a | _ => 0%nat end) H)|exact (f_equal (fun r => match r with Ok (_, a) => a | _ => V end) H)]).
    destruct HV as [En <-]. split.
    + intros _ i j Hi. exists (wentry w i j). split; auto. unfold holding. rewrite L. destruct (sc_cols sc); reflexivity.
    + intros NC. exfalso. apply NC. unfold covers. rewrite L. destruct (sc_cols sc); exact En.
Qed.

Lemma scenario_pnl_l w sc m names f : frame_ok sc -> distinct_labels w -> scenario_pnl_of w sc = Ok (m, names, f) ->
  m = List.length (names_of w) /\
  (covers w sc -> forall j, exists h : vec, (forall i, (i < sc_N sc)%nat -> holding w (sc_cols sc) i j (h i)) /\
     forall t, f t j = Some (sumn (sc_N sc) (fun i => sc_X sc t i * h i))) /\
  (~ covers w sc -> forall t j, f t j = None).
Proof.
  intros Hf D H. destruct (spread_pnl _ _ _ _ _ H) as (_ & Em & V & HV & EF). split; [exact Em|].
  destruct (spread_ok w sc V Hf D HV) as [H1 H2]. split.
  - intros Cv j. exists (fun i => some_or_0 (V i j)). split.
    + intros i Hi. destruct (H1 Cv i j Hi) as (x & -> & Hx). exact Hx.
    + intros t. rewrite EF. apply odot_some. intros i Hi. destruct (H1 Cv i j Hi) as (x & -> & _). reflexivity.
  - intros NC t j. destruct (H2 NC) as (i & Hi & E). rewrite EF. apply (odot_none _ _ _ i); auto.
Qed.

Lemma scenario_pnl_accepts_l w sc : frame_ok sc -> distinct_labels w ->
  (exists r, scenario_pnl_of w sc = Ok r) <->
  (w <> WtOther /\ match sc_cols sc, labels_of w with Some _, Some _ => True | _, _ => rows_in w = sc_N sc end).
Proof.
  intros Hf D. split.
  - intros ([[m nm] f] & H). destruct (spread_pnl _ _ _ _ _ H) as (Hw & _ & V & HV & _). split; auto.
    unfold spread in HV. destruct (labels_of w) as [idx|] eqn:L.
    + destruct (sc_cols sc) eqn:C; auto. destruct (reindexed_ok _ _ _ _ _ HV) as (_ & En & _). rewrite (labels_rows _ _ L). congruence.
    + assert (E := f_equal (fun r => match r with Ok (a, _) => a | _ => 0%nat end) HV). cbn in E. destruct (sc_cols sc); exact E.
  - intros [Hw Hr].
    assert (K : forall idx W, labels_of w = Some idx -> exists V, reindexed idx W (sc_cols sc) = Ok (sc_N sc, V)).
    { intros idx W L. assert (N : NoDup idx) by (apply D; auto). destruct (reindexed_total idx W (sc_cols sc)) as (n & V & R); auto.
      destruct (reindexed_ok _ _ _ _ _ R) as (_ & En & _). rewrite L in Hr. exists V. rewrite R. do 2 f_equal. rewrite En.
      destruct (sc_cols sc) eqn:C; [apply Hf; auto|]. rewrite <- (labels_rows _ _ L). auto. }
    unfold scenario_pnl_of. destruct w as [idx cols W|idx name v|d|n v|n m W|]; cbn [labels_of] in K.
    + destruct (K idx W eq_refl) as (V & ->). cbn [bind]. rewrite Nat.eqb_refl. cbn [guard]. eauto.
    + destruct (K idx (fun i _ => v i) eq_refl) as (V & ->). cbn [bind]. rewrite Nat.eqb_refl. cbn [guard]. eauto.
    + destruct (K (map fst d) (fun i _ => nth i (map snd d) 0) eq_refl) as (V & ->). cbn [bind]. rewrite Nat.eqb_refl. cbn [guard]. eauto.
    + cbn [labels_of rows_in] in Hr. cbn [bind]. assert (E : n = sc_N sc) by (destruct (sc_cols sc); auto). rewrite E, Nat.eqb_refl. cbn [guard]. eauto.
    + cbn [labels_of rows_in] in Hr. cbn [bind]. assert (E : n = sc_N sc) by (destruct (sc_cols sc); auto). rewrite E, Nat.eqb_refl. cbn [guard]. eauto.
    + congruence.
Qed.

(** ** Horizon labels *)
Lemma app_inj_r (c : string) : forall a b, (a ++ c = b ++ c)%string -> a = b.
Proof.
  assert (L : forall a c, String.length (a ++ c)%string = (String.length a + String.length c)%nat) by (induction a; simpl; auto).
  induction a; destruct b; simpl; intros H; auto.
  - apply (f_equal String.length) in H. simpl in H. rewrite L in H. lia.
  - apply (f_equal String.length) in H. simpl in H. rewrite L in H. lia.
  - injection H as <- H. f_equal. auto.
Qed.
Lemma dec_Z_inj a b : dec_Z a = dec_Z b -> a = b.
Proof.
  unfold dec_Z. intros H. apply (f_equal NilEmpty.int_of_string) in H.
  rewrite !NilEmpty.isi in H. injection H as H. apply to_int_inj. exact H.
Qed.
Lemma horizon_label_inj a b : horizon_label a = horizon_label b -> a = b.
Proof.
  assert (W : forall s, (s ++ "w")%string <> "1m"%string /\ (s ++ "w")%string <> "3m"%string /\ (s ++ "w")%string <> "6m"%string /\ (s ++ "w")%string <> "1y"%string).
  { intros s. repeat split; destruct s as [|c [|c' [|c'' s]]]; simpl; discriminate. }
  unfold horizon_label.
  destruct (Z.eqb_spec a 4), (Z.eqb_spec b 4); try (intros; congruence);
  destruct (Z.eqb_spec a 13), (Z.eqb_spec b 13); try (intros; congruence);
  destruct (Z.eqb_spec a 26), (Z.eqb_spec b 26); try (intros; congruence);
  destruct (Z.eqb_spec a 52), (Z.eqb_spec b 52); try (intros; congruence);
  intros H;
  try (exfalso; first [apply (proj1 (W _)) in H | apply eq_sym, (proj1 (W _)) in H | apply (proj1 (proj2 (W _))) in H | apply eq_sym, (proj1 (proj2 (W _))) in H
     | apply (proj1 (proj2 (proj2 (W _)))) in H | apply eq_sym, (proj1 (proj2 (proj2 (W _)))) in H | apply (proj2 (proj2 (proj2 (W _)))) in H | apply eq_sym, (proj2 (proj2 (proj2 (W _)))) in H]; exact H).
  apply app_inj_r, dec_Z_inj in H. exact H.
Qed.

(** ** Horizon tables *)
Lemma set_row_keys {A} (rows : list (string * A)) k v : NoDup (map fst rows) ->
  NoDup (map fst (set_row rows k v)) /\ (forall x, In x (map fst (set_row rows k v)) <-> x = k \/ In x (map fst rows)).
Proof.
  induction rows as [|[k' v'] t IH]; cbn [set_row map fst]; intros N.
  - split; [constructor; auto; constructor|]. intros x. simpl. intuition.
  - inversion N as [|a b N1 N2]; subst. destruct (String.eqb_spec k' k) as [e|ne].
    + subst. cbn [map fst]. split; [constructor; auto|]. intros x. simpl. intuition.
    + destruct (IH N2) as [I1 I2]. cbn [map fst]. split.
      * constructor; auto. rewrite I2. intros [H|H]; [congruence|contradiction].
      * intros x. simpl. rewrite I2. intuition.
Qed.
Lemma set_row_in {A} (rows : list (string * A)) k v : NoDup (map fst rows) ->
  forall k' v', In (k', v') (set_row rows k v) <-> (k' = k /\ v' = v) \/ (k' <> k /\ In (k', v') rows).
Proof.
  induction rows as [|[a b] t IH]; cbn [set_row map fst]; intros N k' v'.
  - simpl. split; [intros [H|[]]; injection H as <- <-; auto|]. intros [[-> ->]|[_ []]]. auto.
  - inversion N as [|? ? N1 N2]; subst. destruct (String.eqb_spec a k) as [e|ne].
    + subst. simpl. split.
      * intros [H|H]; [injection H as <- <-; auto|]. right. split; [|auto]. intros ->. apply N1. apply (in_map fst) in H. exact H.
      * intros [[-> ->]|[Hn [H|H]]]; auto. injection H as <- <-. congruence.
    + simpl. rewrite (IH N2). split.
      * intros [H|[H|[H1 H2]]]; auto. injection H as <- <-. auto.
      * intros [H|[H1 [H2|H2]]]; auto.
Qed.

Section Rows.
Variable row : nat -> Z -> res report.
Fixpoint rows_from (i : nat) (hs : list Z) (acc : list (string * report)) : res (list (string * report)) :=
  match hs with
  | [] => Ok acc
  | h :: t => let* r := row i h in rows_from (S i) t (set_row acc (horizon_label h) r)
  end.
Lemma rows_from_spec hs : forall i acc out, NoDup (map fst acc) -> rows_from i hs acc = Ok out ->
  NoDup (map fst out) /\
  (forall k r, In (k, r) out <->
     (exists j h, nth_error hs j = Some h /\ k = horizon_label h /\ row (i + j)%nat h = Ok r /\ forall j', (j < j')%nat -> nth_error hs j' <> Some h) \/
     (In (k, r) acc /\ forall h, In h hs -> k <> horizon_label h)).
Proof.
  induction hs as [|h t IH]; intros i acc out N H; cbn [rows_from] in H.
  - injection H as <-. split; auto. intros k r. split; [intros; right; split; auto|]. intros [(j & h & E & _)|[H _]]; [destruct j; discriminate|auto].
  - apply bind_ok in H as (r0 & E0 & H). destruct (set_row_keys acc (horizon_label h) r0 N) as [N' _].
    destruct (IH _ _ _ N' H) as [I1 I2]. split; auto. intros k r. rewrite I2. rewrite (set_row_in acc _ _ N). split.
    + intros [(j & h' & E1 & E2 & E3 & E4)|[[[-> ->]|[Hn Hin]] Hk]].
      * left. exists (S j), h'. split; auto. split; auto. split; [rewrite <- E3; f_equal; lia|]. intros [|j'] Hj; [lia|]. simpl. apply E4. lia.
      * left. exists 0%nat, h. split; auto. split; auto. split; [rewrite <- E0; f_equal; lia|]. intros [|j'] Hj; [lia|]. simpl. intros E. apply nth_error_In in E. apply (Hk h E). reflexivity.
      * right. split; auto. intros h' [<-|Hh]; auto.
    + intros [(j & h' & E1 & E2 & E3 & E4)|[Hin Hk]].
      * destruct j as [|j].
        -- simpl in E1. injection E1 as <-. right. split.
           ++ left. split; auto. rewrite Nat.add_0_r in E3. congruence.
           ++ intros h' Hh E. subst k. apply horizon_label_inj in E. subst h'. apply In_nth_error in Hh as (j & Ej). apply (E4 (S j)); [lia|exact Ej].
        -- left. exists j, h'. simpl in E1. split; auto. split; auto. split; [rewrite <- E3; f_equal; lia|]. intros j' Hj. apply (E4 (S j')). lia.
      * right. split; [right; split; auto; apply Hk; left; reflexivity|]. intros h' Hh. apply Hk. right. auto.
Qed.
Lemma rows_from_total hs : forall i acc, (exists out, rows_from i hs acc = Ok out) <-> (forall j h, nth_error hs j = Some h -> exists r, row (i + j)%nat h = Ok r).
Proof.
  induction hs as [|h t IH]; intros i acc; cbn [rows_from].
  - split; [intros _ [|j] h H; discriminate|eauto].
  - split.
    + intros (out & H). apply bind_ok in H as (r & E & H). intros [|j] h' Hj; simpl in Hj.
      * injection Hj as <-. rewrite Nat.add_0_r. eauto.
      * rewrite <- Nat.add_succ_comm. eapply (proj1 (IH (S i) _)); eauto.
    + intros H. destruct (H 0%nat h eq_refl) as (r & E). rewrite Nat.add_0_r in E. rewrite E. cbn [bind]. apply IH. intros j h' Hj.
      rewrite Nat.add_succ_comm. apply (H (S j)). exact Hj.
Qed.
End Rows.
Lemma horizon_rows_from argsort rng fresh w kd X nsim p reprice conf seed hs : forall i acc,
  horizon_rows argsort rng fresh w kd X nsim p reprice conf seed i hs acc = rows_from (horizon_row argsort rng fresh w kd X nsim p reprice conf seed) i hs acc.
Proof.
  induction hs as [|h t IH]; intros i acc; [reflexivity|]. cbn [horizon_rows rows_from].
  destruct (horizon_row argsort rng fresh w kd X nsim p reprice conf seed i h); [cbn [bind]; apply IH|reflexivity].
Qed.
Lemma horizon_table_l argsort rng fresh w kd X hs nsim p reprice conf seed rows :
  horizon_report argsort rng fresh w kd X hs nsim p reprice conf seed = Ok rows ->
  NoDup (map fst rows) /\
  forall k r, In (k, r) rows <-> exists i h, nth_error hs i = Some h /\ k = horizon_label h /\
     horizon_row argsort rng fresh w kd X nsim p reprice conf seed i h = Ok r /\ forall j, (i < j)%nat -> nth_error hs j <> Some h.
Proof.
  unfold horizon_report. rewrite horizon_rows_from. intros H. destruct (rows_from_spec _ hs 0 [] rows (NoDup_nil _) H) as [H1 H2]. split; auto.
  intros k r. rewrite H2. split; [intros [(j & h & E)|[[] _]]; eauto|]. intros (j & h & E). left. eauto.
Qed.
Lemma horizon_accepts_l argsort rng fresh w kd X hs nsim p reprice conf seed :
  (exists rows, horizon_report argsort rng fresh w kd X hs nsim p reprice conf seed = Ok rows) <->
  forall i h, nth_error hs i = Some h -> exists r, horizon_row argsort rng fresh w kd X nsim p reprice conf seed i h = Ok r.
Proof. unfold horizon_report. rewrite horizon_rows_from. apply rows_from_total. Qed.
