(** Selector and optimiser names, projection options. *)
From Coq Require Import String Ascii.
From Verif Require Import RBase QpBase SortLib RiskModel ConsModel ConsSpec MomModel MomSpec DistModel DistSpec ConvModel StModel OptModel EnsModel EnsSpec AsmModel FrModel FrSpec FrProofs FrProofs2 FrProofs3 FrProofs4 FrProperties WrModel WrSpec SpecModel SpecSpec.
Open Scope R_scope.
Open Scope list_scope.

Lemma one_of_in k l : one_of k l = true <-> In k l.
Proof.
  unfold one_of. rewrite existsb_exists. split.
  - intros (x & H & E). apply String.eqb_eq in E. subst. exact H.
  - intros H. exists k. split; [exact H|]. apply String.eqb_refl.
Qed.
Lemma one_of_not k l : one_of k l = false <-> ~ In k l.
Proof. rewrite <- one_of_in. destruct (one_of k l); split; congruence. Qed.

(** ** Strings *)
Lemma lower_ascii_idem a : lower_ascii (lower_ascii a) = lower_ascii a.
Proof. destruct a as [[] [] [] [] [] [] [] []]; reflexivity. Qed.
Lemma lower_idem s : lower (lower s) = lower s.
Proof. induction s as [|a s IH]; [reflexivity|]. cbn [lower]. rewrite lower_ascii_idem, IH. reflexivity. Qed.

(** ** Aliases belong to one family *)
Lemma alias_unique k a b : In k (aliases a) -> In k (aliases b) -> a = b.
Proof.
  intros H1 H2. destruct a, b; try reflexivity; exfalso; cbn in H1, H2;
  repeat match goal with H : _ \/ _ |- _ => destruct H end; subst; try discriminate; try contradiction.
Qed.

Lemma contains_iff pat s : contains pat s = true <-> exists a b, s = (a ++ pat ++ b)%string.
Proof.
  unfold contains. split.
  - destruct (String.index 0 pat s) as [n|] eqn:E; [|discriminate]. intros _.
    apply String.index_correct1 in E. clear -E. revert s E. induction n as [|n IH]; intros s E.
    + exists EmptyString. cbn [String.append]. revert s E. induction pat as [|c pat IHp]; intros s E.
      * exists s. reflexivity.
      * destruct s as [|d s]; [discriminate|]. cbn in E. injection E as -> E. destruct (IHp s E) as (b & ->). exists b. reflexivity.
    + destruct s as [|d s].
      * cbn in E. exists EmptyString, EmptyString. destruct pat; [reflexivity|discriminate].
      * cbn in E. destruct (IH s E) as (a & b & ->). exists (String d a), b. reflexivity.
  - intros (a & b & ->). induction a as [|c a IH].
    + cbn [String.append]. assert (prefix pat (pat ++ b) = true) as P.
      { induction pat as [|d pat IHp]; [destruct b; reflexivity|]. cbn. destruct (ascii_dec d d); [exact IHp|congruence]. }
      destruct (pat ++ b)%string eqn:E.
      * destruct pat; [reflexivity|discriminate].
      * cbn [String.index]. rewrite P. reflexivity.
    + cbn [String.append String.index]. destruct (prefix pat (String c (a ++ pat ++ b))); [reflexivity|].
      destruct (String.index 0 pat (a ++ pat ++ b)); [reflexivity|discriminate].
Qed.

Lemma lookup_some_in {A} (l : list (string * A)) k v : lookup k l = Some v -> In (k, v) l.
Proof.
  induction l as [|[a b] l IH]; [discriminate|]. cbn. destruct (String.eqb_spec k a); [|auto].
  intros H. injection H as ->. subst. auto.
Qed.
Lemma lookup_none_in {A} (l : list (string * A)) k : lookup k l = None -> forall v, ~ In (k, v) l.
Proof.
  induction l as [|[a b] l IH]; [auto|]. cbn. destruct (String.eqb_spec k a); [discriminate|].
  intros H v [E|E]; [injection E; congruence|]. exact (IH H v E).
Qed.

Lemma resolve_working f l : working_label f l (resolve_label f l).
Proof.
  destruct l as [l|]; [reflexivity|]. unfold working_label, resolve_label, has_overlay.
  destruct (lookup "Volatility" (f_alt f)) as [v|] eqn:E.
  - apply lookup_some_in in E. destruct (contains "Estimation Risk" (f_measure f)) eqn:C.
    + left. split; [|reflexivity]. split; [apply contains_iff; exact C|eauto].
    + right. split; [|reflexivity]. intros [H _]. apply contains_iff in H. congruence.
  - right. split; [|reflexivity]. intros [_ [v H]]. exact (lookup_none_in _ _ E v H).
Qed.

(** ** Building *)
Ltac aliastac key :=
  repeat match goal with
  | |- context[one_of key ?l] => let E := fresh "E" in destruct (one_of key l) eqn:E
  | H : context[one_of key ?l] |- _ => let E := fresh "E" in destruct (one_of key l) eqn:E
  end.

Lemma build_err name kw e : build_selector name kw = Err e -> e = ValueError.
Proof.
  unfold build_selector, need. intros H. remember (lower name) as key.
  repeat match type of H with
  | (if ?b then _ else _) = _ => destruct b; [|]
  | Ok _ = Err _ => discriminate H
  | Err _ = Err _ => injection H as <-; reflexivity
  | bind (match lookup ?n kw with _ => _ end) _ = _ => destruct (lookup n kw); cbn [bind] in H
  | match lookup ?n kw with _ => _ end = _ => destruct (lookup n kw) as [[]|]
  end; try discriminate; try (injection H as <-; reflexivity); auto.
Qed.

Lemma need_supplied n kw : n <> "index"%string -> ((exists v, need n kw = Ok v) <-> supplied_option n kw).
Proof.
  intros Hn. unfold need, supplied_option. destruct (lookup n kw) as [v|]; split.
  - intros _. exists v. split; [reflexivity|]. congruence.
  - intros _. exists v. reflexivity.
  - intros [v H]; discriminate.
  - intros (v & H & _). discriminate.
Qed.

Lemma as_int_cut v z : as_int v = Ok z -> cut_off v z.
Proof.
  destruct v as [|x|k|t]; cbn [as_int]; try discriminate; intros H; injection H as <-; [right; exists x; split; [reflexivity|]|left; reflexivity].
  destruct (Rleb_spec 0 x).
  - left. destruct (base_Int_part x). lra.
  - right. rewrite opp_IZR. destruct (base_Int_part (- x)). lra.
Qed.

Definition builder (fm : family) (kw : kwargs) : res closure :=
  let label := as_label (lookup "risk_label" kw) in
  match fm with
  | FTangency => Ok (ready (let* r := match lookup "risk_free_rate" kw with Some v => as_num v | None => Ok 0 end in Ok (SelTangency r)))
  | FMinRisk => Ok (ready (let* l := label in Ok (SelMinRisk l)))
  | FMaxReturn => Ok (Chosen SelMaxReturn)
  | FRiskTarget => let* v := need "max_risk" kw in Ok (ready (let* l := label in let* m := as_num v in Ok (SelRiskTarget m l)))
  | FRiskMatch => let* v := need "target_risk" kw in Ok (ready (let* l := label in let* t := as_num v in Ok (SelRiskMatch t l)))
  | FPercentile => let* v := need "percentile" kw in Ok (ready (let* l := label in let* p := as_num v in Ok (SelPercentile p l)))
  | FColumn => match lookup "index" kw with
               | None | Some VNone => Err ValueError
               | Some v => Ok (ready (let* z := as_int v in Ok (SelColumn z)))
               end
  end.
Lemma build_family name kw fm : In (lower name) (aliases fm) -> build_selector name kw = builder fm kw.
Proof.
  intros H. unfold build_selector. set (key := lower name) in *. clearbody key. cbv zeta.
  change (one_of key ["tangency"; "max_sharpe"; "sharpe"]%string) with (one_of key (aliases FTangency)).
  change (one_of key ["min_risk"; "minimum_risk"]%string) with (one_of key (aliases FMinRisk)).
  change (one_of key ["max_return"; "maximum_return"]%string) with (one_of key (aliases FMaxReturn)).
  change (one_of key ["risk_target"; "max_return_subject_to_risk"]%string) with (one_of key (aliases FRiskTarget)).
  change (one_of key ["risk_match"; "risk_nearest"]%string) with (one_of key (aliases FRiskMatch)).
  change (one_of key ["risk_percentile"; "risk_pct"; "percentile"]%string) with (one_of key (aliases FPercentile)).
  change (one_of key ["column"; "index"]%string) with (one_of key (aliases FColumn)).
  assert (D : forall g, one_of key (aliases g) = true -> g = fm) by (intros g Hg; apply one_of_in in Hg; eapply alias_unique; eauto).
  assert (Y : one_of key (aliases fm) = true) by (apply one_of_in; exact H).
  repeat match goal with
  | |- context[one_of key (aliases ?g)] => let E := fresh "E" in destruct (one_of key (aliases g)) eqn:E;
        [apply D in E; subst fm; reflexivity|]
  end. destruct fm; congruence.
Qed.
Lemma build_unknown name kw : (forall fm, ~ In (lower name) (aliases fm)) -> build_selector name kw = Err ValueError.
Proof.
  intros H. unfold build_selector. cbv zeta.
  assert (F : forall fm l, l = aliases fm -> one_of (lower name) l = false) by (intros fm l ->; apply one_of_not; apply H).
  rewrite (F FTangency ["tangency"; "max_sharpe"; "sharpe"]%string eq_refl), (F FMinRisk ["min_risk"; "minimum_risk"]%string eq_refl), (F FMaxReturn ["max_return"; "maximum_return"]%string eq_refl), (F FRiskTarget ["risk_target"; "max_return_subject_to_risk"]%string eq_refl), (F FRiskMatch ["risk_match"; "risk_nearest"]%string eq_refl),
    (F FPercentile ["risk_percentile"; "risk_pct"; "percentile"]%string eq_refl), (F FColumn ["column"; "index"]%string eq_refl). reflexivity.
Qed.
Lemma alias_dec k : (exists fm, In k (aliases fm)) \/ forall fm, ~ In k (aliases fm).
Proof.
  destruct (existsb (fun fm => one_of k (aliases fm)) [FTangency; FMinRisk; FMaxReturn; FRiskTarget; FRiskMatch; FPercentile; FColumn]) eqn:E.
  - left. apply existsb_exists in E as (fm & _ & E). exists fm. apply one_of_in. exact E.
  - right. intros fm H. apply one_of_in in H. enough (true = false) by discriminate. rewrite <- E. symmetry. apply existsb_exists.
    exists fm. split; [|exact H]. destruct fm; cbn; tauto.
Qed.

Lemma build_ok_iff name kw : (exists c, build_selector name kw = Ok c) <-> known_selector name kw.
Proof.
  destruct (alias_dec (lower name)) as [[fm H]|H].
  - rewrite (build_family name kw fm H). split.
    + intros [c Hc]. exists fm. split; [exact H|]. intros r Hr. destruct fm; try discriminate; injection Hr as <-; cbn [builder] in Hc.
      * apply bind_ok in Hc as (v & Hv & _). apply need_supplied; [discriminate|eauto].
      * apply bind_ok in Hc as (v & Hv & _). apply need_supplied; [discriminate|eauto].
      * apply bind_ok in Hc as (v & Hv & _). apply need_supplied; [discriminate|eauto].
      * destruct (lookup "index" kw) as [[]|] eqn:E; try discriminate; eexists; (split; [exact E|discriminate]).
    + intros (g & Hg & Hr). assert (g = fm) as -> by (eapply alias_unique; eauto).
      destruct fm; cbn [builder]; try (eexists; reflexivity); specialize (Hr _ eq_refl).
      * apply need_supplied in Hr as [v ->]; [|discriminate]. eexists; reflexivity.
      * apply need_supplied in Hr as [v ->]; [|discriminate]. eexists; reflexivity.
      * apply need_supplied in Hr as [v ->]; [|discriminate]. eexists; reflexivity.
      * destruct Hr as (v & -> & Hv). specialize (Hv eq_refl). destruct v; try congruence; eexists; reflexivity.
  - rewrite (build_unknown name kw H). split; [intros [c Hc]; discriminate|]. intros (fm & Hf & _). exfalso. exact (H fm Hf).
Qed.

Lemma as_num_number kw n v x : lookup n kw = Some v -> as_num v = Ok x -> number kw n x.
Proof. intros L H. destruct v; try discriminate; injection H as <-; [left|right]; eauto. Qed.
Lemma as_label_option kw l : as_label (lookup "risk_label" kw) = Ok l -> l = risk_label_option kw.
Proof. unfold as_label, risk_label_option. destruct (lookup "risk_label" kw) as [[]|]; intros H; try discriminate; injection H as <-; reflexivity. Qed.

Lemma need_lookup n kw v : need n kw = Ok v -> lookup n kw = Some v.
Proof. unfold need. destruct (lookup n kw); intros H; [injection H as ->; reflexivity|discriminate]. Qed.
Lemma ready_chosen r s : ready r = Chosen s -> r = Ok s.
Proof. destruct r; cbn; intros H; congruence. Qed.
Lemma ok_chosen r (s : selector) : Ok (ready r) = Ok (Chosen s) -> r = Ok s.
Proof. intros H. injection H as H. apply ready_chosen. exact H. Qed.

Lemma selector_picks_l argsort rng name kw c f r :
  sorts Rle 0 argsort -> FrSpec.well_formed f -> (0 < size f)%nat ->
  build_selector name kw = Ok c -> run_closure argsort rng c f = Ok r ->
  exists fm i, In (lower name) (aliases fm) /\ picks argsort kw f i fm /\ (i < size f)%nat /\
    r = Plain (OSeries (labelled rng (f_names f) (nth i (f_cols f) []))).
Proof.
  intros Hs Hw Hn Hb Hr. destruct (alias_dec (lower name)) as [[fm Hf]|Hf]; [|rewrite (build_unknown _ _ Hf) in Hb; discriminate].
  rewrite (build_family _ _ _ Hf) in Hb. destruct c as [s|e]; [|discriminate]. cbn [run_closure] in Hr.
  apply bind_ok in Hr as (w & Hw' & Hr). injection Hr as <-. exists fm.
  assert (G : forall i, nth i (f_cols f) [] = w -> picks argsort kw f i fm -> (i < size f)%nat -> exists i0, In (lower name) (aliases fm) /\
     picks argsort kw f i0 fm /\ (i0 < size f)%nat /\ Plain (OSeries (labelled rng (f_names f) w)) = Plain (OSeries (labelled rng (f_names f) (nth i0 (f_cols f) [])))).
  { intros i E P I. exists i. rewrite E. auto. }
  destruct fm; cbn [builder] in Hb.
  - apply ok_chosen in Hb. apply bind_ok in Hb as (rf & Hrf & Hb). injection Hb as <-. cbn [run_selector snd] in Hw'.
    apply bind_ok in Hw' as (sl & Ht & Hw'). injection Hw' as <-. apply (tangency_selects f rf Hw Hn) in Ht as (i & (Hi & _ & HW & _) & HB).
    apply (G i); [congruence| |exact Hi]. apply (pick_tangency argsort kw f i rf); [|exact HB].
    destruct (lookup "risk_free_rate" kw) as [v|] eqn:L; [left; eapply as_num_number; eauto|right; split; [reflexivity|congruence]].
  - apply ok_chosen in Hb. apply bind_ok in Hb as (l & Hl & Hb). injection Hb as <-. cbn [run_selector snd] in Hw'.
    apply bind_ok in Hw' as (sl & Ht & Hw'). injection Hw' as <-. apply (min_risk_selects f l Hw Hn) in Ht as (risks & i & R & (Hi & _ & HW & _) & HB).
    apply as_label_option in Hl. subst l. apply (G i); [congruence| |exact Hi]. eapply pick_min_risk; eauto.
  - injection Hb as <-. cbn [run_selector snd] in Hw'. destruct (max_return_selects f Hn) as (sl & i & E & (Hi & _ & HW & _) & HB).
    rewrite E in Hw'. cbn [bind] in Hw'. injection Hw' as <-. apply (G i); [congruence| |exact Hi]. apply pick_max_return. exact HB.
  - apply bind_ok in Hb as (v & Hv & Hb). apply ok_chosen in Hb. apply bind_ok in Hb as (l & Hl & Hb). apply bind_ok in Hb as (m & Hm & Hb). injection Hb as <-.
    cbn [run_selector snd] in Hw'. apply bind_ok in Hw' as (sl & Ht & Hw'). injection Hw' as <-.
    apply (at_risk_selects f m _ Hw) in Ht as (risks & i & R & (Hi & _ & HW & _) & HB). apply as_label_option in Hl. subst l. apply need_lookup in Hv.
    apply (G i); [congruence| |exact Hi]. eapply pick_risk_target; eauto; [eapply as_num_number; eauto|apply resolve_working].
  - apply bind_ok in Hb as (v & Hv & Hb). apply ok_chosen in Hb. apply bind_ok in Hb as (l & Hl & Hb). apply bind_ok in Hb as (m & Hm & Hb). injection Hb as <-.
    cbn [run_selector snd] in Hw'. apply bind_ok in Hw' as (sl & Ht & Hw'). injection Hw' as <-.
    apply (closest_risk_selects f m _ Hw Hn) in Ht as (risks & i & R & (Hi & _ & HW & _) & HB). apply as_label_option in Hl. subst l. apply need_lookup in Hv.
    apply (G i); [congruence| |exact Hi]. eapply pick_risk_match; eauto; [eapply as_num_number; eauto|apply resolve_working].
  - apply bind_ok in Hb as (v & Hv & Hb). apply ok_chosen in Hb. apply bind_ok in Hb as (l & Hl & Hb). apply bind_ok in Hb as (m & Hm & Hb). injection Hb as <-.
    cbn [run_selector snd] in Hw'. apply bind_ok in Hw' as (sl & Ht & Hw'). injection Hw' as <-.
    apply (at_percentile_selects argsort f m _ Hs Hw Hn) in Ht as (q & risks & ps & i & Q & R & PS & (Hi & _ & HW & _) & HB). apply as_label_option in Hl. subst l. apply need_lookup in Hv.
    apply (G i); [congruence| |exact Hi]. eapply pick_percentile; eauto; [eapply as_num_number; eauto|apply resolve_working].
  - destruct (lookup "index" kw) as [v|] eqn:L; [|discriminate].
    assert (Hb' : ready (let* z := as_int v in Ok (SelColumn z)) = Chosen s) by (destruct v; try discriminate Hb; injection Hb as Hb; first [exact Hb|cbn; congruence]).
    apply ready_chosen in Hb'. apply bind_ok in Hb' as (z & Hz & Hb'). apply as_int_cut in Hz. injection Hb' as <-. cbn [run_selector snd] in Hw'.
    apply bind_ok in Hw' as (i & Hi & Hw'). injection Hw' as <-. destruct Hw as (Lc & _). rewrite Lc in Hi. unfold np_index in Hi.
    destruct ((z <? - Z.of_nat (size f)) || (Z.of_nat (size f) <=? z))%Z eqn:E; [discriminate|]. apply orb_false_iff in E as [E1 E2].
    apply Z.ltb_ge in E1. apply Z.leb_gt in E2. injection Hi as Hi. destruct (Z.ltb_spec z 0).
    + apply (G i); [congruence| |lia]. eapply pick_column; eauto; lia.
    + apply (G i); [congruence| |lia]. eapply pick_column; eauto; lia.
Qed.

Lemma builder_extra fm kw n v : ~ In n recognised -> builder fm ((n, v) :: kw) = builder fm kw.
Proof.
  intros H. assert (L : forall k, In k recognised -> lookup k ((n, v) :: kw) = lookup k kw).
  { intros k Hk. cbn [lookup]. destruct (String.eqb_spec k n); [subst; contradiction|reflexivity]. }
  unfold builder, need. rewrite !L by (cbn; tauto). reflexivity.
Qed.
Lemma build_extra_l name kw n v : ~ In n recognised -> build_selector name ((n, v) :: kw) = build_selector name kw.
Proof.
  intros H. destruct (alias_dec (lower name)) as [[fm Hf]|Hf].
  - rewrite !(build_family _ _ _ Hf). apply builder_extra. exact H.
  - rewrite !(build_unknown _ _ Hf). reflexivity.
Qed.
Lemma build_lower name kw : build_selector (lower name) kw = build_selector name kw.
Proof. unfold build_selector. rewrite lower_idem. reflexivity. Qed.

(** ** Optimisers *)
Lemma optimiser_ok_iff W s g : resolve_optimiser W (OptName s) = Ok g <-> exists c, lookup (lower s) optimiser_table = Some c /\ g = c W.
Proof.
  cbn [resolve_optimiser]. cbv zeta. set (key := lower s). clearbody key. unfold optimiser_table. cbn [lookup one_of existsb].
  destruct (String.eqb key "mean_variance"); cbn [orb]; [split; [intros H; injection H as <-; eauto|intros (c & H & ->); injection H as <-; reflexivity]|].
  destruct (String.eqb key "mv"); cbn [orb]; [split; [intros H; injection H as <-; eauto|intros (c & H & ->); injection H as <-; reflexivity]|].
  destruct (String.eqb key "mean-cvar"); cbn [orb]; [split; [intros H; injection H as <-; eauto|intros (c & H & ->); injection H as <-; reflexivity]|].
  destruct (String.eqb key "cvar"); cbn [orb]; [split; [intros H; injection H as <-; eauto|intros (c & H & ->); injection H as <-; reflexivity]|].
  destruct (String.eqb key "rrp"); cbn [orb]; [split; [intros H; injection H as <-; eauto|intros (c & H & ->); injection H as <-; reflexivity]|].
  destruct (String.eqb key "relaxed_risk_parity"); cbn [orb]; [split; [intros H; injection H as <-; eauto|intros (c & H & ->); injection H as <-; reflexivity]|].
  destruct (String.eqb key "robust"); cbn [orb]; [split; [intros H; injection H as <-; eauto|intros (c & H & ->); injection H as <-; reflexivity]|].
  split; [discriminate|intros (c & H & _); discriminate].
Qed.
Lemma optimiser_err W s : lookup (lower s) optimiser_table = None -> resolve_optimiser W (OptName s) = Err ValueError.
Proof.
  intros H. destruct (resolve_optimiser W (OptName s)) as [g|e] eqn:E.
  - apply optimiser_ok_iff in E as (c & E & _). congruence.
  - cbn [resolve_optimiser] in E. cbv zeta in E.
    repeat match type of E with (if ?b then _ else _) = _ => destruct b; [discriminate|] end. congruence.
Qed.
