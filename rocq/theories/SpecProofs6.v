(** Ensembles of sound specs. *)
From Coq Require Import String.
From Verif Require Import RBase QpBase SortLib RiskModel ConsModel ConsSpec MomModel MomSpec DistModel DistSpec ConvModel EpModel StModel OptModel OptSpec OptProofs EnsModel EnsSpec EnsProofs AsmModel AsmProofs FrModel FrSpec WrModel WrSpec SpecModel SpecSpec SpecProofs SpecProofs5.
Open Scope R_scope.
Open Scope list_scope.

Lemma nth_to_list n (v : vec) i : (i < n)%nat -> nth i (to_list n v) 0 = v i.
Proof. intros H. unfold to_list. apply RBase.nth_map_seq. exact H. Qed.
Lemma to_of_list n l : List.length l = n -> to_list n (of_list l) = l.
Proof.
  intros L. unfold to_list, of_list. apply (nth_ext _ _ 0 0); [rewrite map_length, seq_length; congruence|]. intros i Hi. rewrite map_length, seq_length in Hi. apply (RBase.nth_map_seq (fun i => nth i l 0)). exact Hi.
Qed.
Lemma comb_satisfies n cols ws v c : convex_weights (List.length cols) ws -> is_combination cols ws v ->
  (forall x, In x cols -> satisfies c n (to_list n x)) -> satisfies c n (to_list n v).
Proof.
  intros HW HC H. apply (satisfies_mix n (map (to_list n) cols) ws (to_list n v)).
  - split; [unfold to_list; rewrite map_length, seq_length; reflexivity|]. split.
    + intros l I. apply in_map_iff in I as (x & <- & _). unfold to_list. rewrite map_length, seq_length. reflexivity.
    + intros i Hi. rewrite map_length, nth_to_list by exact Hi. rewrite HC. apply sumn_ext. intros j Hj. f_equal.
      rewrite (nth_map_lt (to_list n) cols j (fun _ => 0) [] Hj). rewrite nth_to_list by exact Hi. reflexivity.
  - rewrite map_length. exact HW.
  - intros l I. apply in_map_iff in I as (x & <- & I). auto.
Qed.

Lemma supplied_nn w num names j : nonneg_weights w -> 0 <= supplied w num names j.
Proof.
  intros H. unfold supplied. destruct w as [|l|l].
  - lra.
  - cbn in H. destruct (nth_in_or_default j l NaN) as [I|E]; [|rewrite E; cbn; lra]. destruct (nth j l NaN) as [r| | |]; cbn; try lra. apply H. exact I.
  - cbn in H. destruct names as [ks|].
    + destruct (assoc _ l) as [x|] eqn:E; [|lra]. apply assoc_in in E. destruct x; cbn; try lra. eapply H; eauto.
    + destruct (nth_in_or_default j (map snd l) NaN) as [I|E]; [|rewrite E; cbn; lra]. destruct (nth j (map snd l) NaN) as [r| | |]; cbn; try lra.
      apply in_map_iff in I as ([k y] & E & I). cbn in E. subst y. eapply H; eauto.
Qed.

Lemma average_convex p w v nm : (match pn_samples p with Some ks => List.length ks = List.length (pn_cols p) | None => True end) -> nonneg_weights w ->
  average_exposures p w = Ok (v, nm) -> exists ws, convex_weights (List.length (pn_cols p)) ws /\ is_combination (pn_cols p) ws v.
Proof.
  intros Hs Hw H. destruct (average_ok p w v nm Hs H) as (_ & ws & E & _ & _ & C). exists ws. split; [|exact C].
  eapply supplied_nonneg_weights; [|exact E|intros; apply supplied_nn; exact Hw]. intros l ks _ Ek. rewrite Ek in Hs. exact Hs.
Qed.
Lemma stacking_convex solver p L v nm : (forall q x, solver q = Some x -> qp_feasible q x) -> exposure_stacking solver p L = Ok (v, nm) ->
  exists ws, convex_weights (List.length (pn_cols p)) ws /\ is_combination (pn_cols p) ws v.
Proof.
  intros HS H. unfold exposure_stacking in H. apply bind_ok in H as (p' & E & H).
  assert (p' = p) as -> by (unfold ensure_samples in E; destruct (Nat.eqb _ 0); [discriminate|congruence]).
  destruct (L <? 2)%Z; [discriminate|]. destruct (_ <? L)%Z; [discriminate|]. destruct (solver _) as [x|] eqn:Ex; [|discriminate].
  injection H as <- <-. apply HS in Ex. apply stack_feasible in Ex. exists (map x (seq 0 (List.length (pn_cols p)))). split; [exact Ex|].
  apply combine_cols_spec. rewrite map_length, seq_length. reflexivity.
Qed.

Lemma labelled_ne l : l <> [] -> EnsProofs.labelled (Some l) = Some l.
Proof. destruct l; [congruence|reflexivity]. Qed.

(** ** The selections *)
Section Ens.
Variables (c : constraints) (names : list string).
Hypothesis HN : NoDup names.
Let n := List.length names.

Definition sel_ok (s : AsmModel.spec) : Prop := labelled_allowed c names (sp_selected s).

Lemma combine_keys (w : list R) : List.length w = n -> map fst (combine names w) = names.
Proof. intros H. apply combine_fst. unfold n in H. lia. Qed.
Lemma combine_vals (w : list R) : List.length w = n -> map snd (combine names w) = w.
Proof. unfold n. clear. revert w. induction names as [|a l IH]; intros [|x w] H; cbn in *; try discriminate; [reflexivity|]. f_equal. apply IH. lia. Qed.
Lemma keys_ok s : sel_ok s -> map fst (sp_selected s) = names.
Proof. intros (w & L & -> & _). apply combine_keys. exact L. Qed.

Lemma first_seen_names seen l rest : NoDup l -> (forall k, In k l -> ~ In k seen) -> (forall k, In k rest -> In k l \/ In k seen) -> first_seen seen (l ++ rest) = l.
Proof.
  revert seen. induction l as [|k l IH]; intros seen ND Hl Hr; cbn [app].
  - assert (R : forall r s, (forall k, In k r -> In k s) -> first_seen s r = []).
    { induction r as [|x r IHr]; intros s Hx; cbn; [reflexivity|]. replace (existsb (String.eqb x) s) with true; [apply IHr; intros; apply Hx; right; assumption|].
      symmetry. apply existsb_exists. exists x. split; [apply Hx; left; reflexivity|apply String.eqb_refl]. }
    apply R. intros k I. destruct (Hr k I) as [[]|]; assumption.
  - cbn [first_seen]. destruct (existsb (String.eqb k) seen) eqn:E.
    + exfalso. apply existsb_exists in E as (y & I & E). apply String.eqb_eq in E. subst y. apply (Hl k); [left; reflexivity|exact I].
    + f_equal. apply NoDup_cons_iff in ND as [N1 N2]. apply IH; [exact N2| |].
      * intros k' I [->|I']; [contradiction|]. apply (Hl k'); [right; exact I|exact I'].
      * intros k' I. destruct (Hr k' I) as [[->|I']|I']; [right; left; reflexivity|left; exact I'|right; right; exact I'].
Qed.
Lemma rows_names specs : specs <> [] -> Forall sel_ok specs -> table_rows specs = names.
Proof.
  intros Hne Hs. destruct specs as [|s specs]; [congruence|]. apply Forall_cons_iff in Hs as [H1 H2]. unfold table_rows. cbn [flat_map]. rewrite (keys_ok s H1).
  apply first_seen_names; [exact HN|intros k _ []|]. intros k I. apply in_flat_map in I as (s' & I' & I). rewrite Forall_forall in H2. rewrite (keys_ok s' (H2 s' I')) in I. left. exact I.
Qed.
(** The weights of a selection, by position. *)
Definition wts_of (s : AsmModel.spec) : list R := map snd (sp_selected s).
Lemma cell_at (s : AsmModel.spec) i : sel_ok s -> (i < n)%nat -> table_cell s (nth i names EmptyString) = Some (nth i (wts_of s) 0).
Proof.
  intros (w & L & E & S) Hi. unfold table_cell, wts_of. rewrite E, (combine_vals w L). apply assoc_nodup; [rewrite (combine_keys w L); exact HN|].
  rewrite <- (combine_nth names w i EmptyString 0) by (unfold n in L; congruence). apply nth_In. rewrite combine_length. unfold n in *. lia.
Qed.
Lemma wts_ok s : sel_ok s -> List.length (wts_of s) = n /\ satisfies c n (wts_of s).
Proof. intros (w & L & E & S). unfold wts_of. rewrite E, (combine_vals w L). split; [exact L|exact S]. Qed.

Lemma mk_table (f : nat -> R) : map (fun i => (nth i names EmptyString, Some (f i))) (seq 0 n) = map (fun kv => (fst kv, Some (snd kv))) (combine names (map f (seq 0 n))).
Proof.
  apply (nth_ext _ _ (EmptyString, None) (EmptyString, None)).
  - rewrite !map_length, combine_length, map_length, seq_length. unfold n. lia.
  - intros i Hi. rewrite map_length, seq_length in Hi. rewrite (RBase.nth_map_seq _ n i _ Hi).
    rewrite (nth_map_lt _ (combine names (map f (seq 0 n))) i (EmptyString, 0) (EmptyString, None)) by (rewrite combine_length, map_length, seq_length; unfold n in *; lia).
    rewrite combine_nth by (rewrite map_length, seq_length; reflexivity). cbn [fst snd]. rewrite (RBase.nth_map_seq f n i 0 Hi). reflexivity.
Qed.

Lemma average_allowed specs w t : Forall sel_ok specs -> nonneg_weights w -> average_selected specs w = Ok t -> blend_allowed c names (BTable t).
Proof.
  intros Hs Hw H. unfold average_selected in H. apply bind_ok in H as (ws & Ew & H). injection H as <-.
  assert (HL : labels_fit w (List.length specs) (Some (map sp_name specs))) by (intros l ks _ E; injection E as <-; apply map_length).
  destruct (normalize_weights_ok _ _ _ _ HL Ew) as (Hpos & Lw & _).
  pose proof (supplied_nonneg_weights _ _ _ _ HL Ew (fun j _ => supplied_nn _ _ _ j Hw)) as CW.
  assert (Hne : specs <> []) by (intros ->; cbn in Hpos; lia). rewrite (rows_names specs Hne Hs).
  set (f := fun i => sumn (List.length specs) (fun j => nth j ws 0 * nth i (nth j (map wts_of specs) []) 0)).
  assert (E : map (fun k => (k, row_average (map (fun s => table_cell s k) specs) ws)) names = map (fun i => (nth i names EmptyString, Some (f i))) (seq 0 n)).
  { apply (nth_ext _ _ (EmptyString, None) (EmptyString, None)); [rewrite !map_length, seq_length; reflexivity|]. intros i Hi. rewrite map_length in Hi. fold n in Hi.
    rewrite (RBase.nth_map_seq _ n i _ Hi). rewrite (nth_map_lt _ names i EmptyString _ Hi). f_equal. rewrite row_average_complete.
    - f_equal. unfold f. rewrite map_length. apply sumn_ext. intros j Hj. set (dflt := mkSpec EmptyString (mkF 0 [] [] None) [] None).
      rewrite (nth_map_lt _ specs j dflt None Hj). rewrite (nth_map_lt wts_of specs j dflt [] Hj).
      assert (K : sel_ok (nth j specs dflt)) by (rewrite Forall_forall in Hs; apply Hs, nth_In, Hj). rewrite (cell_at _ i K Hi). ring.
    - rewrite map_length. exact Lw.
    - intros x I. apply in_map_iff in I as (s & <- & I). rewrite Forall_forall in Hs. rewrite (cell_at s i (Hs s I) Hi). discriminate. }
  rewrite E, mk_table. cbn [blend_allowed]. exists (combine names (map f (seq 0 n))). split; [|reflexivity].
  exists (map f (seq 0 n)). split; [rewrite map_length, seq_length; reflexivity|]. split; [reflexivity|].
  apply (satisfies_mix n (map wts_of specs) ws).
  - split; [rewrite map_length, seq_length; reflexivity|]. split.
    + intros l I. apply in_map_iff in I as (s & <- & I). rewrite Forall_forall in Hs. apply (wts_ok s (Hs s I)).
    + intros i Hi. rewrite (RBase.nth_map_seq f n i 0 Hi), map_length. reflexivity.
  - rewrite map_length. exact CW.
  - intros l I. apply in_map_iff in I as (s & <- & I). rewrite Forall_forall in Hs. apply (wts_ok s (Hs s I)).
Qed.
Lemma stack_allowed solver specs folds t : (forall q x, solver q = Some x -> qp_feasible q x) -> Forall sel_ok specs ->
  stack_selected solver specs folds = Ok t -> blend_allowed c names (BTable t).
Proof.
  intros HS Hs H. unfold stack_selected in H. destruct (_ || _)%bool; [discriminate|]. destruct (negb _); [discriminate|]. apply bind_ok in H as ([v nm] & Ev & H). injection H as <-.
  apply (stacking_convex _ _ _ _ _ HS) in Ev as (ws & CW & CC). cbn [pn_cols] in CW, CC.
  assert (Hne : specs <> []).
  { intros ->. destruct CW as (L & S & _). destruct ws; [cbn in S; lra|discriminate]. }
  pose proof (rows_names specs Hne Hs) as ER. rewrite ER. fold n. rewrite mk_table. exists (combine names (map v (seq 0 n))). split; [|reflexivity].
  exists (map v (seq 0 n)). split; [rewrite map_length, seq_length; reflexivity|]. split; [reflexivity|]. change (satisfies c n (to_list n v)).
  apply (comb_satisfies n (map (column_vec specs) specs) ws v); auto.
  intros x I. apply in_map_iff in I as (s & <- & I). rewrite Forall_forall in Hs. destruct (wts_ok s (Hs s I)) as [L S].
  replace (to_list n (column_vec specs s)) with (wts_of s); [exact S|]. apply (nth_ext _ _ 0 0); [unfold to_list; rewrite map_length, seq_length; exact L|].
  intros i Hi. rewrite L in Hi. rewrite nth_to_list by exact Hi. unfold column_vec. rewrite ER, (cell_at s i (Hs s I) Hi). reflexivity.
Qed.

(** ** Frontiers *)
Hypothesis Hne : names <> [].
Definition fr_ok (f : EnsModel.frontier) : Prop :=
  well_shaped (EFrontier f) /\ EnsModel.f_n f = n /\ EnsModel.f_assets f = Some names /\ forall x, In x (EnsModel.f_cols f) -> satisfies c n (to_list n x).
Lemma to_ens_ok f : frontier_allowed c (Some names) n f -> fr_ok (to_ens f).
Proof.
  intros ((W1 & W2 & _) & E1 & E2 & H). unfold fr_ok, to_ens; cbn. split; [rewrite map_length; congruence|]. split; [exact E1|]. split; [exact E2|].
  intros x I. apply in_map_iff in I as (l & <- & I). destruct (H l I) as [L S]. rewrite to_of_list by exact L. exact S.
Qed.
Lemma collect_allowed fs sels p : Forall fr_ok fs -> collect_samples (map EFrontier fs) sels = Ok p ->
  pn_n p = n /\ pn_assets p = Some names /\ forall x, In x (pn_cols p) -> satisfies c n (to_list n x).
Proof.
  intros Hf H. assert (WS : Forall well_shaped (map EFrontier fs)).
  { rewrite Forall_forall in *. intros e I. apply in_map_iff in I as (f & <- & I). apply (Hf f I). }
  destruct (collect_samples_ok _ _ _ WS H) as (ss & ps & _ & Ls & F2 & Ec & Hnn & D & A & _).
  assert (Hex : exists f, In f fs).
  { destruct fs as [|f fs]; [|exists f; left; reflexivity]. exfalso. cbn in H. discriminate. }
  destruct Hex as (f & I). rewrite Forall_forall in Hf. destruct (Hf f I) as (_ & E1 & E2 & _).
  split; [rewrite <- (D (EFrontier f)) by (apply in_map; exact I); exact E1|]. split.
  { apply (A (EFrontier f)); [apply in_map; exact I|]. cbn [entry_labels]. rewrite E2. apply labelled_ne. exact Hne. }
  rewrite Ec. intros x Ix. apply in_concat in Ix as (pc & Ip & Ix).
  assert (G : forall es qs, Forall2 (fun es c0 => contributes (fst es) (snd es) c0) es qs -> In pc qs -> exists e s, In (e, s) es /\ contributes e s pc).
  { clear. induction 1 as [|[e s] pc' es ps' Hh F2 IH]; [intros []|]. intros [->|I]; [exists e, s; split; [left; reflexivity|exact Hh]|].
    destruct (IH I) as (e' & s' & I' & H'). exists e', s'. split; [right; exact I'|exact H']. }
  destruct (G _ _ F2 Ip) as (e & s & Ie & Hc). apply in_combine_l in Ie. apply in_map_iff in Ie as (g & <- & Ig). destruct (Hf g Ig) as (_ & _ & _ & HS).
  cbn in Hc. destruct Hc as (k & Hk & -> & _). destruct Ix as [<-|[]]. apply HS. apply nth_In. exact Hk.
Qed.
Lemma average_fr_allowed fs sels w v labs : Forall fr_ok fs -> nonneg_weights w -> average_frontiers (map EFrontier fs) sels w = Ok (v, labs) -> blend_allowed c names (BVec v labs).
Proof.
  intros Hf Hw H. unfold average_frontiers in H. apply bind_ok in H as (p & Ep & H). apply bind_ok in H as ([v' nm] & Ev & H). injection H as <- <-.
  destruct (collect_allowed fs sels p Hf Ep) as (En & Ea & Hc). split; [exact Ea|].
  destruct (average_convex (mkPanel (pn_n p) (pn_cols p) None None) w v' nm I Hw Ev) as (ws & CW & CC). eapply comb_satisfies; eauto.
Qed.
Lemma stack_fr_allowed solver fs L sels v labs : (forall q x, solver q = Some x -> qp_feasible q x) -> Forall fr_ok fs ->
  exposure_stack_frontiers solver (map EFrontier fs) L sels = Ok (v, labs) -> blend_allowed c names (BVec v labs).
Proof.
  intros HS Hf H. unfold exposure_stack_frontiers in H. apply bind_ok in H as (p & Ep & H). apply bind_ok in H as ([v' nm] & Ev & H). injection H as <- <-.
  destruct (collect_allowed fs sels p Hf Ep) as (En & Ea & Hc). split; [exact Ea|].
  destruct (stacking_convex _ _ _ _ _ HS Ev) as (ws & CW & CC). eapply comb_satisfies; eauto.
Qed.

(** The frontier looked up under a spec's name is one of the frontiers. *)
Lemma dict_set_in {A} (d : list (string * A)) k v k' v' : In (k', v') (dict_set d k v) -> v' = v \/ In (k', v') d.
Proof.
  induction d as [|[a b] d IH]; cbn; [intros [E|[]]; left; congruence|]. destruct (String.eqb k a); cbn; intros [E|I]; auto; [left; congruence|].
  destruct (IH I); auto.
Qed.
Lemma frontier_dict_in specs k f : In (k, f) (frontier_dict specs) -> exists s, In s specs /\ f = sp_frontier s.
Proof.
  unfold frontier_dict. assert (G : forall d, In (k, f) (fold_left (fun d s => dict_set d (sp_name s) (sp_frontier s)) specs d) -> In (k, f) d \/ exists s, In s specs /\ f = sp_frontier s).
  { induction specs as [|s specs IH]; intros d; cbn; [auto|]. intros H. destruct (IH _ H) as [H'|(s' & I & E)]; [|right; exists s'; auto].
    apply dict_set_in in H' as [->|I]; [right; exists s; auto|left; exact I]. }
  intros H. destruct (G [] H) as [[]|H']; exact H'.
Qed.
Lemma frontier_list_in specs f : In f (frontier_list specs) -> exists s, In s specs /\ f = sp_frontier s.
Proof.
  unfold frontier_list. intros H. apply in_map_iff in H as (s & E & I). destruct (assoc _ _) as [g|] eqn:Ea; [|exists s; auto].
  subst g. apply assoc_in in Ea. eapply frontier_dict_in; eauto.
Qed.
Lemma assemble_allowed solver specs nms md folds w r : (forall q x, solver q = Some x -> qp_feasible q x) -> nonneg_weights w ->
  Forall sel_ok specs -> Forall (fun s => fr_ok (sp_frontier s)) specs -> assemble solver specs nms md folds w = Ok r ->
  forall k b, In (k, b) r -> blend_allowed c names b.
Proof.
  intros HS Hw H1 H2 H k b I. unfold assemble in H. destruct (Nat.eqb _ 0); [discriminate|]. destruct md; [| |discriminate].
  - destruct (Nat.eqb _ 0); [injection H as <-; destruct I|]. apply bind_ok in H as (fo & _ & H). apply run_ensembles_lookup in H as [_ H]. destruct (H k b I) as [[_ E]|[_ E]].
    + apply bind_ok in E as (t & Et & E). injection E as <-. eapply average_allowed; eauto.
    + apply bind_ok in E as (t & Et & E). injection E as <-. eapply stack_allowed; eauto.
  - destruct (Nat.eqb _ 0); [injection H as <-; destruct I|]. assert (FF : Forall fr_ok (frontier_list specs)).
    { rewrite Forall_forall in *. intros f If. apply frontier_list_in in If as (s & Is & ->). auto. }
    apply bind_ok in H as (sels & _ & H). apply bind_ok in H as (fo & _ & H). apply run_ensembles_lookup in H as [_ H]. destruct (H k b I) as [[_ E]|[_ E]].
    + apply bind_ok in E as ([v l] & Et & E). injection E as <-. eapply average_fr_allowed; eauto.
    + apply bind_ok in E as ([v l] & Et & E). injection E as <-. eapply stack_fr_allowed; eauto.
Qed.
End Ens.

Lemma to_dict_in {A} (l : list (string * A)) k v : In (k, v) (to_dict l) -> exists k', In (k', v) l.
Proof.
  unfold to_dict. assert (G : forall d, In (k, v) (fold_left (fun d kv => dict_set d (fst kv) (snd kv)) l d) -> In (k, v) d \/ exists k', In (k', v) l).
  { induction l as [|[a b] l IH]; intros d; cbn; [auto|]. intros H. destruct (IH _ H) as [H'|(k' & I)]; [|right; exists k'; auto].
    apply dict_set_in in H' as [->|I]; [right; exists a; auto|left; exact I]. }
  intros H. destruct (G [] H) as [[]|H']; exact H'.
Qed.

Lemma ensemble_allowed c names solver rng specs a comb folds w r : NoDup names -> names <> [] -> (forall q x, solver q = Some x -> qp_feasible q x) -> nonneg_weights w ->
  Forall (sound_spec c names) specs -> assemble_portfolio_ensemble solver rng specs a comb folds w = Ok r ->
  (forall k f, In (k, f) (er_frontiers r) -> frontier_allowed c (Some names) (List.length names) f) /\
  (forall k l, In (k, l) (er_selections r) -> labelled_allowed c names l) /\
  (forall k b, In (k, b) (er_ensembles r) -> blend_allowed c names b).
Proof.
  intros ND NE HS Hw Hs H. unfold assemble_portfolio_ensemble in H. destruct (Nat.eqb _ 0); [discriminate|]. apply bind_ok in H as (rs & Er & H). apply bind_ok in H as (es & Ee & H). injection H as <-.
  assert (G : forall x, In x rs -> frontier_allowed c (Some names) (List.length names) (fst x) /\ sp_frontier (snd x) = to_ens (fst x) /\ labelled_allowed c names (sp_selected (snd x))).
  { apply mapM_ok_forall2 in Er. intros x I. assert (EX : exists s, In s specs /\ run_spec rng s = Ok x).
    { clear - Er I. induction Er as [|s y ss ys H F IH]; [destruct I|]. destruct I as [->|I]; [exists s; split; [left; reflexivity|exact H]|]. destruct (IH I) as (s' & I' & E). exists s'. split; [right; exact I'|exact E]. }
    destruct EX as (s & Is & Ex). rewrite Forall_forall in Hs. destruct (Hs s Is) as [S1 S2]. unfold run_spec in Ex. apply bind_ok in Ex as (f & Ef & Ex). apply bind_ok in Ex as (o & Eo & Ex). apply bind_ok in Ex as (l & El & Ex).
    injection Ex as <-. cbn. split; [apply S1; exact Ef|]. split; [reflexivity|]. destruct (S2 f o Ef Eo) as (l' & -> & Hl). cbn in El. injection El as <-. exact Hl. }
  cbn [er_frontiers er_selections er_ensembles]. split; [|split].
  - intros k f I. apply to_dict_in in I as (k' & I). apply in_map_iff in I as (x & E & I). injection E as _ <-. apply (G x I).
  - intros k l I. apply in_map_iff in I as (x & E & I). injection E as _ <-. apply (G x I).
  - intros k b I. apply to_dict_in in I as (k' & I). eapply (assemble_allowed c names ND NE solver (map snd rs)); [exact HS|exact Hw| | |exact Ee|exact I].
    + apply Forall_forall. intros s Is. apply in_map_iff in Is as (x & <- & Ix). apply (G x Ix).
    + apply Forall_forall. intros s Is. apply in_map_iff in Is as (x & <- & Ix). destruct (G x Ix) as (F & -> & _). apply to_ens_ok. exact F.
Qed.
