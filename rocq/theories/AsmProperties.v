(** C50-C51: assembling ensembles from specifications. *)
From Verif Require Import RBase QpBase ConsModel EnsModel EnsSpec EnsProofs AsmModel AsmProofs.
Open Scope R_scope.
Open Scope list_scope.

(** C50: with distinct names, blending over frontiers combines each specification's own frontier with
    its own chosen column (least risk by default). *)
Theorem ensemble_uses_each_specs_frontier :
  forall solver specs names sf w r,
    NoDup (map sp_name specs) -> names <> [] ->
    assemble solver specs names FrontierMode sf w = Ok r ->
    exists sels folds,
      List.length sels = List.length specs /\ (1 <= folds <= Z.of_nat (List.length specs))%Z /\
      (forall i, (i < List.length specs)%nat ->
         let s := nth i specs (mkSpec EmptyString (mkF 0 [] [] None) [] None) in
         exists k, nth i sels None = Some [k] /\
           match sp_selection s with
           | Some l => l = [k]
           | None => exists a, k = Z.of_nat a /\ min_risk_index (sp_frontier s) a
           end) /\
      map fst r = names /\
      (forall b, In ("average"%string, b) r -> exists v l, b = BVec v l /\
         average_frontiers (map (fun s => EFrontier (sp_frontier s)) specs) (Some sels) w = Ok (v, l)) /\
      (forall b, In ("stack"%string, b) r -> exists v l, b = BVec v l /\
         exposure_stack_frontiers solver (map (fun s => EFrontier (sp_frontier s)) specs) folds (Some sels) = Ok (v, l)).
Proof.
  intros solver specs names sf w r HN Hne H. unfold assemble in H.
  destruct (Nat.eqb (List.length specs) 0); [discriminate|].
  destruct (Nat.eqb_spec (List.length names) 0) as [E|_]; [destruct names; [congruence|discriminate]|].
  apply bind_ok in H as (sels & E1 & H). apply bind_ok in H as (folds & E2 & H).
  rewrite (frontier_list_distinct specs HN) in *. apply cleaned_spec in E1 as [C1 C2]; [|rewrite !map_length; reflexivity].
  rewrite map_length in C1. rewrite map_length in C2.
  apply folds_range in E2 as (F1 & _). apply run_ensembles_lookup in H as [R1 R2].
  exists sels, folds. split; [exact C1|]. split; [rewrite <- C1; exact F1|]. split; [|split; [exact R1|]].
  - intros i Hi s. destruct (C2 i Hi) as (k & K1 & K2). exists k. split; [exact K1|].
    rewrite (nth_map_lt sp_selection specs i (mkSpec EmptyString (mkF 0 [] [] None) [] None) None) in K2 by exact Hi. fold s in K2.
    destruct (sp_selection s); [exact K2|]. destruct K2 as (a & -> & A). exists a. split; [reflexivity|].
    rewrite (nth_map_lt sp_frontier specs i (mkSpec EmptyString (mkF 0 [] [] None) [] None)) in A by exact Hi. fold s in A.
    apply argmin_spec. exact A.
  - rewrite map_map in R2. split; intros b Hb; destruct (R2 _ _ Hb) as [[E A]|[E A]]; try discriminate.
    + apply bind_ok in A as ([v l] & A1 & A2). injection A2 as <-. eauto.
    + apply bind_ok in A as ([v l] & A1 & A2). injection A2 as <-. eauto.
Qed.
Print Assumptions ensemble_uses_each_specs_frontier.

(** C50, finding: with two specifications of the same name the first frontier is silently replaced by
    the last one, so it does not take part in the blend. *)
Theorem ensemble_keeps_frontiers_of_equal_names_refuted :
  ~ (forall solver specs w r, assemble solver specs ["average"%string] FrontierMode None w = Ok r ->
       forall v l, In ("average"%string, BVec v l) r ->
       average_frontiers (map (fun s => EFrontier (sp_frontier s)) specs) None w = Ok (v, l)).
Proof.
  intros H.
  pose (s1 := mkSpec "x" (mkF 1 [fun _ => 1] [1] None) [] None).
  pose (s2 := mkSpec "x" (mkF 1 [fun _ => 3] [1] None) [] None).
  assert (E : exists v, assemble (fun _ => None) [s1; s2] ["average"%string] FrontierMode None WNone = Ok [("average"%string, BVec v None)] /\ v 0%nat = 3).
  { unfold assemble, average_frontiers. simpl. eexists. split; [reflexivity|]. unfold combine_cols. simpl. field. }
  destruct E as (v & E & Ev). specialize (H _ _ _ _ E v None (or_introl eq_refl)).
  unfold average_frontiers in H. simpl in H. injection H as H. rewrite <- H in Ev. unfold combine_cols in Ev. simpl in Ev. lra.
Qed.
Print Assumptions ensemble_keeps_frontiers_of_equal_names_refuted.

(** C50: over selected portfolios, the average at an asset label is the weighted mean of the
    specifications' weights at that label, whatever order each lists its assets in; a label missing
    somewhere gives NaN for that asset.  Every label appears exactly once. *)
Theorem selected_average_follows_labels :
  forall specs w t,
    average_selected specs w = Ok t ->
    exists ws, normalize_weights w (List.length specs) (Some (map sp_name specs)) = Ok ws /\ rsum ws = 1 /\
      NoDup (map fst t) /\
      (forall k, In k (map fst t) <-> exists s, In s specs /\ In k (map fst (sp_selected s))) /\
      (forall k x, In (k, Some x) t ->
         (forall s, In s specs -> In k (map fst (sp_selected s))) /\
         x = sumn (List.length specs) (fun j => match assoc k (sp_selected (nth j specs (mkSpec EmptyString (mkF 0 [] [] None) [] None))) with Some y => y | None => 0 end * nth j ws 0)) /\
      (forall k, In (k, None) t -> exists s, In s specs /\ ~ In k (map fst (sp_selected s))).
Proof.
  intros specs w t H. unfold average_selected in H. apply bind_ok in H as (ws & E & H). injection H as <-.
  exists ws. split; [exact E|].
  apply normalize_weights_ok in E as (_ & HL & H1 & _); [|intros l ks _ Ek; injection Ek as <-; apply map_length].
  split; [exact H1|]. rewrite map_map. simpl. rewrite map_id. split; [apply first_seen_nodup|]. split; [apply table_rows_in|].
  assert (HC : forall k, (exists s, In s specs /\ ~ In k (map fst (sp_selected s))) \/ (forall s, In s specs -> In k (map fst (sp_selected s)))).
  { intros k. clear. induction specs as [|s specs IH]; [right; intros s F; destruct F|].
    destruct (in_dec string_dec k (map fst (sp_selected s))) as [Hi|Hi]; [|left; exists s; split; [now left|auto]].
    destruct IH as [(s' & H1 & H2)|IH]; [left; exists s'; split; [now right|auto]|].
    right. intros s' [<-|Hs]; auto. }
  split.
  - intros k x Hin. apply in_map_iff in Hin as (k' & Ek & Hk). injection Ek as -> Ex. destruct (HC k) as [(s & Hs & Hm)|HA].
    + rewrite row_average_missing in Ex; [discriminate|rewrite map_length; exact HL|]. apply in_map_iff. exists s. split; [|exact Hs].
      apply assoc_none. exact Hm.
    + split; [exact HA|]. rewrite row_average_complete in Ex; [|rewrite map_length; exact HL|].
      * injection Ex as <-. rewrite map_length. apply sumn_ext. intros j Hj.
        rewrite (nth_map_lt (fun s => table_cell s k) specs j (mkSpec EmptyString (mkF 0 [] [] None) [] None) None) by exact Hj. reflexivity.
      * intros c Hc. apply in_map_iff in Hc as (s & <- & Hs). unfold table_cell. intros F. apply assoc_none in F. exact (F (HA s Hs)).
  - intros k Hin. apply in_map_iff in Hin as (k' & Ek & Hk). injection Ek as -> Ex. destruct (HC k) as [HM|HA]; [exact HM|].
    rewrite row_average_complete in Ex; [discriminate|rewrite map_length; exact HL|].
    intros c Hc. apply in_map_iff in Hc as (s & <- & Hs). unfold table_cell. intros F. apply assoc_none in F. exact (F (HA s Hs)).
Qed.
Print Assumptions selected_average_follows_labels.

(** C50, finding: unlike blending over frontiers, specifications over different assets are not
    rejected: the average silently holds NaN. *)
Theorem selected_rejects_other_assets_refuted :
  ~ (forall specs w t, average_selected specs w = Ok t -> forall k x, In (k, x) t -> x <> None).
Proof.
  intros H.
  pose (f := mkF 1 [fun _ => 1] [1] None).
  assert (E : average_selected [mkSpec "x" f [("a"%string, 1)] None; mkSpec "y" f [("b"%string, 1)] None] WNone = Ok [("a"%string, None); ("b"%string, None)])
    by reflexivity.
  exact (H _ _ _ E "a"%string None (or_introl eq_refl) eq_refl).
Qed.
Print Assumptions selected_rejects_other_assets_refuted.

(** C51: the number of folds handed to stacking is within the number of portfolios, is the requested one
    when that is possible and min(3, number) by default; with two or more specifications the default is
    always a legal fold count. *)
Theorem default_folds_legal :
  forall sf total f, determine_stack_folds sf total = Ok f ->
    (1 <= f <= total)%Z /\ (forall s, sf = Some s -> (1 <= s <= total)%Z -> f = s) /\
    (sf = None -> f = Z.min 3 total /\ ((2 <= total)%Z -> (2 <= f)%Z)).
Proof.
  intros sf total f H. destruct (folds_range sf total f H) as (H1 & H2 & H3). split; [exact H1|]. split; [exact H2|].
  intros E. specialize (H3 E). split; [exact H3|lia].
Qed.
Print Assumptions default_folds_legal.

(** C51, finding: the default call with a single specification always raises. *)
Theorem default_ensemble_single_spec_raises :
  forall solver s sf w, assemble solver [s] ["stack"%string] Selected sf w = Err ValueError.
Proof.
  intros. unfold assemble. simpl. unfold determine_stack_folds. simpl.
  match goal with |- context [stack_selected _ _ ?f] => replace f with 1%Z by (destruct sf; lia) end. reflexivity.
Qed.
Print Assumptions default_ensemble_single_spec_raises.

Theorem default_ensemble_succeeds_refuted :
  ~ (forall solver specs w, specs <> [] -> NoDup (map sp_name specs) ->
       (forall q, exists x, solver q = Some x) -> exists r, assemble solver specs ["stack"%string] Selected None w = Ok r).
Proof.
  intros H.
  destruct (H (fun _ => Some (fun _ => 0)) [mkSpec "x" (mkF 1 [fun _ => 1] [1] None) [("a"%string, 1)] None] WNone) as [r Hr].
  - discriminate.
  - repeat constructor. simpl. tauto.
  - eauto.
  - rewrite default_ensemble_single_spec_raises in Hr. discriminate.
Qed.
Print Assumptions default_ensemble_succeeds_refuted.

(** With two or more specifications over the same assets and a working solver, the default call
    succeeds. *)
Theorem default_ensemble_two_specs_succeeds :
  forall solver specs w, (2 <= List.length specs)%nat -> complete specs = true ->
    (forall q, exists x, solver q = Some x) ->
    exists r, assemble solver specs ["stack"%string] Selected None w = Ok r.
Proof.
  intros solver specs w HL HC Hs. unfold assemble. destruct (Nat.eqb_spec (List.length specs) 0); [lia|]. simpl.
  unfold determine_stack_folds. destruct (Z.leb_spec (Z.of_nat (List.length specs)) 0); [lia|]. simpl bind. cbv beta.
  set (f := Z.max 1 (Z.min (Z.min 3 (Z.of_nat (List.length specs))) (Z.of_nat (List.length specs)))).
  unfold stack_selected. destruct (Z.ltb_spec f 2); [lia|]. destruct (Z.ltb_spec (Z.of_nat (List.length specs)) f); [lia|]. simpl orb.
  rewrite HC. simpl negb. unfold exposure_stacking, ensure_samples. cbn [pn_cols pn_n pn_assets]. rewrite map_length.
  destruct (Nat.eqb_spec (List.length specs) 0); [lia|]. simpl bind. destruct (Z.ltb_spec f 2); [lia|]. rewrite map_length.
  destruct (Z.ltb_spec (Z.of_nat (List.length specs)) f); [lia|]. match goal with |- context [solver ?q] => destruct (Hs q) as [x ->] end.
  simpl. eauto.
Qed.
Print Assumptions default_ensemble_two_specs_succeeds.

Definition demo_specs : list spec :=
  [mkSpec "mv" (mkF 2 [fun _ => 1/2; fun i => if Nat.eqb i 0 then 1 else 0] [2; 1] (Some ["a"; "b"]%string)) [("a", 1/2); ("b", 1/2)]%string None;
   mkSpec "cvar" (mkF 2 [fun _ => 1/2; fun i => if Nat.eqb i 0 then 0 else 1] [2; 3] (Some ["a"; "b"]%string)) [("b", 1); ("a", 0)]%string (Some [1%Z])].
Example demo_assembles :
  NoDup (map sp_name demo_specs) /\ complete demo_specs = true /\
  exists v, assemble (fun _ => None) demo_specs ["average"%string] FrontierMode None WNone = Ok [("average"%string, BVec v (Some ["a"; "b"]%string))]
    /\ v 0%nat = 1 / 2.
Proof.
  split; [|split].
  - simpl. constructor; [simpl; intros [E|F]; [discriminate|destruct F]|]. constructor; [simpl; tauto|constructor].
  - reflexivity.
  - unfold assemble, average_frontiers. simpl. unfold Rltb. destruct (Rlt_dec 1 2); [|lra]. simpl.
    eexists. split; [reflexivity|]. unfold combine_cols. simpl. field.
Qed.
