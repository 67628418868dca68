(** Proofs about ensemble assembly. *)
From Verif Require Import RBase QpBase ConsModel EnsModel EnsSpec EnsProofs AsmModel.
Open Scope R_scope.
Open Scope list_scope.

Lemma assoc_dict_set {A} (d : list (string * A)) k v k' :
  assoc k' (dict_set d k v) = if String.eqb k' k then Some v else assoc k' d.
Proof.
  induction d as [|[j x] d IH]; simpl; [reflexivity|].
  destruct (String.eqb_spec k j) as [->|Hk]; simpl.
  - destruct (String.eqb_spec k' j); [reflexivity|]. reflexivity.
  - rewrite IH. destruct (String.eqb_spec k' j); [|reflexivity]. subst. destruct (String.eqb_spec j k); congruence.
Qed.

Lemma frontier_dict_other specs d k : ~ In k (map sp_name specs) ->
  assoc k (fold_left (fun d s => dict_set d (sp_name s) (sp_frontier s)) specs d) = assoc k d.
Proof.
  revert d. induction specs as [|s specs IH]; simpl; intros d H; [reflexivity|].
  rewrite IH by tauto. rewrite assoc_dict_set. destruct (String.eqb_spec k (sp_name s)); [subst; tauto|reflexivity].
Qed.

Lemma frontier_dict_distinct specs d s : NoDup (map sp_name specs) -> In s specs ->
  assoc (sp_name s) (fold_left (fun d s => dict_set d (sp_name s) (sp_frontier s)) specs d) = Some (sp_frontier s).
Proof.
  revert d. induction specs as [|s' specs IH]; simpl; intros d HN Hin; [destruct Hin|].
  inversion HN as [|? ? Hni HN']; subst. destruct Hin as [->|Hin]; [|auto].
  rewrite frontier_dict_other by exact Hni. rewrite assoc_dict_set, String.eqb_refl. reflexivity.
Qed.

Lemma frontier_list_distinct specs : NoDup (map sp_name specs) -> frontier_list specs = map sp_frontier specs.
Proof.
  intros H. unfold frontier_list. apply map_ext_in. intros s Hs. unfold frontier_dict.
  rewrite (frontier_dict_distinct specs [] s H Hs). reflexivity.
Qed.

(** Cleaning keeps, for every frontier, the chosen index or the least-risk one. *)
Lemma cleaned_spec fs sels r : List.length fs = List.length sels -> cleaned fs sels = Ok r ->
  List.length r = List.length fs /\
  forall i, (i < List.length fs)%nat ->
    exists k, nth i r None = Some [k] /\
      match nth i sels None with
      | Some s => s = [k]
      | None => exists a, k = Z.of_nat a /\ argmin (f_risks (nth i fs (mkF 0 [] [] None))) = Ok a
      end.
Proof.
  revert sels r. induction fs as [|f fs IH]; intros [|s sels] r HL H; simpl in *; try discriminate.
  - injection H as <-. split; [reflexivity|]. intros; lia.
  - apply bind_ok in H as (k & E & H). apply bind_ok in H as (r' & E' & H). injection H as <-.
    destruct (IH sels r' ltac:(lia) E') as [I1 I2]. split; [simpl; lia|].
    intros [|i] Hi; simpl; [|apply I2; lia]. exists k. split; [reflexivity|].
    destruct s as [[|z [|z' s]]|]; try discriminate.
    + injection E as ->. reflexivity.
    + apply bind_ok in E as (a & E & E2). injection E2 as <-. eauto.
Qed.

Lemma row_average_complete cells w : List.length w = List.length cells ->
  (forall c, In c cells -> c <> None) ->
  row_average cells w = Some (sumn (List.length cells) (fun j => match nth j cells None with Some x => x | None => 0 end * nth j w 0)).
Proof.
  revert w. induction cells as [|c cells IH]; intros [|x w] HL H; simpl in HL; try discriminate; [reflexivity|].
  destruct c as [c|]; [|exfalso; apply (H None (or_introl eq_refl)); reflexivity].
  cbn [row_average]. rewrite IH by (try lia; intros c' Hc'; apply H; now right). cbn [List.length]. rewrite sumn_shift. simpl. reflexivity.
Qed.
Lemma row_average_missing cells w : List.length w = List.length cells -> In None cells -> row_average cells w = None.
Proof.
  revert w. induction cells as [|c cells IH]; intros [|x w] HL H; simpl in HL; try discriminate; [destruct H|].
  destruct H as [->|H]; [reflexivity|]. destruct c as [c|]; [|reflexivity]. simpl. rewrite IH by (auto; lia). reflexivity.
Qed.

Lemma first_seen_in seen l k : In k (first_seen seen l) <-> In k l /\ ~ In k seen.
Proof.
  revert seen. induction l as [|x l IH]; intros seen; simpl; [tauto|].
  assert (E : existsb (String.eqb x) seen = true <-> In x seen).
  { rewrite existsb_exists. split; [intros (y & H & E); apply String.eqb_eq in E; subst; exact H|].
    intros H. exists x. split; [exact H|apply String.eqb_refl]. }
  destruct (existsb (String.eqb x) seen) eqn:Ex.
  - rewrite IH. assert (In x seen) by tauto. split; [tauto|]. intros [[->|H1] H2]; tauto.
  - assert (~ In x seen) by (intros H; apply E in H; discriminate). simpl. rewrite IH. simpl.
    destruct (string_dec x k) as [->|]; [tauto|]. tauto.
Qed.
Lemma first_seen_nodup seen l : NoDup (first_seen seen l).
Proof.
  revert seen. induction l as [|x l IH]; intros seen; simpl; [constructor|].
  destruct (existsb (String.eqb x) seen); [apply IH|]. constructor; [|apply IH].
  rewrite first_seen_in. simpl. tauto.
Qed.

Lemma table_rows_in specs k : In k (table_rows specs) <-> exists s, In s specs /\ In k (map fst (sp_selected s)).
Proof.
  unfold table_rows. rewrite first_seen_in, in_flat_map. simpl. split.
  - intros [(s & H1 & H2) _]. eauto.
  - intros (s & H1 & H2). split; [eauto|tauto].
Qed.

Lemma assoc_none {A} k (l : list (string * A)) : assoc k l = None <-> ~ In k (map fst l).
Proof.
  induction l as [|[k' v] l IH]; simpl; [tauto|]. destruct (String.eqb_spec k k') as [->|Hk].
  - split; [discriminate|]. intros H. exfalso. apply H. auto.
  - rewrite IH. split; [|tauto]. intros H [E|E]; [congruence|auto].
Qed.

Lemma run_ensembles_lookup avg stack names r :
  run_ensembles avg stack names = Ok r ->
  map fst r = names /\ forall n b, In (n, b) r -> (n = "average"%string /\ avg = Ok b) \/ (n = "stack"%string /\ stack = Ok b).
Proof.
  revert r. induction names as [|n names IH]; simpl; intros r H.
  - injection H as <-. split; [reflexivity|]. intros n b F; destruct F.
  - apply bind_ok in H as (b & E & H). apply bind_ok in H as (r' & E' & H). injection H as <-.
    destruct (IH r' E') as [I1 I2]. split; [simpl; congruence|]. intros n' b' [E2|Hin]; [|auto].
    injection E2 as <- <-. destruct (String.eqb_spec n "average"); [left; auto|].
    destruct (String.eqb_spec n "stack"); [right; auto|discriminate].
Qed.

Lemma folds_range sf total f : determine_stack_folds sf total = Ok f ->
  (1 <= f <= total)%Z /\ (forall s, sf = Some s -> (1 <= s <= total)%Z -> f = s) /\ (sf = None -> f = Z.min 3 total).
Proof.
  unfold determine_stack_folds. destruct (Z.leb_spec total 0); [discriminate|]. intros E. injection E as <-.
  split; [lia|]. split; [intros s -> Hs; lia|intros ->; lia].
Qed.
