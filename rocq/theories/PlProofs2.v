(** Grids, weight bars, parameter plots and reports. *)
From Coq Require Import List ZArith String Lia Lra Permutation.
Import ListNotations.
From Verif Require Import Err RBase SortLib FrModel FrSpec FrProofs FrProofs2 PlModel PlSpec PlProofs.
Open Scope R_scope.
Open Scope list_scope.

Lemma overlay_lines_ok name f os : overlay_lines_of name f os (overlay_lines name f os).
Proof.
  induction os as [|o os IH]; [constructor|]. unfold overlay_lines in *. cbn [flat_map]. destruct (risk_vector f (Some o)) as [r|e] eqn:E.
  - apply risk_vector_ok in E. cbn [app]. constructor; auto.
  - apply risk_vector_err in E as [_ E]. cbn [app]. apply ov_unknown; auto.
Qed.

(** ** Ordered dictionaries *)
Definition seenb (k : string) (l : list string) : bool := existsb (String.eqb k) l.
Lemma seenb_in k l : seenb k l = true <-> In k l.
Proof.
  unfold seenb. rewrite existsb_exists. split; [intros (x & H & E); apply seqb_spec in E; subst; exact H|].
  intros H. exists k. split; [exact H|apply seqb_spec; reflexivity].
Qed.
Lemma seenb_false k l : seenb k l = false <-> ~ In k l.
Proof. rewrite <- seenb_in. destruct (seenb k l); split; intros; congruence. Qed.

Lemma distinct_from_snoc seen l k : distinct_from seen (l ++ [k]) =
  distinct_from seen l ++ (if seenb k seen || seenb k l then [] else [k]).
Proof.
  revert seen. induction l as [|x l IH]; intros seen; cbn [app distinct_from].
  - fold (seenb k seen). destruct (seenb k seen); cbn [orb app]; [reflexivity|]. cbn. reflexivity.
  - fold (seenb x seen). destruct (seenb x seen) eqn:E; rewrite IH.
    + f_equal. change (seenb k (x :: l)) with (String.eqb k x || seenb k l). destruct (String.eqb_spec k x) as [-> | N]; [rewrite E; reflexivity|].
      reflexivity.
    + cbn [app]. f_equal. f_equal. change (seenb k (x :: seen)) with (String.eqb k x || seenb k seen). change (seenb k (x :: l)) with (String.eqb k x || seenb k l).
      destruct (String.eqb k x), (seenb k seen), (seenb k l); reflexivity.
Qed.
Lemma distinct_snoc l k : distinct (l ++ [k]) = distinct l ++ (if seenb k l then [] else [k]).
Proof. unfold distinct. rewrite distinct_from_snoc. reflexivity. Qed.
Lemma distinct_from_in seen l k : In k (distinct_from seen l) <-> In k l /\ ~ In k seen.
Proof.
  revert seen. induction l as [|x l IH]; intros seen; cbn [distinct_from]; [simpl; tauto|].
  fold (seenb x seen). destruct (seenb x seen) eqn:E.
  - rewrite IH. apply seenb_in in E. simpl. split; [tauto|]. intros [[-> | H] N]; [contradiction|auto].
  - apply seenb_false in E. simpl. rewrite IH. simpl. split.
    + intros [<-|[H N]]; [auto|]. tauto.
    + intros [[-> | H] N]; [auto|]. destruct (string_dec x k) as [-> | D]; [auto|]. right. split; [exact H|]. intros [Q|Q]; contradiction.
Qed.
Lemma distinct_in l k : In k (distinct l) <-> In k l.
Proof. unfold distinct. rewrite distinct_from_in. simpl. tauto. Qed.
Lemma distinct_NoDup l : NoDup (distinct l).
Proof.
  unfold distinct. generalize (@nil string). induction l as [|x l IH]; intros seen; cbn [distinct_from]; [constructor|].
  destruct (existsb (String.eqb x) seen); [apply IH|]. constructor; [|apply IH]. intros H. apply distinct_from_in in H as [_ H]. apply H. left. reflexivity.
Qed.
Lemma distinct_id l : NoDup l -> distinct l = l.
Proof.
  intros N. unfold distinct. assert (H : forall seen, (forall k, In k l -> ~ In k seen) -> distinct_from seen l = l); [|apply H; intros k _ []].
  induction N as [|x l Hx N IH]; intros seen H; cbn [distinct_from]; [reflexivity|].
  fold (seenb x seen). rewrite (proj2 (seenb_false x seen) (H x (or_introl eq_refl))). f_equal. apply IH. intros k Hk [<-|Hs]; [contradiction|].
  apply (H k (or_intror Hk)). exact Hs.
Qed.

Lemma oset_map {A} (F : string -> A) ks k v : NoDup ks ->
  oset (map (fun q => (q, F q)) ks) k v = map (fun q => (q, if String.eqb q k then v else F q)) (ks ++ (if seenb k ks then [] else [k])).
Proof.
  induction 1 as [|x ks Hx N IH]; cbn [map oset app].
  - cbn. rewrite String.eqb_refl. reflexivity.
  - change (seenb k (x :: ks)) with (String.eqb k x || seenb k ks). rewrite (String.eqb_sym k x). destruct (String.eqb_spec x k) as [-> | D].
    + cbn [orb]. rewrite app_nil_r. cbn [map]. f_equal. apply map_ext_in. intros q Hq.
      destruct (String.eqb_spec q k) as [-> | ]; [contradiction|reflexivity].
    + cbn [orb app map]. destruct (String.eqb_spec x k); [congruence|]. f_equal. exact IH.
Qed.
Lemma lookup_map {A} (F : string -> A) ks k : lookup k (map (fun q => (q, F q)) ks) = if seenb k ks then Some (F k) else None.
Proof.
  induction ks as [|x ks IH]; cbn [map lookup]; [reflexivity|]. change (seenb k (x :: ks)) with (String.eqb k x || seenb k ks).
  destruct (String.eqb_spec k x) as [-> | D]; [reflexivity|exact IH].
Qed.

(** The bucket of a group: names in order of first appearance, each with the last frontier of that name. *)
Lemma panel_name_or lp : or_str (fst lp) (f_measure (pf_f (snd lp))) = panel_name lp.
Proof. reflexivity. Qed.
Lemma group_key_of by_ lp : group_key by_ lp = group_of by_ lp.
Proof. unfold group_key, group_of, or_str. destruct by_; reflexivity. Qed.

Definition bucket (l : list (option string * pfrontier)) : list (string * pfrontier) :=
  fold_left (fun b lp => oset b (panel_name lp) (snd lp)) l [].
Definition latest (l : list (option string * pfrontier)) (n : string) : pfrontier :=
  match find (fun lp => String.eqb (panel_name lp) n) (rev l) with Some lp => snd lp | None => mkPF (mkFr 0 [] [] [] "" None []) None end.
Lemma bucket_is l : bucket l = map (fun n => (n, latest l n)) (distinct (map panel_name l)).
Proof.
  induction l as [|lp l IH] using rev_ind; [reflexivity|]. unfold bucket in *. rewrite fold_left_app. cbn [fold_left]. rewrite IH.
  rewrite (oset_map (latest l)) by apply distinct_NoDup. rewrite (map_app panel_name l). cbn [map]. rewrite distinct_snoc.
  replace (seenb (panel_name lp) (distinct (map panel_name l))) with (seenb (panel_name lp) (map panel_name l)).
  - apply map_ext. intros n. unfold latest. rewrite rev_app_distr. cbn [rev app find]. rewrite (String.eqb_sym n). destruct (String.eqb (panel_name lp) n); reflexivity.
  - destruct (seenb (panel_name lp) (map panel_name l)) eqn:E; symmetry.
    + apply seenb_in in E. apply seenb_in, distinct_in, E.
    + apply seenb_false in E. apply seenb_false. rewrite distinct_in. exact E.
Qed.
Lemma latest_survives l n : In n (map panel_name l) -> survives l n (latest l n).
Proof.
  induction l as [|lp l IH] using rev_ind; [intros []|]. intros H. unfold latest. rewrite rev_app_distr. cbn [rev app find].
  destruct (String.eqb_spec (panel_name lp) n) as [<- | D].
  - exists l, lp, []. repeat split. intros q [].
  - rewrite map_app in H. apply in_app_or in H as [H|[H|[]]]; [|contradiction]. destruct (IH H) as (pre & q & post & E & E1 & E2 & E3).
    exists pre, q, (post ++ [lp]). split; [rewrite E, <- app_assoc; reflexivity|]. split; [exact E1|]. split; [exact E2|].
    intros x Hx. apply in_app_or in Hx as [Hx|[<-|[]]]; auto.
Qed.

Lemma groups_is by_ l : groups by_ l = map (fun g => (g, bucket (members by_ g l))) (distinct (map (group_of by_) l)).
Proof.
  induction l as [|lp l IH] using rev_ind; [reflexivity|]. unfold groups in *. rewrite fold_left_app. cbn [fold_left]. rewrite IH.
  unfold add_to_groups. rewrite lookup_map, panel_name_or, group_key_of. rewrite (oset_map (fun g => bucket (members by_ g l))) by apply distinct_NoDup.
  rewrite (map_app (group_of by_) l). cbn [map]. rewrite distinct_snoc.
  assert (SD : seenb (group_of by_ lp) (distinct (map (group_of by_) l)) = seenb (group_of by_ lp) (map (group_of by_) l)).
  { destruct (seenb (group_of by_ lp) (map (group_of by_) l)) eqn:E.
    + apply seenb_in in E. apply seenb_in, distinct_in, E.
    + apply seenb_false in E. apply seenb_false. rewrite distinct_in. exact E. }
  rewrite SD. apply map_ext_in. intros g Hg. f_equal. unfold members. rewrite filter_app. cbn [filter].
  rewrite (String.eqb_sym g). destruct (String.eqb_spec (group_of by_ lp) g) as [<- | D]; [|rewrite app_nil_r; reflexivity].
  unfold bucket. rewrite fold_left_app. cbn [fold_left]. destruct (seenb (group_of by_ lp) (map (group_of by_) l)) eqn:E; [reflexivity|].
  replace (filter (fun q => String.eqb (group_of by_ q) (group_of by_ lp)) l) with (@nil (option string * pfrontier)); [reflexivity|].
  symmetry. apply seenb_false in E. clear - E. induction l as [|q l IH]; [reflexivity|]. cbn [filter]. destruct (String.eqb_spec (group_of by_ q) (group_of by_ lp)) as [Q|Q].
  - exfalso. apply E. left. exact Q.
  - apply IH. intros H. apply E. right. exact H.
Qed.

Lemma members_in by_ g l lp : In lp (members by_ g l) <-> In lp l /\ group_of by_ lp = g.
Proof. unfold members. rewrite filter_In, seqb_spec. tauto. Qed.

Lemma bucket_in l n p : In (n, p) (bucket l) -> survives l n p.
Proof.
  rewrite bucket_is. intros H. apply in_map_iff in H as (q & E & H). injection E as <- <-. apply latest_survives. apply distinct_in. exact H.
Qed.
Lemma bucket_names l : map fst (bucket l) = distinct (map panel_name l).
Proof. rewrite bucket_is, map_map. cbn [fst]. apply map_id. Qed.
Lemma bucket_all l : NoDup (map panel_name l) -> bucket l = map (fun lp => (panel_name lp, snd lp)) l.
Proof.
  intros N. rewrite bucket_is, distinct_id by exact N. rewrite map_map. apply map_ext_in. intros lp H. f_equal.
  destruct (latest_survives l (panel_name lp) (in_map _ _ _ H)) as (pre & q & post & E & E1 & E2 & _). rewrite <- E2.
  assert (q = lp); [|congruence]. apply (In_nth _ _ lp) in H as (j & Hj & Ej).
  assert (Lq : nth (List.length pre) l lp = q) by (rewrite E, app_nth2, Nat.sub_diag by lia; reflexivity).
  assert (Hp : (List.length pre < List.length l)%nat) by (rewrite E, app_length; simpl; lia).
  assert (EQ : List.length pre = j).
  { apply (proj1 (NoDup_nth (map panel_name l) (panel_name lp)) N); rewrite ?map_length; auto. rewrite !map_nth, Lq, Ej. exact E1. }
  rewrite <- Lq, EQ, Ej. reflexivity.
Qed.
