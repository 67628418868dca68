(** Frontier plots: what is drawn. *)
From Coq Require Import List ZArith String Lia Lra Permutation.
Import ListNotations.
From Verif Require Import Err RBase SortLib FrModel FrSpec FrProofs FrProofs2 PlModel PlSpec.
Open Scope R_scope.
Open Scope list_scope.

Lemma seqb_spec a b : String.eqb a b = true <-> a = b.
Proof. apply String.eqb_eq. Qed.
Lemma or_str_named a last : named [a] last (or_str a last).
Proof.
  unfold or_str. destruct a as [s|].
  - destruct (String.eqb_spec s "") as [-> | N].
    + apply named_last; [intros c [<-|[]]; auto|reflexivity].
    + apply (named_first _ _ _ [] []); [reflexivity|exact N|intros c []].
  - apply named_last; [intros c [<-|[]]; auto|reflexivity].
Qed.
Lemma or_str_named2 a b last : named [a; b] last (or_str a (or_str b last)).
Proof.
  unfold or_str at 1. destruct a as [s|].
  - destruct (String.eqb_spec s "") as [-> | N].
    + destruct (or_str_named b last) as [pre post E Ns H|H E].
      * apply (named_first _ _ _ (Some ""%string :: pre) post); [simpl; rewrite <- E; reflexivity|exact Ns|intros c [<-|Hc]; auto].
      * apply named_last; [intros c [<-|Hc]; auto|exact E].
    + apply (named_first _ _ _ [] [b]); [reflexivity|exact N|intros c []].
  - destruct (or_str_named b last) as [pre post E Ns H|H E].
    + apply (named_first _ _ _ (None :: pre) post); [simpl; rewrite <- E; reflexivity|exact Ns|intros c [<-|Hc]; auto].
    + apply named_last; [intros c [<-|Hc]; auto|exact E].
Qed.

Lemma named_unique cs last s s' : named cs last s -> named cs last s' -> s = s'.
Proof.
  revert s s'. induction cs as [|c cs IH]; intros s s' H H'.
  - destruct H as [pre post E _ _|_ ->]; [destruct pre; discriminate|]. destruct H' as [pre post E _ _|_ ->]; [destruct pre; discriminate|reflexivity].
  - assert (D : (c = None \/ c = Some ""%string) \/ exists t, c = Some t /\ t <> ""%string).
    { destruct c as [t|]; auto. destruct (String.eqb_spec t ""); subst; eauto. }
    destruct D as [D|(t & -> & Nt)].
    + assert (R : forall u, named (c :: cs) last u -> named cs last u).
      { intros u [[|c' pre] post E Nu Hp|Hc E].
        - injection E as -> _. destruct D as [D|D]; [discriminate|]. injection D as ->. congruence.
        - injection E as <- E. apply (named_first _ _ _ pre post); auto. intros x Hx. apply Hp. right. exact Hx.
        - apply named_last; auto. intros x Hx. apply Hc. right. exact Hx. }
      apply IH; apply R; assumption.
    + assert (R : forall u, named (Some t :: cs) last u -> u = t).
      { intros u [[|c' pre] post E Nu Hp|Hc E].
        - injection E as -> _. reflexivity.
        - injection E as <- E. destruct (Hp (Some t) (or_introl eq_refl)) as [Q|Q]; [discriminate|]. injection Q as ->. congruence.
        - destruct (Hc (Some t) (or_introl eq_refl)) as [Q|Q]; [discriminate|]. injection Q as ->. congruence. }
      rewrite (R _ H), (R _ H'). reflexivity.
Qed.

(** ** Inputs *)
Lemma mapM_total {A B} (f : A -> res B) l : (forall x, In x l -> exists y, f x = Ok y) -> exists ys, mapM f l = Ok ys.
Proof.
  induction l as [|x l IH]; intros H; [eexists; reflexivity|]. destruct (H x (or_introl eq_refl)) as (y & E).
  destruct IH as (ys & E'); [intros; apply H; right; auto|]. exists (y :: ys). cbn [mapM]. rewrite E. cbn [bind]. rewrite E'. reflexivity.
Qed.
Lemma mapM_err {A B} (f : A -> res B) l e : mapM f l = Err e -> exists x, In x l /\ f x = Err e.
Proof.
  induction l as [|x l IH]; cbn [mapM]; [discriminate|]. destruct (f x) as [y|e'] eqn:E; cbn [bind].
  - destruct (mapM f l) as [ys|e'] eqn:E'; cbn [bind]; [discriminate|]. intros [= ->]. destruct IH as (z & Hz & Ez); [reflexivity|]. exists z. split; [right|]; auto.
  - intros [= ->]. exists x. split; [left|]; auto.
Qed.
Lemma mapM_map {A B} (f : A -> res B) (g : A -> B) l : (forall x, In x l -> f x = Ok (g x)) -> mapM f l = Ok (map g l).
Proof.
  induction l as [|x l IH]; intros H; [reflexivity|]. cbn [mapM map]. rewrite (H x (or_introl eq_refl)). cbn [bind].
  rewrite IH by (intros; apply H; right; auto). reflexivity.
Qed.

Lemma norm_seq ls items l : List.length ls = List.length items ->
  mapM (fun p : option string * option pfrontier => let* f := as_frontier (snd p) in Ok (fst p, f)) (combine ls items) = Ok l ->
  exists fs, items = map Some fs /\ l = combine ls fs.
Proof.
  revert items l. induction ls as [|s ls IH]; intros [|x items] l Hl; simpl in Hl; try discriminate.
  - intros [= <-]. exists []. split; reflexivity.
  - cbn [combine mapM fst snd]. destruct x as [f|]; cbn [as_frontier bind]; [|discriminate].
    intros H. apply bind_ok in H as (ys & E & H). injection H as <-. destruct (IH items ys ltac:(lia) E) as (fs & -> & ->).
    exists (f :: fs). split; reflexivity.
Qed.
Lemma norm_seq_ok ls fs : List.length ls = List.length fs ->
  mapM (fun p : option string * option pfrontier => let* f := as_frontier (snd p) in Ok (fst p, f)) (combine ls (map Some fs)) = Ok (combine ls fs).
Proof.
  revert fs. induction ls as [|s ls IH]; intros [|f fs] Hl; simpl in Hl; try discriminate; [reflexivity|].
  cbn [map combine mapM fst snd as_frontier bind]. rewrite IH by lia. reflexivity.
Qed.
Lemma combine_none {A} (items : list A) (fs : list pfrontier) : List.length items = List.length fs ->
  combine (map (fun _ => @None string) items) fs = map (fun f => (None, f)) fs.
Proof. revert fs. induction items as [|x items IH]; intros [|f fs] H; simpl in *; try discriminate; [reflexivity|]. rewrite IH by lia. reflexivity. Qed.

Lemma normalize_iff fs labels l : normalize_frontiers fs labels = Ok l <-> supplied fs labels l.
Proof.
  split.
  - destruct fs as [m|f|items]; cbn [normalize_frontiers].
    + intros H. assert (E : exists k, m = map (fun kv => (fst kv, Some (snd kv))) k /\ l = map (fun kv => (Some (fst kv), snd kv)) k).
      { revert l H. induction m as [|[k x] m IH]; intros l H; cbn [mapM fst snd] in H.
        - injection H as <-. exists []. split; reflexivity.
        - destruct x as [f|]; cbn [as_frontier bind] in H; [|discriminate]. apply bind_ok in H as (ys & E & H). injection H as <-.
          destruct (IH ys E) as (q & -> & ->). exists ((k, f) :: q). split; reflexivity. }
      destruct E as (k & -> & ->). constructor.
    + destruct labels as [[|s [|]]|]; cbn; try discriminate; intros [= <-]; constructor.
    + intros H. apply bind_ok in H as (ls & El & H).
      assert (Hl : List.length ls = List.length items).
      { destruct labels as [q|]; [|injection El as <-; apply map_length]. destruct (Nat.eqb_spec (List.length q) (List.length items)); [|discriminate].
        injection El as <-. rewrite map_length. exact e. }
      destruct (norm_seq ls items l Hl H) as (fr & -> & ->). rewrite map_length in Hl. destruct labels as [q|].
      * destruct (Nat.eqb_spec (List.length q) (List.length (map Some fr))); [|discriminate]. injection El as <-. rewrite map_length in e. constructor. exact e.
      * injection El as <-. rewrite combine_none by (rewrite map_length; reflexivity). constructor.
  - intros H. destruct H; cbn [normalize_frontiers bind as_frontier].
    + rewrite (mapM_map _ (fun kv => match snd kv with Some f => (Some (fst kv), f) | None => (None, mkPF (mkFr 0 [] [] [] "" None []) None) end)).
      * rewrite map_map. reflexivity.
      * intros x Hx. apply in_map_iff in Hx as (kv & <- & _). reflexivity.
    + reflexivity.
    + reflexivity.
    + rewrite norm_seq_ok by (rewrite !map_length; reflexivity). rewrite combine_none by (rewrite map_length; reflexivity). reflexivity.
    + rewrite map_length, H, Nat.eqb_refl. cbn [bind]. rewrite norm_seq_ok by (rewrite map_length; exact H). reflexivity.
Qed.

(** ** Highlights *)
Lemma tangency_index f x rf i : List.length x = size f -> forallb (fun r => risclose r 0) x = false ->
  argbest better_opt (map2 (fun ret r => if Reqb r 0 then None else Some ((ret - rf) / r)) (f_ret f) x) = Ok i ->
  first_best (size f) (fun j => nthr x j <> 0) (fun j => - ((ret_of f j - rf) / nthr x j)) i.
Proof.
  intros Hl Ef Hi.
  destruct (argbest_spec better_opt None) with (l := map2 (fun ret r => if Reqb r 0 then None else Some ((ret - rf) / r)) (f_ret f) x) (k := i) as (H1 & H2 & H3); auto.
  { intros [a|] [b|] [c|]; simpl; try (right; reflexivity); try (left; reflexivity); try discriminate; auto.
    rewrite !Rltb_true. intros. destruct (Rlt_dec b a); [left|right]; lra. }
  { intros [a|] [b|]; simpl; try discriminate; auto. rewrite Rltb_true, Rltb_false. intros; lra. }
  rewrite map2_length in H1, H2 by (symmetry; exact Hl). fold (size f) in H1, H2.
  assert (N : forall j, (j < size f)%nat -> nth j (map2 (fun ret r => if Reqb r 0 then None else Some ((ret - rf) / r)) (f_ret f) x) None
     = if Reqb (nthr x j) 0 then None else Some ((ret_of f j - rf) / nthr x j)).
  { intros j Hj. rewrite (map2_nth _ _ _ j 0 0) by (auto; exact Hj). reflexivity. }
  assert (Hi0 : nthr x i <> 0).
  { intros E0. rewrite (N i H1) in H2. replace (Reqb (nthr x i) 0) with true in H2 by (symmetry; apply Reqb_true; exact E0).
    assert (forallb (fun r => risclose r 0) x = true); [|congruence]. apply forallb_forall. intros r Hr.
    apply (In_nth _ _ 0) in Hr as (j & Hj & <-). rewrite Hl in Hj. specialize (H2 j Hj). rewrite (N j Hj) in H2.
    destruct (Reqb_spec (nthr x j) 0) as [E|E]; [|discriminate]. unfold nthr in E. rewrite E.
    apply Rleb_true. rewrite Rminus_0_r, Rabs_R0. lra. }
  split; [exact H1|]. split; [exact Hi0|]. split; intros j Hj Pj.
  - specialize (H2 j Hj). rewrite (N j Hj), (N i H1) in H2.
    rewrite (proj2 (Reqb_false _ _) Pj), (proj2 (Reqb_false _ _) Hi0) in H2. simpl in H2. apply Rltb_false in H2. lra.
  - assert (Hj' : (j < size f)%nat) by lia. specialize (H3 j Hj). rewrite (N j Hj'), (N i H1) in H3.
    rewrite (proj2 (Reqb_false _ _) Pj), (proj2 (Reqb_false _ _) Hi0) in H3. simpl in H3. apply Rltb_true in H3. lra.
Qed.

Lemma resolve_spec pct f lab x rf m : well_formed f -> (0 < size f)%nat -> risks_for f lab x ->
  match resolve_highlight pct f x rf m with
  | Ok (Some (_, s, i)) => highlighted rf m f x i /\ is_portfolio f x i s
  | Ok None => m = "tangency"%string /\ rf <> None /\ forall v, In v x -> Rabs v <= 1 / 100000000
  | Err e => e = ValueError /\ ~ (m = "min_risk"%string \/ m = "max_return"%string \/ (m = "tangency"%string /\ rf <> None))
  end.
Proof.
  intros W S Hx. pose proof (risks_for_length _ _ _ W Hx) as Lx. unfold resolve_highlight.
  destruct (String.eqb_spec m "min_risk") as [-> | N1].
  - destruct (argmin x) as [i|e] eqn:E; cbn [bind].
    + apply argmin_spec in E. rewrite Lx in E. split; [left; split; auto|apply pick_is; apply E].
    + apply argbest_err in E as [-> _]. simpl in Lx. lia.
  - destruct (String.eqb_spec m "max_return") as [-> | N2].
    + destruct (argmax (f_ret f)) as [i|e] eqn:E; cbn [bind].
      * apply argmax_spec in E. split; [right; left; split; auto|apply pick_is; apply E].
      * apply argbest_err in E as [E _]. unfold size in S. rewrite E in S. simpl in S. lia.
    + destruct (String.eqb_spec m "tangency") as [-> | N3].
      * destruct rf as [r|].
        -- destruct (forallb (fun v => risclose v 0) x) eqn:F.
           ++ split; [reflexivity|]. split; [discriminate|]. intros v Hv. rewrite forallb_forall in F. specialize (F v Hv).
              apply Rleb_true in F. rewrite Rminus_0_r, Rabs_R0 in F. lra.
           ++ destruct (argbest better_opt _) as [i|e] eqn:E; cbn [bind].
              ** pose proof (tangency_index f x r i Lx F E) as Q. split; [|apply pick_is; apply Q]. right; right. split; [reflexivity|]. exists r. auto.
              ** apply argbest_err in E as [E _]. apply (f_equal (@List.length _)) in E.
                 rewrite map2_length in E by (symmetry; exact Lx). unfold size in S. simpl in E. lia.
        -- split; [reflexivity|]. intros [H|[H|[_ H]]]; congruence.
      * split; [reflexivity|]. intros [H|[H|[H _]]]; congruence.
Qed.

(** ** One frontier, then all *)
Lemma risk_known f l : ~ unknown_label f l <-> exists x, risks_for f l x.
Proof.
  destruct (risk_vector f l) as [x|e] eqn:E.
  - apply risk_vector_ok in E. split; [intros _; exists x; exact E|]. intros _ U. assert (Q : risk_vector f l = Err KeyError) by (apply risk_vector_err; auto).
    apply risk_vector_ok in E. congruence.
  - split.
    + intros U. apply risk_vector_err in E as [_ Q]. contradiction.
    + intros (x & Hx) _. apply risk_vector_ok in Hx. congruence.
Qed.

Definition known_marker (a : plot_args) (m : string) : Prop :=
  m = "min_risk"%string \/ m = "max_return"%string \/ (m = "tangency"%string /\ pa_rf a <> None).

Lemma draw_highlight_spec pct fmt a s p x m : frontier_ok p -> risks_for (pf_f p) (pa_risk a) x ->
  let label := or_str s (or_str (pa_risk a) (f_measure (pf_f p))) in
  match draw_highlight pct fmt a p label x m with
  | Ok (ar, rs) => highlight_records a (s, p) m rs /\ curves ar = [] /\ nodes ar = [] /\ overlays ar = [] /\
                   markers ar = map (fun r => (s_risk (rc_point r), s_return (rc_point r))) rs /\ known_marker a m
  | Err e => e = ValueError /\ ~ known_marker a m
  end.
Proof.
  intros [W S] Hx label. unfold draw_highlight. pose proof (resolve_spec pct _ _ x (pa_rf a) m W S Hx) as H.
  destruct (resolve_highlight pct (pf_f p) x (pa_rf a) m) as [[[[name sel] i]|]|e]; cbn [bind].
  - destruct H as [H P]. split; [|repeat split; auto].
    + exists x. split; [exact Hx|]. left. eexists. exists i. split; [reflexivity|]. cbn [rc_point rc_index rc_frontier rc_measure rc_meta fst snd].
      repeat split; try apply P; auto; [apply or_str_named2|apply or_str_named].
    + destruct H as [[-> _]|[[-> _]|[-> (r & E & _)]]]; [left|right; left|right; right]; auto. split; congruence.
  - destruct H as (-> & Hr & Hv). split; [|repeat split; auto].
    + exists x. split; [exact Hx|]. right. auto.
    + right; right. auto.
  - exact H.
Qed.

Lemma curves_app l m : curves (l ++ m) = curves l ++ curves m. Proof. unfold curves. apply flat_map_app. Qed.
Lemma nodes_app l m : nodes (l ++ m) = nodes l ++ nodes m. Proof. unfold nodes. apply flat_map_app. Qed.
Lemma overlays_app l m : overlays (l ++ m) = overlays l ++ overlays m. Proof. unfold overlays. apply flat_map_app. Qed.
Lemma markers_app l m : markers (l ++ m) = markers l ++ markers m. Proof. unfold markers. apply flat_map_app. Qed.

Lemma draw_highlights_spec pct fmt a s p x ms : frontier_ok p -> risks_for (pf_f p) (pa_risk a) x ->
  let label := or_str s (or_str (pa_risk a) (f_measure (pf_f p))) in
  match mapM (draw_highlight pct fmt a p label x) ms with
  | Ok hs => let ar := flat_map fst hs in
             Forall2 (highlight_records a (s, p)) ms (map snd hs) /\ curves ar = [] /\ nodes ar = [] /\ overlays ar = [] /\
             markers ar = map (fun r => (s_risk (rc_point r), s_return (rc_point r))) (flat_map snd hs) /\
             forall m, In m ms -> known_marker a m
  | Err e => e = ValueError /\ exists m, In m ms /\ ~ known_marker a m
  end.
Proof.
  intros F Hx label. induction ms as [|m ms IH]; cbn [mapM].
  - split; [constructor|]. repeat split. intros m [].
  - pose proof (draw_highlight_spec pct fmt a s p x m F Hx) as H. cbv zeta in H. fold label in H.
    destruct (draw_highlight pct fmt a p label x m) as [[ar rs]|e]; cbn [bind].
    + destruct (mapM _ ms) as [hs|e]; cbn [bind].
      * cbv zeta in IH |- *. destruct H as (H1 & H2 & H3 & H4 & H5 & H6), IH as (I1 & I2 & I3 & I4 & I5 & I6).
        cbn [flat_map map fst snd]. rewrite curves_app, nodes_app, overlays_app, markers_app, H2, H3, H4, H5, I2, I3, I4, I5.
        split; [constructor; auto|]. split; [reflexivity|]. split; [reflexivity|]. split; [reflexivity|]. split; [rewrite map_app; reflexivity|].
        intros q [<-|Hq]; auto.
      * destruct IH as (-> & q & Hq & N). split; [reflexivity|]. exists q. split; [right|]; auto.
    + destruct H as (-> & N). split; [reflexivity|]. exists m. split; [left|]; auto.
Qed.

(** Overlays drawn: one per requested label the frontier carries. *)
Definition overlay_lines (name : string) (f : frontier_t) (labels : list string) : list (string * list R * list R) :=
  flat_map (fun o => match risk_vector f (Some o) with Ok r => [((name ++ " (" ++ o ++ ")")%string, r, f_ret f)] | Err _ => [] end) labels.
Lemma overlays_flat name f os : let ar := flat_map (draw_overlay f name) os in
  overlays ar = overlay_lines name f os /\ curves ar = [] /\ nodes ar = [] /\ markers ar = [].
Proof.
  cbv zeta. induction os as [|o os (I1 & I2 & I3 & I4)]; [repeat split|]. unfold overlay_lines in *. cbn [flat_map]. rewrite overlays_app, curves_app, nodes_app, markers_app, I1, I2, I3, I4.
  unfold draw_overlay. destruct (risk_vector f (Some o)); repeat split.
Qed.

Lemma draw_frontier_spec pct fmt a lp : frontier_ok (snd lp) ->
  match draw_frontier pct fmt a lp with
  | Ok (ar, rs) =>
      (exists c, curves ar = [c] /\ line_of (pa_risk a) lp c /\
         nodes ar = (if pa_points a then [(snd (fst c), snd c)] else []) /\
         overlays ar = overlay_lines (fst (fst c)) (pf_f (snd lp)) (pa_overlay a)) /\
      (exists qs, Forall2 (highlight_records a lp) (pa_highlight a) qs /\ rs = List.concat qs) /\
      markers ar = map (fun r => (s_risk (rc_point r), s_return (rc_point r))) rs /\
      ~ unknown_label (pf_f (snd lp)) (pa_risk a) /\ forall m, In m (pa_highlight a) -> known_marker a m
  | Err e => (e = KeyError /\ unknown_label (pf_f (snd lp)) (pa_risk a)) \/
             (e = ValueError /\ exists m, In m (pa_highlight a) /\ ~ known_marker a m)
  end.
Proof.
  destruct lp as [s p]. cbn [snd]. intros F. unfold draw_frontier. destruct (risk_vector (pf_f p) (pa_risk a)) as [x|e] eqn:E; cbn [bind].
  - apply risk_vector_ok in E. pose proof (draw_highlights_spec pct fmt a s p x (pa_highlight a) F E) as H. cbv zeta in H.
    set (label := or_str s (or_str (pa_risk a) (f_measure (pf_f p)))) in *.
    destruct (mapM _ (pa_highlight a)) as [hs|e]; cbn [bind].
    + destruct H as (H1 & H2 & H3 & H4 & H5 & H6). destruct (overlays_flat label (pf_f p) (pa_overlay a)) as (O1 & O2 & O3 & O4).
      split; [|split; [|split; [|split]]].
      * exists (label, x, f_ret (pf_f p)). cbn [fst snd].
        change (Curve label x (f_ret (pf_f p)) :: ?l) with ([Curve label x (f_ret (pf_f p))] ++ l).
        rewrite !curves_app, !nodes_app, !overlays_app, H2, H3, H4, O1, O2, O3. destruct (pa_points a); cbn [curves nodes overlays flat_map app].
        -- repeat split; auto; [apply or_str_named2|rewrite app_nil_r; reflexivity].
        -- repeat split; auto; [apply or_str_named2|rewrite app_nil_r; reflexivity].
      * exists (map snd hs). split; [exact H1|]. apply flat_map_concat_map.
      * change (Curve label x (f_ret (pf_f p)) :: ?l) with ([Curve label x (f_ret (pf_f p))] ++ l).
        rewrite !markers_app, H5, O4. destruct (pa_points a); reflexivity.
      * apply risk_known. exists x. exact E.
      * exact H6.
    + right. exact H.
  - left. apply risk_vector_err in E. exact E.
Qed.

Lemma x_label_spec a l : x_axis (pa_risk a) l (x_label a l).
Proof.
  unfold x_label, or_str. assert (D : forall (P : (pa_risk a = None \/ pa_risk a = Some ""%string)), x_axis (pa_risk a) l
    (match map (fun lp => f_measure (pf_f (snd lp))) l with [] => "Risk"%string | m :: ms => if forallb (String.eqb m) ms then m else "Risk"%string end)).
  { intros P. destruct l as [|lp l]; cbn [map].
    - apply x_mixed; auto. intros [H _]. congruence.
    - destruct (forallb _ _) eqn:F.
      + apply x_common; auto; [discriminate|]. intros q [<-|Hq]; [reflexivity|]. rewrite forallb_forall in F.
        symmetry. apply seqb_spec, F. apply (in_map (fun lp0 => f_measure (pf_f (snd lp0)))) in Hq. exact Hq.
      + apply x_mixed; auto. intros [_ (m & H)]. apply Bool.not_true_iff_false in F. apply F. apply forallb_forall. intros y Hy.
        apply in_map_iff in Hy as (q & <- & Hq). apply seqb_spec. rewrite (H lp (or_introl eq_refl)), (H q (or_intror Hq)). reflexivity. }
  destruct (pa_risk a) as [s|] eqn:E; [|apply D; auto]. destruct (String.eqb_spec s "") as [-> | N]; [apply D; auto|]. apply x_requested; auto.
Qed.

Lemma draw_all pct fmt a l : (forall lp, In lp l -> frontier_ok (snd lp)) ->
  match mapM (draw_frontier pct fmt a) l with
  | Ok ds =>
      Forall2 (line_of (pa_risk a)) l (curves (flat_map fst ds)) /\
      nodes (flat_map fst ds) = (if pa_points a then map (fun c => (snd (fst c), snd c)) (curves (flat_map fst ds)) else []) /\
      (exists os, Forall2 (fun lp o => exists c, line_of (pa_risk a) lp c /\ o = overlay_lines (fst (fst c)) (pf_f (snd lp)) (pa_overlay a)) l os /\
         overlays (flat_map fst ds) = List.concat os) /\
      (exists rss, Forall2 (fun lp rs => exists qs, Forall2 (highlight_records a lp) (pa_highlight a) qs /\ rs = List.concat qs) l rss /\
         flat_map snd ds = List.concat rss) /\
      markers (flat_map fst ds) = map (fun r => (s_risk (rc_point r), s_return (rc_point r))) (flat_map snd ds) /\
      drawable a l
  | Err e => ~ drawable a l /\ (e = KeyError \/ e = ValueError)
  end.
Proof.
  intros F. induction l as [|lp l IH]; cbn [mapM].
  - cbn [flat_map]. split; [constructor|]. split; [destruct (pa_points a); reflexivity|]. split; [exists []; split; [constructor|reflexivity]|].
    split; [exists []; split; [constructor|reflexivity]|]. split; [reflexivity|intros lp []].
  - pose proof (draw_frontier_spec pct fmt a lp (F lp (or_introl eq_refl))) as H.
    assert (F' : forall lp0, In lp0 l -> frontier_ok (snd lp0)) by (intros; apply F; right; auto). specialize (IH F').
    destruct (draw_frontier pct fmt a lp) as [[ar rs]|e]; cbn [bind].
    + destruct (mapM _ l) as [ds|e]; cbn [bind].
      * destruct H as ((c & C1 & C2 & C3 & C4) & (qs & Q1 & ->) & M & U & K), IH as (I1 & I2 & (os & I3 & I3') & (rss & I4 & I4') & I5 & I6).
        cbn [flat_map fst snd]. rewrite curves_app, nodes_app, overlays_app, markers_app, C1, C3, C4, M, I2, I3', I4', I5.
        split; [constructor; auto|]. split; [cbn [app map]; destruct (pa_points a); reflexivity|].
        split; [eexists (_ :: os); split; [constructor; [exists c; split; [exact C2|reflexivity]|exact I3]|reflexivity]|].
        split; [exists (List.concat qs :: rss); split; [constructor; [exists qs; auto|exact I4]|reflexivity]|].
        split; [rewrite map_app, I4'; reflexivity|]. intros q [<-|Hq]; [split; auto|apply I6; exact Hq].
      * destruct IH as [N E]. split; [|exact E]. intros D. apply N. intros q Hq. apply D. right. exact Hq.
    + split.
      * intros D. destruct (D lp (or_introl eq_refl)) as [D1 D2]. destruct H as [[_ H]|[_ (m & Hm & N)]]; [contradiction|]. apply N. apply D2. exact Hm.
      * destruct H as [[-> _]|[-> _]]; auto.
Qed.
