(** Order of labels, acceptance, relative entropy. *)
From Verif Require Import RBase QpBase SortLib OptModel ConsModel DistModel ProbRModel RiskModel RiskSpec RiskProofs MomSpec MomProofs BlModel EpModel StModel FvSpec FvProofs FvProofs5 StSpec StProofs StProofs2.
From Verif Require MomModel.
Open Scope R_scope.
Open Scope list_scope.

(** ** Acceptance *)
Lemma stress_accepts_l argsort w sc p pst tr conf dm : frame_ok sc ->
  (exists o, stress_test argsort w sc p pst tr conf dm = Ok o) <->
  (0 < conf < 1 /\ dm <> DOther /\ fits w sc /\ usable p (sc_T sc) /\ (pst <> None -> usable pst (sc_T sc)) /\
   (forall f, tr = Some f -> exists Y, gives f sc Y)).
Proof.
  intros Hf. split.
  - intros (o & H). destruct (stress_inv _ _ _ _ _ _ _ _ _ Hf H) as (Hc & Hd & HF & pn & Hp & H1 & H2).
    split; auto. split; auto. split; auto. split; [apply resolve_iff; eauto|]. split.
    + intros Hne. destruct (H2 (or_introl Hne)) as (X & ps & _ & Hps & _). apply resolve_iff. destruct pst; [eauto|congruence].
    + intros f ->. destruct H2 as (X & ps & HX & _); [right; discriminate|]. eauto.
  - intros (Hc & Hd & HF & Hu & Hus & Ht). apply resolve_iff in Hu as (pn & Hp).
    destruct (stress_total argsort w sc p pst tr conf dm pn Hf Hc Hd HF Hp) as (A & B).
    assert (HP : exists ps, match pst with Some _ => resolve_probs pst (sc_T sc) = Ok ps | None => ps = pn end).
    { destruct pst as [l|]; [apply resolve_iff; apply Hus; discriminate|eauto]. }
    destruct HP as (ps & HP).
    destruct tr as [f|].
    + destruct (Ht f eq_refl) as (Y & HY). eexists. apply (B Y ps); auto. right. discriminate.
    + destruct pst as [l|]; [|eauto]. eexists. apply (B (sc_X sc) ps); auto. left. discriminate.
Qed.

Lemma metrics_err argsort T N M X W p conf dm e : valid p T -> 0 < conf < 1 -> metrics_of argsort T N M X W p conf dm = Err e -> e = ValueError.
Proof. intros V Hc. rewrite metrics_of_core by auto. destruct dm; congruence. Qed.

Lemma align_errs w cols e : align_weights w cols = Err e ->
  e = ValueError \/ (e = TypeError /\ exists c idx, cols = Some c /\ labels_of w = Some idx /\ ~ labels_match w cols).
Proof.
  intros Ha. destruct (raw_weights w) as [x|e1] eqn:R.
  - assert (Hw : w <> WtOther) by (intros ->; discriminate). unfold align_weights in Ha. rewrite raw_total in Ha by auto. cbn [bind] in Ha.
    destruct cols as [c|]; [|discriminate]. destruct (labels_of w) as [ix|] eqn:L.
    + destruct (subset ix c && subset c ix) eqn:S; [discriminate|].
      destruct (mixed _ || mixed _); injection Ha as <-; [right; split; [reflexivity|]|left; reflexivity].
      exists c, ix. split; [reflexivity|]. split; [reflexivity|]. unfold labels_match. rewrite L. intros HL.
      assert (S' : subset ix c && subset c ix = true); [|congruence]. apply andb_true_iff. split; apply subset_in; intros l Hl; apply HL; exact Hl.
    + destruct (Nat.eqb _ _); [discriminate|]. injection Ha as <-. left. reflexivity.
  - unfold align_weights in Ha. rewrite R in Ha. cbn [bind] in Ha. injection Ha as <-. destruct w; try discriminate. injection R as <-. left. reflexivity.
Qed.

Lemma stress_errors_l argsort w sc p pst tr conf dm e : frame_ok sc ->
  stress_test argsort w sc p pst tr conf dm = Err e ->
  e = ValueError \/
  (e = TypeError /\ exists c idx, sc_cols sc = Some c /\ labels_of w = Some idx /\ ~ labels_match w (sc_cols sc)) \/
  (exists f, tr = Some f /\ f (sc_T sc) (sc_N sc) (sc_X sc) = Err e).
Proof.
  intros Hf H. unfold stress_test in H. cbv zeta in H. unfold guard at 1 in H. destruct (Rltb 0 conf && Rltb conf 1) eqn:Hc; [|injection H as <-; auto].
  apply andb_true_iff in Hc as [H0 H1]. apply Rltb_true in H0. apply Rltb_true in H1.
  assert (Hconf : 0 < conf < 1) by lra.
  destruct (resolve_probs p (sc_T sc)) as [pn|e1] eqn:Hp; cbn [bind] in H; [|injection H as <-; left; eapply resolve_err; eauto].
  pose proof (resolve_valid _ _ _ Hp) as V.
  destruct (align_weights w (sc_cols sc)) as [[[[[n m] W] idx] names]|e1] eqn:Ha; cbn [bind] in H.
  2:{ injection H as <-. destruct (align_errs _ _ _ Ha) as [E|(E & c & idx & E1 & E2 & E3)]; [left; exact E|right; left; split; [exact E|]; exists c, idx; auto]. }
  unfold guard at 1 in H. destruct (Nat.eqb n (sc_N sc)); [|injection H as <-; auto].
  destruct (metrics_of argsort (sc_T sc) (sc_N sc) m (sc_X sc) W pn conf dm) as [nom|e1] eqn:Hm; cbn [bind] in H; [|injection H as <-; left; eapply metrics_err; eauto].
  match type of H with bind ?m _ = _ => destruct m as [X|e1] eqn:HX end; cbn [bind] in H.
  2:{ injection H as <-. destruct tr as [f|]; [|discriminate]. destruct (f _ _ _) as [[[T' N'] Y]|e2] eqn:EY; cbn [bind] in HX; [|injection HX as <-; right; right; eauto].
      left. unfold guard in HX. destruct (_ && _); [|congruence]. destruct (forallb _ _); congruence. }
  assert (H' : (let* p_star := match pst with Some _ => resolve_probs pst (sc_T sc) | None => Ok pn end in
        let* st := metrics_of argsort (sc_T sc) (sc_N sc) m X W p_star conf dm in
        Ok (Out names (match idx with Some _ => true | None => false end) (py_round (conf * 100)) nom (Some st) (match pst with Some _ => Some (kl_divergence p_star pn) | None => None end) "stress"%string)) = Err e).
  { destruct pst; [exact H|]. destruct tr; [exact H|discriminate]. }
  destruct (match pst with Some _ => resolve_probs pst (sc_T sc) | None => Ok pn end) as [ps|e1] eqn:Hps; cbn [bind] in H'.
  - assert (Vs : valid ps (sc_T sc)) by (destruct pst; [eapply resolve_valid; eauto|injection Hps as <-; auto]).
    destruct (metrics_of argsort (sc_T sc) (sc_N sc) m X W ps conf dm) eqn:Hm2; cbn [bind] in H'; [discriminate|]. injection H' as <-. left. eapply metrics_err; eauto.
  - injection H' as <-. destruct pst; [|discriminate]. left. eapply resolve_err; eauto.
Qed.

(** ** Meaning of the reported numbers *)
Lemma book_pnl_col w sc X j : labels_match w (sc_cols sc) -> frame_ok sc ->
  exists h : vec, (forall i, (i < sc_N sc)%nat -> holding w (sc_cols sc) i j (h i)) /\
  col (sc_T sc) (book w (sc_cols sc) (sc_N sc) X) j = book_pnl (sc_T sc) (sc_N sc) X h.
Proof.
  intros HL Hf. exists (fun i => aligned_matrix w (sc_cols sc) i j). split; [|reflexivity].
  intros i Hi. apply aligned_holding; auto. intros c Hc. rewrite (Hf c Hc). exact Hi.
Qed.

(** ** Order of labels *)
Definition wval (w : weights) (m : nat) (l : label) : R :=
  match labels_of w with Some idx => match index_of l idx with Some k => wentry w k m | None => 0 end | None => 0 end.
Definition xval (sc : scen) (t : nat) (l : label) : R :=
  match sc_cols sc with Some c => match index_of l c with Some k => sc_X sc t k | None => 0 end | None => 0 end.

Lemma index_of_nodup c i l : NoDup c -> nth_error c i = Some l -> index_of l c = Some i.
Proof.
  intros Hn E. apply index_first. split; auto. intros j Hj Ej. assert (i = j); [|lia].
  apply (proj1 (NoDup_nth_error c) Hn); [apply nth_error_Some; congruence|congruence].
Qed.

Lemma book_by_label w sc c idx t m : sc_cols sc = Some c -> labels_of w = Some idx -> NoDup c -> frame_ok sc -> (forall l, In l c <-> In l idx) ->
  book w (sc_cols sc) (sc_N sc) (sc_X sc) t m = rsum (map (fun l => xval sc t l * wval w m l) c).
Proof.
  intros Hc Hl Hn Hf HL. unfold book, dot, aligned_matrix. rewrite Hc, Hl. rewrite <- (Hf c Hc).
  rewrite rsum_sumn, map_length. apply sumn_ext. intros i Hi.
  rewrite (nth_map_lt (fun l => xval sc t l * wval w m l) c i (LInt 0)) by auto.
  rewrite (nth_map_lt (fun l => match index_of l idx with Some k => k | None => 0%nat end) c i (LInt 0)) by auto.
  assert (E : nth_error c i = Some (nth i c (LInt 0))) by (apply nth_error_nth'; auto).
  unfold xval, wval. rewrite Hc, Hl, (index_of_nodup c i _ Hn E).
  assert (In (nth i c (LInt 0)) idx) as Hin by (apply HL, nth_In; auto).
  destruct (index_of (nth i c (LInt 0)) idx) as [k|] eqn:K; [reflexivity|]. apply index_none in K. tauto.
Qed.

Lemma wval_at w l m idx : labels_of w = Some idx -> NoDup idx -> In l idx -> forall x, at_label w l m x <-> x = wval w m l.
Proof.
  intros Hl Hn Hin x. unfold wval. rewrite Hl. destruct (index_of l idx) as [k|] eqn:K; [|apply index_none in K; tauto].
  apply index_first in K as [K1 K2]. split.
  - intros (idx' & k' & E' & Ek & ->). assert (idx' = idx) by congruence. subst idx'. apply index_of_nodup in Ek; auto. apply index_of_nodup in K1; auto. congruence.
  - intros ->. exists idx, k. auto.
Qed.
Lemma xval_at sc l t c : sc_cols sc = Some c -> NoDup c -> In l c -> forall x, at_column sc l t x <-> x = xval sc t l.
Proof.
  intros Hl Hn Hin x. unfold xval. rewrite Hl. destruct (index_of l c) as [k|] eqn:K; [|apply index_none in K; tauto].
  apply index_first in K as [K1 K2]. split.
  - intros (c' & k' & E' & Ek & ->). assert (c' = c) by congruence. subst c'. apply index_of_nodup in Ek; auto. apply index_of_nodup in K1; auto. congruence.
  - intros ->. exists c, k. auto.
Qed.

Lemma existsb_iff {A} (f : A -> bool) l l' : (forall x, In x l <-> In x l') -> existsb f l = existsb f l'.
Proof.
  intros H. apply eq_true_iff_eq. rewrite !existsb_exists. split; intros (x & Hx & E); exists x; (split; [apply H; exact Hx|exact E]).
Qed.
Lemma mem_iff l a b : (forall x, In x a <-> In x b) -> mem l a = mem l b.
Proof. intros H. apply existsb_iff, H. Qed.
Lemma forallb_iff {A} (f : A -> bool) l l' : (forall x, In x l <-> In x l') -> forallb f l = forallb f l'.
Proof.
  intros H. apply eq_true_iff_eq. rewrite !forallb_forall. split; intros E x Hx; apply E, H; exact Hx.
Qed.
Lemma mixed_diff a b a' b' : (forall x, In x a <-> In x a') -> (forall x, In x b <-> In x b') ->
  mixed (filter (fun l => negb (mem l b)) a) = mixed (filter (fun l => negb (mem l b')) a').
Proof.
  intros Ha Hb. assert (H : forall x, In x (filter (fun l => negb (mem l b)) a) <-> In x (filter (fun l => negb (mem l b')) a')).
  { intros x. rewrite !filter_In, (mem_iff x b b' Hb), Ha. reflexivity. }
  unfold mixed. f_equal; apply existsb_iff; exact H.
Qed.

Lemma match_dec w cols : labels_match w cols \/ ~ labels_match w cols.
Proof.
  unfold labels_match. destruct cols as [c|]; [|auto]. destruct (labels_of w) as [ix|]; [|auto].
  destruct (subset ix c && subset c ix) eqn:S; [left|right].
  - apply andb_true_iff in S as [S1 S2]. rewrite subset_in in S1, S2. split; auto.
  - intros HL. assert (S' : subset ix c && subset c ix = true); [|congruence]. apply andb_true_iff. split; apply subset_in; intros l Hl; apply HL; exact Hl.
Qed.
Lemma stress_T0 argsort w sc p pst tr conf dm : sc_T sc = 0%nat -> stress_test argsort w sc p pst tr conf dm = Err ValueError.
Proof.
  intros HT. unfold stress_test. cbv zeta. rewrite HT. destruct (Rltb 0 conf && Rltb conf 1); cbn [guard]; [|reflexivity].
  destruct (resolve_probs p 0) as [q|e] eqn:E; cbn [bind]; [|rewrite (resolve_err _ _ _ E); reflexivity].
  pose proof (v_T _ _ (resolve_valid _ _ _ E)). lia.
Qed.

Lemma align_err w sc sc' w' : same_book w w' -> same_labels (sc_cols sc) (sc_cols sc') -> ~ labels_match w (sc_cols sc) ->
  exists e, align_weights w (sc_cols sc) = Err e /\ align_weights w' (sc_cols sc') = Err e.
Proof.
  intros (SL & _ & _) SC HN. unfold same_labels in SL, SC.
  destruct (labels_of w) as [idx|] eqn:L; [|destruct SL]. destruct (labels_of w') as [idx'|] eqn:L'; [|destruct SL].
  destruct (sc_cols sc) as [c|] eqn:C; [|destruct SC]. destruct (sc_cols sc') as [c'|] eqn:C'; [|destruct SC].
  destruct SL as (_ & _ & SL). destruct SC as (_ & _ & SC).
  assert (W1 : w <> WtOther) by (intros ->; discriminate). assert (W2 : w' <> WtOther) by (intros ->; discriminate).
  unfold align_weights. rewrite !raw_total by auto. cbn [bind]. rewrite L, L'.
  unfold labels_match in HN. rewrite L in HN.
  assert (Sub : forall a b a' b', (forall x, In x a <-> In x a') -> (forall x, In x b <-> In x b') -> subset a b = subset a' b').
  { intros a b a' b' Ha Hb. apply eq_true_iff_eq. rewrite !subset_in. split; intros H x Hx; apply Hb, H, Ha; exact Hx. }
  rewrite (Sub idx c idx' c' SL SC), (Sub c idx c' idx' SC SL).
  rewrite (mixed_diff c idx c' idx' SC SL), (mixed_diff idx c idx' c' SL SC).
  destruct (subset idx' c' && subset c' idx') eqn:S; [|destruct (mixed _ || mixed _); eauto].
  exfalso. apply HN. apply andb_true_iff in S as [S1 S2]. rewrite subset_in in S1, S2. intros l. rewrite SC, SL. split; auto.
Qed.

Lemma stress_order_l argsort w w' sc sc' p pst conf dm : same_book w w' -> same_columns sc sc' ->
  stress_test argsort w sc p pst None conf dm = stress_test argsort w' sc' p pst None conf dm.
Proof.
  intros SB (ET & Hf & Hf' & SC & SX). pose proof SB as (SL & SN & SW).
  destruct (Nat.eq_dec (sc_T sc) 0) as [T0|TN]; [rewrite !stress_T0 by congruence; reflexivity|].
  assert (ML : labels_match w (sc_cols sc) <-> labels_match w' (sc_cols sc')).
  { unfold same_labels in SL, SC. unfold labels_match.
    destruct (labels_of w) as [idx|] eqn:L; [|destruct SL]. destruct (labels_of w') as [idx'|] eqn:L'; [|destruct SL].
    destruct (sc_cols sc) as [c|] eqn:C; [|destruct SC]. destruct (sc_cols sc') as [c'|] eqn:C'; [|destruct SC].
    destruct SL as (_ & _ & SL). destruct SC as (_ & _ & SC). split; intros H l; specialize (H l); rewrite <- ?SL, <- ?SC in *; rewrite ?SL, ?SC in *; tauto. }
  destruct (match_dec w (sc_cols sc)) as [M|NM].
  2:{ destruct (align_err w sc sc' w' SB SC NM) as (e & E1 & E2). unfold stress_test. cbv zeta. rewrite <- ET. rewrite E1, E2. cbn [bind].
      destruct (resolve_probs p (sc_T sc)); cbn [bind]; reflexivity. }
  pose proof (proj1 ML M) as M'.
  unfold same_labels in SL, SC.
  destruct (labels_of w) as [idx|] eqn:L; [|destruct SL]. destruct (labels_of w') as [idx'|] eqn:L'; [|destruct SL].
  destruct (sc_cols sc) as [c|] eqn:C; [|destruct SC]. destruct (sc_cols sc') as [c'|] eqn:C'; [|destruct SC].
  destruct SL as (NI & NI' & SL). destruct SC as (NC & NC' & SC).
  assert (F : fits w sc). { split; [intros ->; discriminate|]. rewrite C, L. split; auto. }
  assert (F' : fits w' sc'). { split; [intros ->; discriminate|]. rewrite C', L'. split; auto. }
  assert (EB : forall t m, (t < sc_T sc)%nat -> (m < width w)%nat -> book w (sc_cols sc) (sc_N sc) (sc_X sc) t m = book w' (sc_cols sc') (sc_N sc') (sc_X sc') t m).
  { intros t m Ht Hm. unfold labels_match in M, M'. rewrite L in M. rewrite L' in M'.
    rewrite (book_by_label w sc c idx), (book_by_label w' sc' c' idx') by auto.
    assert (P : Permutation c c') by (apply NoDup_Permutation; auto).
    rewrite (rsum_perm _ _ (Permutation_map (fun l => xval sc t l * wval w m l) P)). f_equal. apply map_ext_in. intros l Hl. f_equal.
    - apply (xval_at sc' l t c' C' NC' Hl). apply SX; auto. apply (xval_at sc l t c C NC); [apply SC; auto|reflexivity].
    - apply (wval_at w' l m idx' L' NI'); [apply M'; auto|]. apply SW; auto. apply (wval_at w l m idx L NI); [apply SL, M'; auto|reflexivity]. }
  assert (EW : width w' = width w) by (unfold width; congruence).
  assert (EC : forall q, metrics_core argsort (sc_T sc) (width w) (book w (sc_cols sc) (sc_N sc) (sc_X sc)) q conf dm =
                         metrics_core argsort (sc_T sc') (width w') (book w' (sc_cols sc') (sc_N sc') (sc_X sc')) q conf dm).
  { intros q. rewrite <- ET, EW. apply metrics_core_ext. exact EB. }
  destruct (align_total w sc Hf F) as (ix & A & Ei). destruct (align_total w' sc' Hf' F') as (ix' & A' & Ei').
  rewrite L in Ei. rewrite L' in Ei'.
  unfold stress_test. cbv zeta. rewrite A, A', <- ET.
  destruct (Rltb 0 conf && Rltb conf 1) eqn:Hc; cbn [guard]; [|reflexivity].
  apply andb_true_iff in Hc as [H0 H1]. apply Rltb_true in H0. apply Rltb_true in H1. assert (Hconf : 0 < conf < 1) by lra.
  destruct (resolve_probs p (sc_T sc)) as [pn|e] eqn:Hp; cbn [bind]; [|reflexivity]. pose proof (resolve_valid _ _ _ Hp) as V.
  rewrite !Nat.eqb_refl. cbn [guard].
  assert (HM : forall q, valid q (sc_T sc) -> metrics_of argsort (sc_T sc) (sc_N sc) (width w) (sc_X sc) (aligned_matrix w (sc_cols sc)) q conf dm =
                         metrics_of argsort (sc_T sc) (sc_N sc') (width w') (sc_X sc') (aligned_matrix w' (sc_cols sc')) q conf dm).
  { intros q Vq. rewrite !metrics_of_core by auto. specialize (EC q). unfold book in EC. rewrite <- ET in EC. rewrite EC. reflexivity. }
  rewrite <- HM by auto. destruct (metrics_of argsort (sc_T sc) (sc_N sc) (width w) (sc_X sc) (aligned_matrix w (sc_cols sc)) pn conf dm) as [nom|e]; cbn [bind]; [|reflexivity].
  assert (En : match ix with Some _ => true | None => false end = match ix' with Some _ => true | None => false end) by (unfold is_some in Ei, Ei'; congruence).
  rewrite En, SN. destruct pst as [l|]; [|reflexivity].
  destruct (resolve_probs (Some l) (sc_T sc)) as [ps|e] eqn:Hps; cbn [bind]; [|reflexivity]. rewrite <- HM by (eapply resolve_valid; eauto). reflexivity.
Qed.
