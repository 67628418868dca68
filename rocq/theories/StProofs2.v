(** [stress_test] taken apart and put together. *)
From Verif Require Import RBase QpBase SortLib OptModel ConsModel DistModel ProbRModel RiskModel RiskSpec RiskProofs MomSpec MomProofs BlModel EpModel StModel FvSpec FvProofs FvProofs5 StSpec StProofs.
From Verif Require MomModel.
Open Scope R_scope.
Open Scope list_scope.

Definition book (w : weights) (cols : option (list label)) (N : nat) (X : mat) : mat := fun t j => dot N (X t) (fun i => aligned_matrix w cols i j).
Definition width (w : weights) : nat := List.length (names_of w).

Lemma align_total w sc : frame_ok sc -> fits w sc ->
  exists idx, align_weights w (sc_cols sc) = Ok (sc_N sc, width w, aligned_matrix w (sc_cols sc), idx, names_of w) /\ is_some idx = is_some (labels_of w).
Proof.
  intros Hf (Hw & Hm & Hr). unfold align_weights. rewrite raw_total by auto. cbn [bind]. unfold aligned_matrix, labels_match, width in *.
  destruct (sc_cols sc) as [c|] eqn:C; [destruct (labels_of w) as [idx|] eqn:L|].
  - assert (S : subset idx c && subset c idx = true) by (apply andb_true_iff; split; apply subset_in; intros l; apply Hm). rewrite S.
    exists (Some c). rewrite (Hf c C). split; reflexivity.
  - rewrite Hr, (Hf c C), Nat.eqb_refl. exists None. split; reflexivity.
  - rewrite Hr. exists (labels_of w). split; reflexivity.
Qed.
Lemma align_fits w sc n m W idx names : frame_ok sc -> align_weights w (sc_cols sc) = Ok (n, m, W, idx, names) -> n = sc_N sc -> fits w sc.
Proof.
  intros Hf H Hn. destruct (align_ok _ _ _ _ _ _ _ H) as (A & _ & _ & _ & _ & B & C & _). split; auto. split; auto.
  destruct (sc_cols sc); [destruct (labels_of w)|]; try exact I; congruence.
Qed.

(** What the returned frame holds. *)
Definition out_of argsort (w : weights) (sc : scen) (pn : list R) (st : option (mat * list R)) (kl : bool) (conf : R) (dm : demean_arg) : stress_out :=
  let core X p := metrics_core argsort (sc_T sc) (width w) (book w (sc_cols sc) (sc_N sc) X) p conf dm in
  Out (names_of w) (is_some (labels_of w)) (py_round (conf * 100)) (core (sc_X sc) pn)
      (match st with Some (X, ps) => Some (core X ps) | None => None end)
      (match st with Some (_, ps) => if kl then Some (kl_divergence ps pn) else None | None => None end)
      (match st with Some _ => "stress" | None => "" end)%string.

Lemma fin_val y : p_fin y = true -> y = Fin (val y).
Proof. destruct y; simpl; congruence. Qed.

Lemma core_book_ext argsort w sc X Y p conf dm : (forall t i, (t < sc_T sc)%nat -> (i < sc_N sc)%nat -> X t i = Y t i) ->
  metrics_core argsort (sc_T sc) (width w) (book w (sc_cols sc) (sc_N sc) X) p conf dm =
  metrics_core argsort (sc_T sc) (width w) (book w (sc_cols sc) (sc_N sc) Y) p conf dm.
Proof. intros H. apply metrics_core_ext. intros t m Ht Hm. apply dot_ext; auto. Qed.

Lemma stress_inv argsort w sc p pst tr conf dm o : frame_ok sc -> stress_test argsort w sc p pst tr conf dm = Ok o ->
  0 < conf < 1 /\ dm <> DOther /\ fits w sc /\ exists pn, resolve_probs p (sc_T sc) = Ok pn /\
  (pst = None -> tr = None -> o = out_of argsort w sc pn None false conf dm) /\
  (pst <> None \/ tr <> None -> exists X ps,
     (match tr with Some f => gives f sc X | None => X = sc_X sc end) /\
     (match pst with Some _ => resolve_probs pst (sc_T sc) = Ok ps | None => ps = pn end) /\
     o = out_of argsort w sc pn (Some (X, ps)) (is_some pst) conf dm).
Proof.
  intros Hf H. unfold stress_test in H. cbv zeta in H. apply guard_ok in H as [Hc H]. apply andb_true_iff in Hc as [H0 H1]. apply Rltb_true in H0. apply Rltb_true in H1.
  assert (Hconf : 0 < conf < 1) by lra. apply bind_ok in H as (pn & Hp & H). pose proof (resolve_valid _ _ _ Hp) as V.
  apply bind_ok in H as ([[[[n m] W] idx] names] & Ha & H). apply guard_ok in H as [Hn H]. apply Nat.eqb_eq in Hn.
  pose proof (align_fits _ _ _ _ _ _ _ Hf Ha Hn) as F. destruct (align_ok _ _ _ _ _ _ _ Ha) as (_ & Em & En & EW & Ei & _). subst m names W n.
  rewrite metrics_of_core in H by auto. assert (Hd : dm <> DOther) by (intros ->; discriminate).
  split; auto. split; auto. split; auto. exists pn. split; [exact Hp|].
  assert (HM : forall X q, valid q (sc_T sc) -> metrics_of argsort (sc_T sc) (sc_N sc) (List.length (names_of w)) X (aligned_matrix w (sc_cols sc)) q conf dm =
     Ok (metrics_core argsort (sc_T sc) (width w) (book w (sc_cols sc) (sc_N sc) X) q conf dm)).
  { intros X q Vq. rewrite metrics_of_core by auto. destruct dm; try reflexivity. congruence. }
  match type of H with bind ?m _ = _ => replace m with (Ok (metrics_core argsort (sc_T sc) (width w) (book w (sc_cols sc) (sc_N sc) (sc_X sc)) pn conf dm)) in H by (destruct dm; try reflexivity; congruence) end.
  cbn [bind] in H. apply bind_ok in H as (X & HX & H).
  assert (EI : match idx with Some _ => true | None => false end = is_some (labels_of w)) by exact Ei. rewrite EI in H.
  assert (GX : match tr with Some f => gives f sc X | None => X = sc_X sc end).
  { destruct tr as [f|]; [|congruence]. apply bind_ok in HX as ([[T' N'] Y] & EY & HX). apply guard_ok in HX as [Hs HX]. apply andb_true_iff in Hs as [Hs1 Hs2].
    apply Nat.eqb_eq in Hs1, Hs2. subst. apply guard_ok in HX as [Hfin HX]. injection HX as <-. exists Y. split; auto.
    intros t i Ht Hi. rewrite forallb_forall in Hfin. specialize (Hfin t). rewrite in_seq in Hfin. specialize (Hfin (conj (Nat.le_0_l _) Ht)).
    rewrite forallb_forall in Hfin. specialize (Hfin i). rewrite in_seq in Hfin. specialize (Hfin (conj (Nat.le_0_l _) Hi)). apply fin_val. exact Hfin. }
  split.
  - intros -> ->. injection H as <-. reflexivity.
  - intros Hor. exists X.
    assert (H' : (let* p_star := match pst with Some _ => resolve_probs pst (sc_T sc) | None => Ok pn end in
        let* st := metrics_of argsort (sc_T sc) (sc_N sc) (List.length (names_of w)) X (aligned_matrix w (sc_cols sc)) p_star conf dm in
        Ok (Out (names_of w) (is_some (labels_of w)) (py_round (conf * 100)) (metrics_core argsort (sc_T sc) (width w) (book w (sc_cols sc) (sc_N sc) (sc_X sc)) pn conf dm)
             (Some st) (match pst with Some _ => Some (kl_divergence p_star pn) | None => None end) "stress"%string)) = Ok o).
    { destruct pst; [exact H|]. destruct tr; [exact H|]. destruct Hor; congruence. }
    clear H. apply bind_ok in H' as (ps & Hps & H).
    assert (Vs : valid ps (sc_T sc)) by (destruct pst; [eapply resolve_valid; eauto|injection Hps as <-; auto]).
    rewrite HM in H by auto. cbn [bind] in H. injection H as <-. exists ps. split; auto. split; [destruct pst; [auto|congruence]|].
    destruct pst; reflexivity.
Qed.

Lemma stress_total argsort w sc p pst tr conf dm pn : frame_ok sc -> 0 < conf < 1 -> dm <> DOther -> fits w sc -> resolve_probs p (sc_T sc) = Ok pn ->
  (pst = None -> tr = None -> stress_test argsort w sc p pst tr conf dm = Ok (out_of argsort w sc pn None false conf dm)) /\
  (forall X ps, pst <> None \/ tr <> None ->
     (match tr with Some f => gives f sc X | None => X = sc_X sc end) ->
     (match pst with Some _ => resolve_probs pst (sc_T sc) = Ok ps | None => ps = pn end) ->
     stress_test argsort w sc p pst tr conf dm = Ok (out_of argsort w sc pn (Some (X, ps)) (is_some pst) conf dm)).
Proof.
  intros Hf Hc Hd HF Hp. pose proof (resolve_valid _ _ _ Hp) as V. destruct (align_total w sc Hf HF) as (idx & Ha & Ei).
  assert (HM : forall X q, valid q (sc_T sc) -> metrics_of argsort (sc_T sc) (sc_N sc) (width w) X (aligned_matrix w (sc_cols sc)) q conf dm =
     Ok (metrics_core argsort (sc_T sc) (width w) (book w (sc_cols sc) (sc_N sc) X) q conf dm)).
  { intros X q Vq. rewrite metrics_of_core by auto. destruct dm; try reflexivity. congruence. }
  assert (EI : match idx with Some _ => true | None => false end = is_some (labels_of w)) by exact Ei.
  assert (HG : forall (k : res stress_out), guard (Rltb 0 conf && Rltb conf 1) ValueError k = k).
  { intros k. rewrite (proj2 (Rltb_true 0 conf)), (proj2 (Rltb_true conf 1)) by lra. reflexivity. }
  split.
  - intros -> ->. unfold stress_test. cbv zeta. rewrite HG, Hp. cbn [bind]. rewrite Ha. cbn [bind]. rewrite Nat.eqb_refl. cbn [guard]. rewrite HM by auto. cbn [bind]. rewrite EI. reflexivity.
  - intros X ps Hor HX Hps. unfold stress_test. cbv zeta. rewrite HG, Hp. cbn [bind]. rewrite Ha. cbn [bind]. rewrite Nat.eqb_refl. cbn [guard]. rewrite HM by auto. cbn [bind]. rewrite EI.
    assert (Vs : valid ps (sc_T sc)) by (destruct pst; [eapply resolve_valid; eauto|subst; auto]).
    destruct tr as [f|].
    + destruct HX as (Z & EZ & HZ). rewrite EZ. cbn [bind]. rewrite !Nat.eqb_refl. cbn [andb guard].
      replace (forallb (fun t => forallb (fun i => p_fin (Z t i)) (seq 0 (sc_N sc))) (seq 0 (sc_T sc))) with true.
      2:{ symmetry. apply forallb_forall. intros t Ht. apply in_seq in Ht. apply forallb_forall. intros i Hi. apply in_seq in Hi. rewrite HZ by lia. reflexivity. }
      cbn [guard bind].
      assert (EB : metrics_core argsort (sc_T sc) (width w) (book w (sc_cols sc) (sc_N sc) (fun t i => val (Z t i))) ps conf dm =
                   metrics_core argsort (sc_T sc) (width w) (book w (sc_cols sc) (sc_N sc) X) ps conf dm).
      { apply core_book_ext. intros t i Ht Hi. rewrite HZ by auto. reflexivity. }
      destruct pst; [rewrite Hps|subst ps]; cbn [bind]; rewrite HM by auto; cbn [bind]; unfold out_of; rewrite EB; reflexivity.
    + subst X. cbn [bind]. destruct pst as [l|]; [|destruct Hor; congruence]. rewrite Hps. cbn [bind]. rewrite HM by auto. reflexivity.
Qed.
