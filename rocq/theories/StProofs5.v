(** What stress tests, composite stresses and performance reports report. *)
From Verif Require Import RBase QpBase SortLib OptModel ConsModel DistModel ProbRModel ProbRSpec ProbRProofs RiskModel RiskSpec RiskProofs MomSpec MomProofs BlModel EpModel EpSpec StModel FvSpec FvProofs FvProofs5 StSpec StProofs StProofs2 StProofs3 StProofs4.
From Verif Require MomModel.
Open Scope R_scope.
Open Scope list_scope.

Lemma core_measures argsort w sc X q conf dm : sorts Rle 0 argsort -> frame_ok sc -> fits w sc -> prob_vector q (sc_T sc) -> 0 < conf < 1 ->
  measures_book (metrics_core argsort (sc_T sc) (width w) (book w (sc_cols sc) (sc_N sc) X) q conf dm) w sc X q conf dm.
Proof.
  intros Hs Hf HF Hq Hc. exists (col (sc_T sc) (book w (sc_cols sc) (sc_N sc) X)). split.
  - intros j _. destruct HF as (_ & HL & _). destruct (book_pnl_col w sc X j HL Hf) as (h & H1 & H2). exists h. auto.
  - apply core_reports; auto.
Qed.

Lemma stress_reports_l argsort w sc p pst tr conf dm o : sorts Rle 0 argsort -> frame_ok sc -> clean p -> clean pst ->
  stress_test argsort w sc p pst tr conf dm = Ok o ->
  so_names o = names_of w /\
  exists q, in_force p (sc_T sc) q /\ prob_vector q (sc_T sc) /\ measures_book (so_nom o) w sc (sc_X sc) q conf dm /\
  (pst = None -> tr = None -> so_stress o = None /\ so_kl o = None) /\
  (pst <> None \/ tr <> None -> exists X qs st, so_stress o = Some st /\
     match tr with Some f => gives f sc X | None => X = sc_X sc end /\
     match pst with Some _ => in_force pst (sc_T sc) qs /\ so_kl o = Some (kl_divergence qs q) | None => qs = q /\ so_kl o = None end /\
     prob_vector qs (sc_T sc) /\ measures_book st w sc X qs conf dm).
Proof.
  intros Hs Hf Cp Cs H. destruct (stress_inv _ _ _ _ _ _ _ _ _ Hf H) as (Hc & Hd & HF & q & Hp & H1 & H2).
  destruct (resolve_in_force _ _ _ Cp Hp) as [I V].
  assert (C : (pst = None /\ tr = None) \/ (pst <> None \/ tr <> None)).
  { destruct pst; [right; left; discriminate|]. destruct tr; [right; right; discriminate|left; auto]. }
  destruct C as [[C1 C2]|C].
  - rewrite (H1 C1 C2). split; [reflexivity|]. exists q. split; auto. split; auto. split; [apply core_measures; auto|]. split; [split; reflexivity|].
    intros [N|N]; congruence.
  - destruct (H2 C) as (X & qs & HX & Hqs & ->). split; [reflexivity|]. exists q. split; auto. split; auto. split; [apply core_measures; auto|]. split; [intros -> ->; destruct C; congruence|].
    intros _. exists X, qs, (metrics_core argsort (sc_T sc) (width w) (book w (sc_cols sc) (sc_N sc) X) qs conf dm). split; [reflexivity|]. split; auto.
    assert (V' : prob_vector qs (sc_T sc)) by (destruct pst; [eapply resolve_in_force; eauto|subst; auto]).
    split; [|split; [auto|apply core_measures; auto]].
    destruct pst; cbn [is_some out_of so_kl]; split; auto. apply (resolve_in_force _ _ _ Cs Hqs).
Qed.

Lemma stress_layout_l argsort w sc p pst tr conf dm o : frame_ok sc -> stress_test argsort w sc p pst tr conf dm = Ok o ->
  so_named o = is_some (labels_of w) /\ so_pct o = py_round (conf * 100) /\ List.length (m_mean (so_nom o)) = List.length (names_of w) /\
  (so_stress o <> None -> so_suffix o = "stress"%string).
Proof.
  intros Hf H. destruct (stress_inv _ _ _ _ _ _ _ _ _ Hf H) as (Hc & Hd & HF & q & Hp & H1 & H2).
  assert (C : (pst = None /\ tr = None) \/ (pst <> None \/ tr <> None)).
  { destruct pst; [right; left; discriminate|]. destruct tr; [right; right; discriminate|left; auto]. }
  destruct C as [[C1 C2]|C]; [rewrite (H1 C1 C2)|destruct (H2 C) as (X & qs & HX & Hqs & ->)]; cbn [out_of so_named so_pct so_nom so_stress so_suffix metrics_core m_mean];
  rewrite map_length, seq_length; repeat split; auto. intros N. congruence.
Qed.

(** Stressing with the nominal probabilities and scenarios. *)
Lemma stress_null_l argsort w sc p conf dm o : frame_ok sc -> stress_test argsort w sc (Some p) (Some p) None conf dm = Ok o ->
  so_stress o = Some (so_nom o) /\ so_kl o = Some 0.
Proof.
  intros Hf H. destruct (stress_inv _ _ _ _ _ _ _ _ _ Hf H) as (Hc & Hd & HF & q & Hp & H1 & H2).
  destruct H2 as (X & qs & -> & Hqs & ->); [left; discriminate|]. assert (qs = q) by congruence. subst. split; [reflexivity|].
  cbn [out_of so_kl is_some]. rewrite kl_refl. reflexivity.
Qed.

(** Relative entropy in the output. *)
Lemma stress_kl_l argsort w sc p pst tr conf dm o d : frame_ok sc -> stress_test argsort w sc p (Some pst) tr conf dm = Ok o -> so_kl o = Some d ->
  exists q qs, resolve_probs p (sc_T sc) = Ok q /\ resolve_probs (Some pst) (sc_T sc) = Ok qs /\ d = kl_divergence qs q.
Proof.
  intros Hf H Hd. destruct (stress_inv _ _ _ _ _ _ _ _ _ Hf H) as (Hc & Hdm & HF & q & Hp & H1 & H2).
  destruct H2 as (X & qs & HX & Hqs & ->); [left; discriminate|]. exists q, qs. split; auto. split; auto. cbn in Hd. congruence.
Qed.
Lemma prob_distribution q T : prob_vector q T -> distribution q.
Proof. intros (_ & A & B). split; auto. Qed.
Lemma stress_kl_sign_l argsort w sc p pst tr conf dm o d : frame_ok sc -> clean p -> clean (Some pst) ->
  stress_test argsort w sc p (Some pst) tr conf dm = Ok o -> so_kl o = Some d ->
  exists q qs, in_force p (sc_T sc) q /\ in_force (Some pst) (sc_T sc) qs /\
    - (INR (sc_T sc) / 10 ^ 16) <= d <= (1 + INR (sc_T sc) / 10 ^ 16) * ln (10 ^ 16) /\
    ((forall x, In x q -> / 10 ^ 16 <= x) -> 0 <= d /\ (d = 0 <-> qs = q) /\
       ((forall x, In x qs -> / 10 ^ 16 <= x) -> d = rel_entropy qs q)).
Proof.
  intros Hf Cp Cs H Hd. destruct (stress_kl_l _ _ _ _ _ _ _ _ _ _ Hf H Hd) as (q & qs & Hq & Hqs & ->).
  destruct (resolve_in_force _ _ _ Cp Hq) as [I V]. destruct (resolve_in_force _ _ _ Cs Hqs) as [I' V'].
  exists q, qs. split; auto. split; auto. pose proof V as (L & _). pose proof V' as (L' & _).
  assert (E : List.length qs = List.length q) by congruence. pose proof (prob_distribution _ _ V). pose proof (prob_distribution _ _ V').
  split.
  - pose proof (kl_almost qs q E H1 H0) as K1. pose proof (kl_bounded qs q E H1) as K2. rewrite L in K1. rewrite L' in K2. unfold kl_eps in *. unfold Rdiv. split; [exact K1|exact K2].
  - intros Hm. destruct (kl_nonneg qs q E H1 H0 Hm) as [K1 K2]. split; auto. split; auto. intros Hm'. apply kl_exact; auto.
Qed.

(** ** Linear maps *)
Lemma dot_affine N X a b h : dot N (fun i => X i * a + b i) h = a * dot N X h + dot N b h.
Proof. unfold dot. rewrite <- sumn_scale, <- sumn_plus. apply sumn_ext. intros; ring. Qed.
Lemma linear_gives sh s sc Y : gives (linear_map sh s None) sc Y -> sh <> ShOther /\ (forall n b, sh = ShVec n b -> n = sc_N sc) /\
  forall t i, (t < sc_T sc)%nat -> (i < sc_N sc)%nat -> Y t i = sc_X sc t i * scale_of s + shift_vec sh i.
Proof.
  intros (Z & E & HZ). unfold linear_map in E. cbn [bind] in E. destruct sh as [|n b|]; cbn [bind] in E; [| |discriminate].
  - injection E as <-. split; [discriminate|]. split; [discriminate|]. intros t i Ht Hi. specialize (HZ t i Ht Hi). injection HZ as <-. destruct s; cbn; ring.
  - destruct (Nat.eqb_spec n (sc_N sc)); cbn [guard bind] in E; [|discriminate]. injection E as <-. split; [discriminate|]. split; [congruence|].
    intros t i Ht Hi. specialize (HZ t i Ht Hi). injection HZ as <-. destruct s; cbn; ring.
Qed.
Lemma linear_accepts sh s sc : sh <> ShOther -> (forall n b, sh = ShVec n b -> n = sc_N sc) ->
  gives (linear_map sh s None) sc (fun t i => sc_X sc t i * scale_of s + shift_vec sh i).
Proof.
  intros H1 H2. unfold linear_map. destruct sh as [|n b|]; [| |congruence]; cbn [bind].
  - eexists. split; [reflexivity|]. intros. destruct s; cbn; f_equal; ring.
  - rewrite (H2 n b eq_refl). unfold gives, linear_map. cbn [bind]. rewrite Nat.eqb_refl. cbn [guard bind]. eexists. split; [reflexivity|]. intros. destruct s; cbn; f_equal; ring.
Qed.

Lemma linear_effect_l argsort w sc p sh s conf dm o : sorts Rle 0 argsort -> frame_ok sc -> clean p -> 0 < scale_of s ->
  stress_test argsort w sc p None (Some (linear_map sh s None)) conf dm = Ok o ->
  exists st, so_stress o = Some st /\ so_kl o = None /\ m_ens st = m_ens (so_nom o) /\
  forall j, (j < List.length (names_of w))%nat -> exists h : vec, (forall i, (i < sc_N sc)%nat -> holding w (sc_cols sc) i j (h i)) /\
    let b := sumn (sc_N sc) (fun i => shift_vec sh i * h i) in
    let b' := match dm with DBool true => 0 | _ => b end in
    nth j (m_mean st) 0 = scale_of s * nth j (m_mean (so_nom o)) 0 + b /\
    nth j (m_sd st) 0 = scale_of s * nth j (m_sd (so_nom o)) 0 /\
    nth j (m_var st) 0 = scale_of s * nth j (m_var (so_nom o)) 0 - b' /\
    nth j (m_cvar st) 0 = scale_of s * nth j (m_cvar (so_nom o)) 0 - b'.
Proof.
  intros Hs Hf Cp Ha H. destruct (stress_inv _ _ _ _ _ _ _ _ _ Hf H) as (Hc & Hd & HF & q & Hp & H1 & H2).
  destruct (resolve_in_force _ _ _ Cp Hp) as [I V]. destruct H2 as (X & qs & HX & -> & ->); [right; discriminate|].
  destruct (linear_gives _ _ _ _ HX) as (_ & _ & EX).
  set (F := book w (sc_cols sc) (sc_N sc) (sc_X sc)). set (G := book w (sc_cols sc) (sc_N sc) X).
  exists (metrics_core argsort (sc_T sc) (width w) G q conf dm). split; [reflexivity|]. split; [reflexivity|]. split; [reflexivity|].
  intros j Hj. destruct HF as (_ & HL & _). exists (fun i => aligned_matrix w (sc_cols sc) i j). split.
  { intros i Hi. apply aligned_holding; auto. intros c Hcc. rewrite (Hf c Hcc). exact Hi. }
  cbn [out_of so_nom]. fold F. cbv zeta. set (b := sumn (sc_N sc) (fun i => shift_vec sh i * aligned_matrix w (sc_cols sc) i j)).
  pose proof (core_reports argsort (sc_T sc) (width w) F q conf dm Hs V Hc) as R1. pose proof (core_reports argsort (sc_T sc) (width w) G q conf dm Hs V Hc) as R2.
  destruct R1 as (_ & _ & _ & _ & R1 & _). destruct R2 as (_ & _ & _ & _ & R2 & _). specialize (R1 j Hj). specialize (R2 j Hj).
  assert (EG : col (sc_T sc) G j = map (fun y => scale_of s * y + b) (col (sc_T sc) F j)).
  { apply col_affine. intros t Ht. unfold G, F, book. rewrite (dot_ext _ (X t) _ (fun i => sc_X sc t i * scale_of s + shift_vec sh i) (fun i => aligned_matrix w (sc_cols sc) i j)) by auto.
    rewrite dot_affine. reflexivity. }
  rewrite EG in R2. apply (measured_affine q (col (sc_T sc) F j) conf dm); auto. rewrite col_length. exact V.
Qed.

(** A matrix transform is a change of weights. *)
Lemma matrix_effect_l argsort n m W sc p B conf dm o : frame_ok sc -> sc_cols sc = None ->
  stress_test argsort (WtMat n m W) sc p None (Some (linear_map ShNone None (Some (n, n, B)))) conf dm = Ok o ->
  exists o', stress_test argsort (WtMat n m (fun i j => sumn n (fun k => B k i * W k j))) sc p None None conf dm = Ok o' /\
  so_stress o = Some (so_nom o').
Proof.
  intros Hf HN H. destruct (stress_inv _ _ _ _ _ _ _ _ _ Hf H) as (Hc & Hd & HF & q & Hp & H1 & H2).
  destruct H2 as (X & qs & HX & -> & ->); [right; discriminate|]. pose proof HF as (_ & _ & HR). rewrite HN in HR. cbn in HR. subst n.
  set (w' := WtMat (sc_N sc) m (fun i j => sumn (sc_N sc) (fun k => B k i * W k j))).
  assert (HF' : fits w' sc). { split; [discriminate|]. rewrite HN. split; cbn; auto. }
  exists (out_of argsort w' sc q None false conf dm). split; [apply stress_total; auto|].
  cbn [out_of so_stress so_nom]. f_equal. unfold width. cbn [names_of w']. apply metrics_core_ext. intros t j Ht Hj.
  destruct HX as (Z & E & HZ). unfold linear_map in E. rewrite Nat.eqb_refl in E. cbn [guard bind] in E. injection E as <-.
  unfold book, aligned_matrix. rewrite HN. cbn [labels_of wentry w']. unfold dot.
  rewrite (sumn_ext (sc_N sc) _ (fun i => sumn (sc_N sc) (fun k => sc_X sc t k * B i k * W i j))).
  - rewrite sumn_swap. apply sumn_ext. intros k Hk. rewrite <- sumn_scale. apply sumn_ext. intros; ring.
  - intros i Hi. specialize (HZ t i Ht Hi). injection HZ as <-. rewrite <- sumn_scale_r. reflexivity.
Qed.
