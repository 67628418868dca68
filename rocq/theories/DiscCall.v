(** Discrete allocation seen from the call. *)
From Verif Require Import QBase ProbModel DiscModel DiscSpec DiscProofs DiscMilp DiscApi.
Open Scope Q_scope.
Open Scope list_scope.
Arguments Qfloor : simpl never.
Arguments inject_Z : simpl never.


Lemma lookup_fin k l : lookup k (fin l) = match lookup k l with Some q => Some (Fin q) | None => None end.
Proof. induction l as [|[k' q] l IH]; simpl; [reflexivity|]. destruct (String.eqb k k'); auto. Qed.

Lemma filter_fin l : filter (fun kw => negb (fl_close0 (snd kw))) (fin l) = fin (filter (fun kw => negb (isclose (snd kw) 0)) l).
Proof. induction l as [|[k q] l IH]; simpl; [reflexivity|]. destruct (isclose q 0); simpl; rewrite IH; reflexivity. Qed.

Lemma pd_sum_fin l : exists t, pd_sum (map snd (fin l)) = Fin t /\ t == qsum (map snd l).
Proof.
  unfold pd_sum. induction l as [|[k q] l (t & E & H)]; simpl in *.
  - exists 0. split; [reflexivity|lra].
  - rewrite E. simpl. eexists. split; [reflexivity|]. rewrite H. lra.
Qed.

Lemma existsb_false {A} (f : A -> bool) l : existsb f l = false -> forall x, In x l -> f x = false.
Proof. intros H x Hx. destruct (f x) eqn:E; [|auto]. exfalso. assert (existsb f l = true) by (apply existsb_exists; eauto). congruence. Qed.


(** What validation delivers on finite arguments. *)
Lemma validated weights prices total lots v :
  NoDup (map fst weights) -> make_inputs (fin weights) (fin prices) (Fin total) lots = Ok v ->
  exists inp t, finite_inputs v = Some inp /\ good_inputs inp /\ in_total inp = total /\
    t == qsum (map snd (kept weights)) /\ 0 < t /\
    in_assets inp = map (fun kw => mkA (fst kw) (snd kw / t) (price_in prices (fst kw)) (lot_in lots (fst kw))) (kept weights) /\
    (in_shorts inp = true <-> exists k w, In (k, w) (kept weights) /\ w < 0).
Proof.
  intros HN. unfold make_inputs. rewrite filter_fin. fold (kept weights).
  destruct (Nat.eqb_spec (List.length (fin weights)) 0) as [|_]; [discriminate|].
  destruct (Nat.eqb_spec (List.length (fin prices)) 0) as [|_]; [discriminate|].
  destruct (forallb _ (fin weights)) eqn:Ef; [|discriminate]. cbn [negb].
  destruct (Nat.eqb_spec (List.length (fin (kept weights))) 0) as [|Hlen]; [discriminate|].
  destruct (existsb _ (fin (kept weights))) eqn:Ep; [discriminate|].
  destruct (fl_le0 (Fin total)) eqn:Et; [discriminate|].
  match goal with |- (if existsb ?f _ then _ else _) = _ -> _ => destruct (existsb f (fin (kept weights))) eqn:El end; [discriminate|].
  destruct (pd_sum_fin (kept weights)) as (t & Es & Ht). rewrite Es.
  destruct (Qle_bool t 0) eqn:Etp; [discriminate|]. intros H. injection H as <-.
  apply qleb_f in Etp. simpl in Et. apply qleb_f in Et.
  assert (Hprice : forall kw, In kw (kept weights) -> exists p, lookup (fst kw) prices = Some p /\ 0 < p).
  { intros kw Hkw. assert (Hf : In (fst kw, Fin (snd kw)) (fin (kept weights))) by (unfold fin; apply in_map_iff; exists kw; auto).
    pose proof (existsb_false _ _ Ep _ Hf) as Hp. cbn [fst] in Hp. rewrite lookup_fin in Hp.
    destruct (lookup (fst kw) prices) as [p|] eqn:E.
    - exists p. split; [auto|]. simpl in Hp. apply qleb_f in Hp. exact Hp.
    - exfalso. rewrite forallb_forall in Ef.
      assert (Hin : In (fst kw, Fin (snd kw)) (fin weights)).
      { unfold fin. apply in_map_iff. exists kw. split; [auto|]. apply filter_In in Hkw. apply Hkw. }
      specialize (Ef _ Hin). cbn [fst] in Ef. rewrite lookup_fin, E in Ef. discriminate. }
  assert (Hlot : forall kw, In kw (kept weights) -> (0 < lot_in lots (fst kw))%Z).
  { intros kw Hkw. assert (Hf : In (fst kw, Fin (snd kw)) (fin (kept weights))) by (unfold fin; apply in_map_iff; exists kw; auto).
    pose proof (existsb_false _ _ El _ Hf) as Hp. cbn [fst] in Hp. apply Z.leb_gt in Hp. exact Hp. }
  set (mk := fun kw : string * Q => mkA (fst kw) (snd kw / t) (price_in prices (fst kw)) (lot_in lots (fst kw))).
  exists (mkI (map mk (kept weights)) total (existsb (fun kw => fl_lt0 (snd kw)) (fin (kept weights)))), t.
  assert (Hsh : existsb (fun kw => fl_lt0 (snd kw)) (fin (kept weights)) = true <-> exists k w, In (k, w) (kept weights) /\ w < 0).
  { rewrite existsb_exists. split.
    - intros ([k x] & Hin & Hx). unfold fin in Hin. apply in_map_iff in Hin as ([k' q] & E & Hin). injection E as <- <-.
      simpl in Hx. apply qltb_t in Hx. eauto.
    - intros (k & w & Hin & Hw). exists (k, Fin w). split; [unfold fin; apply in_map_iff; exists (k, w); auto|].
      simpl. apply Qlt_bool_iff. exact Hw. }
  split; [|split; [|split; [reflexivity|split; [exact Ht|split; [exact Etp|split; [reflexivity|exact Hsh]]]]]].
  - unfold finite_inputs. cbn [v_total v_assets v_shorts].
    match goal with |- context [all_some fin_asset ?x] => assert (HA : all_some fin_asset x = Some (map mk (kept weights))) end.
    { clear - Hprice. induction (kept weights) as [|[k w] l IH]; [reflexivity|].
      cbn [fin map all_some]. destruct (Hprice (k, w) (or_introl eq_refl)) as (p & Ep & _). cbn [fst snd] in *.
      unfold fin_asset at 1. cbn [v_w v_price v_name v_lot fl_div]. rewrite lookup_fin, Ep.
      rewrite IH by (intros kw Hk; apply Hprice; right; auto). 
      assert (Emk : mk (k, w) = mkA k (w / t) p (lot_in lots k)) by (unfold mk, price_in; cbn [fst snd]; rewrite Ep; reflexivity).
      rewrite Emk. reflexivity. }
    rewrite HA. reflexivity.
  - split; [exact Et|]. cbn [in_assets in_total in_shorts].
    assert (Hne : kept weights <> []).
    { intros E. rewrite E in Hlen. apply Hlen. reflexivity. }
    split; [intros E; apply map_eq_nil in E; congruence|].
    split; [|split; [|split]].
    + rewrite map_map. simpl. clear - HN. unfold kept. induction weights as [|[k w] l IH]; simpl; [constructor|].
      inversion HN; subst. destruct (isclose w 0); simpl; [auto|]. constructor; [|auto].
      intros Hin. apply H1. apply in_map_iff in Hin as (kw & <- & Hin). apply in_map. apply filter_In in Hin. apply Hin.
    + rewrite map_map. simpl. setoid_replace (qsum (map (fun x => snd x / t) (kept weights))) with (qsum (map snd (kept weights)) * / t).
      * rewrite <- Ht. apply Qmult_inv_r. lra.
      * rewrite <- qsum_scale, map_map. reflexivity.
    + intros a Ha. apply in_map_iff in Ha as (kw & <- & Hkw). simpl. split; [|apply Hlot; auto].
      destruct (Hprice kw Hkw) as (p & E & Hp). unfold price_in. rewrite E. exact Hp.
    + rewrite Hsh. split.
      * intros (k & w & Hin & Hw). exists (mk (k, w)). split; [apply in_map; auto|]. simpl.
        apply Qlt_shift_div_r; lra.
      * intros (a & Ha & Hw). apply in_map_iff in Ha as ([k w] & <- & Hin). exists k, w. split; [auto|]. simpl in Hw.
        destruct (Qlt_le_dec w 0) as [|Hge]; [auto|]. exfalso.
        assert (0 <= w / t) by (apply Qle_shift_div_l; lra). lra.
Qed.

(** ** Spending read off the reported shares *)
Lemma qsum_filter_zero (f : string * Z -> Q) raw : (forall k, f (k, 0%Z) == 0) ->
  qsum (map f (filter (fun ks => negb (snd ks =? 0)%Z) raw)) == qsum (map f raw).
Proof.
  intros H. induction raw as [|[k z] raw IH]; simpl; [lra|]. destruct (Z.eqb_spec z 0) as [->|]; simpl; rewrite IH; [|lra].
  specialize (H k). lra.
Qed.

Lemma spent_cost inp prices raw r : good_inputs inp ->
  (forall a, In a (in_assets inp) -> price_in prices (a_name a) = a_price a) ->
  Permutation (map fst raw) (map a_name (in_assets inp)) ->
  build_result inp raw = Ok r -> spent prices r == cost inp (held r).
Proof.
  intros (HV & _ & HN & _) Hp HP HB.
  assert (HNr : NoDup (map fst raw)) by (eapply Permutation_NoDup; [apply Permutation_sym, HP|exact HN]).
  destruct (build_result_l inp raw r HV HNr HB) as (A1 & A2 & _).
  unfold spent. rewrite A2, qsum_filter_zero by (intros k; simpl; change (inject_Z 0) with 0; lra).
  unfold cost.
  transitivity (qsum (map (fun k => inject_Z (share_of raw k) * price_in prices k) (map fst raw))).
  - rewrite map_map. apply qsum_ext. intros [k z] Hin. simpl. unfold share_of.
    rewrite (lookup_nodup k raw z HNr Hin). reflexivity.
  - rewrite (qsum_perm _ _ (Permutation_map _ HP)), map_map. apply qsum_ext. intros a Ha. rewrite A1, Hp by auto. reflexivity.
Qed.

(** Raw share vectors that the allocators hand over. *)
Definition lots_raw (inp : inputs) (raw : list (string * Z)) : Prop :=
  Permutation (map fst raw) (map a_name (in_assets inp)) /\
  forall a, In a (in_assets inp) -> exists m, share_of raw (a_name a) = (m * a_lot a)%Z.

Lemma mip_raw solver pen mc inp r : good_inputs inp -> 
  solver_shape solver ->
  allocate_mip solver pen mc inp = Ok r ->
  exists raw, lots_raw inp raw /\ build_result inp raw = Ok r.
Proof.
  intros (HV & Hne & HN & _) Hlen. unfold allocate_mip.
  destruct (Nat.eqb_spec (List.length (in_assets inp)) 0); [discriminate|].
  destruct (solver _) as [x|] eqn:E; [|discriminate]. apply Hlen in E.
  cbn [build_milp p_c] in E. rewrite !app_length, zeros_length, repeat_length in E. simpl in E.
  set (ks := map rint (firstn (List.length (in_assets inp)) x)).
  assert (HL : List.length ks = List.length (in_assets inp)) by (unfold ks; rewrite map_length, firstn_length; lia).
  intros HB. eexists. split; [|exact HB]. split.
  - rewrite map2_fst by auto. apply Permutation_refl.
  - intros a Ha. destruct (share_map2_lots (in_assets inp) ks a HN HL Ha) as (i & _ & _ & ->). eauto.
Qed.

Lemma greedy_lots_raw inp sort mi s : good_inputs inp -> in_shorts inp = false -> sorts_desc sort ->
  greedy_loop (in_total inp) (sort (in_assets inp)) mi = Some s -> lots_raw inp (pos_shares (g_pos s)).
Proof.
  intros HG Hs Hsort HL. destruct (greedy_raw inp sort mi HG Hs Hsort) as (s' & E & R). rewrite HL in E. injection E as <-.
  destruct R as (R1 & R2 & _). split; [|exact R2].
  pose proof HG as (HV & Hne & HN & Hw & Hok & Hsh). destruct (Hsort (in_assets inp)) as [HP _].
  destruct (greedy_loop_spec (in_total inp) (sort (in_assets inp)) mi HV) as (s' & S1 & S2 & _).
  - intros E. apply Permutation_sym in HP. rewrite E in HP. apply Permutation_sym, Permutation_nil in HP. congruence.
  - intros a Ha. apply (Permutation_in _ HP) in Ha. split; [apply Hok; auto|].
    destruct (Qlt_le_dec (a_w a) 0) as [Hlt|]; [|auto]. exfalso. assert (in_shorts inp = true) by (apply Hsh; eauto). congruence.
  - rewrite <- Hw. apply qsum_perm, Permutation_map, HP.
  - rewrite HL in S1. injection S1 as <-. rewrite pos_shares_fst, (inv_assets _ _ _ S2). apply Permutation_map, HP.
Qed.

(** ** Termination *)
Lemma greedy_some inp sort mip mi fm : good_inputs inp -> sorts_desc sort ->
  exists o, allocate_greedy sort mip inp mi fm = Some o.
Proof.
  intros HG Hsort. unfold allocate_greedy. destruct (parse_mode fm); [|eauto].
  destruct (in_shorts inp) eqn:Hs; [eauto|].
  destruct (greedy_raw inp sort mi HG Hs Hsort) as (s & E & _). rewrite E. eauto.
Qed.

(** ** Every successful call goes through [_build_result] on whole lots *)
Lemma greedy_ok_raw inp sort solver pen mc mi fm r : good_inputs inp -> sorts_desc sort ->
  solver_shape solver ->
  allocate_greedy sort (allocate_mip solver pen mc) inp mi fm = Some (Ok r) ->
  exists raw, lots_raw inp raw /\ build_result inp raw = Ok r.
Proof.
  intros HG Hsort Hlen. unfold allocate_greedy. destruct (parse_mode fm) as [m|]; [|discriminate].
  destruct (in_shorts inp) eqn:Hs.
  - intros H. injection H as H. eapply mip_raw; eauto.
  - destruct (greedy_loop (in_total inp) (sort (in_assets inp)) mi) as [s|] eqn:E; [|discriminate].
    pose proof (greedy_lots_raw inp sort mi s HG Hs Hsort E) as HR. intros H. injection H as H.
    destruct (match m with MNone => false | _ => _ end).
    + destruct (allocate_mip solver pen mc inp) as [r'|] eqn:Em.
      * injection H as ->. eapply mip_raw; eauto.
      * destruct m; try discriminate; eauto.
    + eauto.
Qed.

Lemma discretize_cases weights prices total lots sort solver meth mi fm pen mc o :
  NoDup (map fst weights) ->
  discretize_weights sort solver weights prices total meth lots mi fm pen mc = o ->
  (exists e, o = Some (Err e)) \/
  (exists inp t, good_inputs inp /\ in_total inp = total /\ t == qsum (map snd (kept weights)) /\ 0 < t /\
    in_assets inp = map (fun kw => mkA (fst kw) (snd kw / t) (price_in prices (fst kw)) (lot_in lots (fst kw))) (kept weights) /\
    (in_shorts inp = true <-> exists k w, In (k, w) (kept weights) /\ w < 0) /\
    ((In meth ["greedy"; "rounddown"]%string /\ o = allocate_greedy sort (allocate_mip solver pen mc) inp mi fm) \/
     (In meth ["milp"; "mip"; "integer"; "lp"]%string /\ o = Some (allocate_mip solver pen mc inp)))).
Proof.
  intros HN <-. unfold discretize_weights. change (map (fun kq : string * Q => (fst kq, Fin (snd kq)))) with fin.
  destruct (make_inputs (fin weights) (fin prices) (Fin total) lots) as [v|e] eqn:E; [|left; eauto].
  destruct (validated weights prices total lots v HN E) as (inp & t & E1 & E2 & E3 & E4 & E5 & E6 & E7).
  rewrite E1.
  repeat match goal with |- context [String.eqb meth ?s] => destruct (String.eqb_spec meth s); [subst meth|] end; cbn [orb].
  1-6: right; exists inp, t; repeat (split; [assumption|]).
  1-2: left; split; [simpl; tauto|reflexivity].
  1-4: right; split; [simpl; tauto|reflexivity].
  left. eauto.
Qed.

Lemma discretize_ok weights prices total lots sort solver meth mi fm pen mc r :
  NoDup (map fst weights) -> sorts_desc sort ->
  solver_shape solver ->
  discretize_weights sort solver weights prices total meth lots mi fm pen mc = Some (Ok r) ->
  exists inp t raw, good_inputs inp /\ in_total inp = total /\ t == qsum (map snd (kept weights)) /\ 0 < t /\
    in_assets inp = map (fun kw => mkA (fst kw) (snd kw / t) (price_in prices (fst kw)) (lot_in lots (fst kw))) (kept weights) /\
    lots_raw inp raw /\ build_result inp raw = Ok r.
Proof.
  intros HN Hsort Hlen H. apply discretize_cases in H; auto.
  destruct H as [(e & H)|(inp & t & E2 & E3 & E4 & E5 & E6 & E7 & [[_ H]|[_ H]])]; [discriminate| |].
  - symmetry in H. apply greedy_ok_raw in H as (raw & R1 & R2); auto. exists inp, t, raw. auto 10.
  - injection H as H. symmetry in H. apply mip_raw in H as (raw & R1 & R2); auto. exists inp, t, raw. auto 10.
Qed.

Lemma terminates weights prices total lots sort solver meth mi fm pen mc :
  NoDup (map fst weights) -> sorts_desc sort ->
  exists o, discretize_weights sort solver weights prices total meth lots mi fm pen mc = Some o.
Proof.
  intros HN Hsort. destruct (discretize_weights sort solver weights prices total meth lots mi fm pen mc) as [o|] eqn:H; [eauto|].
  apply discretize_cases in H; auto.
  destruct H as [(e & H)|(inp & t & E2 & E3 & E4 & E5 & E6 & E7 & [[_ H]|[_ H]])]; try discriminate.
  destruct (greedy_some inp sort (allocate_mip solver pen mc) mi fm E2 Hsort) as (o & Ho). congruence.
Qed.

Lemma kept_price (prices : list (string * Q)) lots t weights a :
  In a (map (fun kw => mkA (fst kw) (snd kw / t) (price_in prices (fst kw)) (lot_in lots (fst kw))) (kept weights)) ->
  price_in prices (a_name a) = a_price a.
Proof. intros H. apply in_map_iff in H as (kw & <- & _). reflexivity. Qed.

Lemma discretize_accounting weights prices total lots sort solver meth mi fm pen mc r :
  NoDup (map fst weights) -> sorts_desc sort ->
  solver_shape solver ->
  discretize_weights sort solver weights prices total meth lots mi fm pen mc = Some (Ok r) ->
  0 < total /\ leftover_ok prices total r /\ proper_shares weights lots r /\
  Forall2 (fun kw ka => fst ka = fst kw /\ snd ka == inject_Z (shares_of r (fst kw)) * price_in prices (fst kw) / total) (kept weights) (r_achieved r) /\
  r_tracking r == qsum (map (fun kw => Qabs (snd kw / qsum (map snd (kept weights)) -
       inject_Z (shares_of r (fst kw)) * price_in prices (fst kw) / total)) (kept weights)) /\
  qsum (map snd (r_achieved r)) == spent prices r / total.
Proof.
  intros HN Hsort Hlen H. apply discretize_ok in H as (inp & t & raw & G & T & Ht & Htp & EA & [R1 R2] & HB); auto.
  pose proof G as (HV & Hne & HNn & Hw & Hok & Hsh). subst total.
  assert (HNr : NoDup (map fst raw)) by (eapply Permutation_NoDup; [apply Permutation_sym, R1|exact HNn]).
  destruct (build_result_l inp raw r HV HNr HB) as (A1 & A2 & A3 & A4 & A5 & A6).
  assert (HS : spent prices r == cost inp (held r)).
  { eapply spent_cost; eauto. intros a Ha. rewrite EA in Ha. eapply kept_price; eauto. }
  split; [exact HV|]. split; [|split; [|split; [|split]]].
  - split; [exact A5|]. rewrite HS. exact A6.
  - split.
    + rewrite A2. clear - HNr. induction raw as [|[k z] raw IH]; simpl; [constructor|]. inversion HNr; subst.
      destruct (z =? 0)%Z; simpl; [auto|]. constructor; [|auto]. intros Hin. apply H1.
      apply in_map_iff in Hin as (x & <- & Hin). apply filter_In in Hin. apply in_map, Hin.
    + intros k z Hin. rewrite A2 in Hin. apply filter_In in Hin as [Hin Hz]. simpl in Hz. apply negb_true_iff, Z.eqb_neq in Hz.
      assert (Hk : In k (map a_name (in_assets inp))).
      { eapply Permutation_in; [exact R1|]. apply in_map_iff. exists (k, z). auto. }
      apply in_map_iff in Hk as (a & <- & Ha). destruct (R2 a Ha) as (m & Hm).
      unfold share_of in Hm. rewrite (lookup_nodup _ _ _ HNr Hin) in Hm.
      rewrite EA in Ha. apply in_map_iff in Ha as ([k w] & <- & Hk). simpl in *.
      apply filter_In in Hk as [Hk1 Hk2]. simpl in Hk2. split; [|split; [exact Hz|eauto]].
      exists w. split; [exact Hk1|]. intros Hc. rewrite Hc in Hk2. discriminate.
  - rewrite A3, EA, map_map. simpl.
    assert (F : forall l : list (string * Q), Forall2 (fun kw ka => fst ka = fst kw /\ snd ka == inject_Z (shares_of r (fst kw)) * price_in prices (fst kw) / in_total inp)
       l (map (fun x => (fst x, inject_Z (held r (mkA (fst x) (snd x / t) (price_in prices (fst x)) (lot_in lots (fst x)))) * price_in prices (fst x) / in_total inp)) l)).
    { induction l as [|x l IH]; simpl; constructor; auto. split; [reflexivity|]. cbn [snd]. reflexivity. }
    apply F.
  - rewrite A4. unfold tracking. rewrite EA, map_map. apply qsum_ext. intros [k w] _. cbn [a_w a_price fst snd].
    assert (E : w / t == w / qsum (map snd (kept weights))) by (rewrite Ht; reflexivity).
    apply Qabs_wd. unfold Qminus. apply Qplus_comp; [exact E|]. reflexivity.
  - rewrite HS, A3, map_map. unfold cost. cbn [snd]. unfold Qdiv. rewrite <- qsum_scale, map_map. reflexivity.
Qed.
