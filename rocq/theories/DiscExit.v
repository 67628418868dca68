(** Exit condition of the greedy loop, the fallback, and MILP optimality. *)
From Verif Require Import QBase ProbModel DiscModel DiscSpec DiscProofs DiscMilp DiscApi DiscCall.
Open Scope Q_scope.
Open Scope list_scope.
Arguments Qfloor : simpl never.
Arguments inject_Z : simpl never.

Lemma good_sorted inp sort : good_inputs inp -> in_shorts inp = false -> sorts_desc sort ->
  sort (in_assets inp) <> [] /\ (forall a, In a (sort (in_assets inp)) -> ok_asset a /\ 0 <= a_w a) /\
  qsum (map a_w (sort (in_assets inp))) == 1 /\ List.length (sort (in_assets inp)) = List.length (in_assets inp).
Proof.
  intros (HV & Hne & HN & Hw & Hok & Hsh) Hs Hsort. destruct (Hsort (in_assets inp)) as [HP _].
  split; [|split; [|split]].
  - intros E. apply Permutation_sym in HP. rewrite E in HP. apply Permutation_sym, Permutation_nil in HP. congruence.
  - intros a Ha. apply (Permutation_in _ HP) in Ha. split; [apply Hok; auto|].
    destruct (Qlt_le_dec (a_w a) 0) as [Hlt|]; [|auto]. exfalso. assert (in_shorts inp = true) by (apply Hsh; eauto). congruence.
  - rewrite <- Hw. apply qsum_perm, Permutation_map, HP.
  - apply Permutation_length, HP.
Qed.

Lemma step_exit V s s' : step V s = inr s' ->
  qmaximum (g_last s') <= tol \/ forallb p_unaff (g_pos s') = true.
Proof.
  unfold step. cbn [g_pos g_cash g_iter g_break g_last].
  set (ds := map (deficit V) (g_pos s)).
  destruct (Qle_bool (qmaximum ds) tol) eqn:Em.
  - intros H. injection H as <-. left. apply qleb_t in Em. exact Em.
  - set (k := argmax ds).
    assert (UN : forall X : Prop, ((if forallb p_unaff (mark k (g_pos s))
              then inr (mkG (mark k (g_pos s)) (g_cash s) (g_iter s) ds true)
              else inl (mkG (mark k (g_pos s)) (g_cash s) (g_iter s) ds false) : gstate + gstate) = inr s' ->
       forallb p_unaff (g_pos s') = true)).
    { intros _ H. destruct (forallb p_unaff (mark k (g_pos s))) eqn:E; [|discriminate]. injection H as <-. exact E. }
    specialize (UN True).
    destruct (Qlt_bool (g_cash s + tol) _); [auto|].
    match goal with |- context [(?z <=? 0)%Z] => destruct (z <=? 0)%Z end; [auto|discriminate].
Qed.

Lemma loop_exit V mc mi fuel s s' : loop fuel V mc mi s = Some s' ->
  g_cash s' + tol < mc \/ (mi <= g_iter s')%Z \/ qmaximum (g_last s') <= tol \/ forallb p_unaff (g_pos s') = true.
Proof.
  revert s. induction fuel as [|f IH]; intros s; simpl loop;
    destruct (Qle_bool mc (g_cash s + tol)) eqn:E1; cbn [andb].
  - destruct (Z.ltb_spec (g_iter s) mi); [discriminate|]. intros E; injection E as <-. auto.
  - apply qleb_f in E1. intros E; injection E as <-. auto.
  - destruct (Z.ltb_spec (g_iter s) mi).
    + destruct (step V s) eqn:Es; [apply IH|]. intros E; injection E as <-. apply step_exit in Es. tauto.
    + intros E; injection E as <-. auto.
  - apply qleb_f in E1. intros E; injection E as <-. auto.
Qed.

Lemma qmin_list_attained d l : qmin_list d l = d \/ In (qmin_list d l) l.
Proof. induction l as [|y l IH]; simpl; [auto|]. destruct (Qle_bool y _); [auto|]. destruct IH as [->|H]; auto. Qed.

Lemma min_cost_attained l : l <> [] -> exists a, In a l /\ min_cost_of l = lot_cost a.
Proof.
  destruct l as [|b l]; [congruence|]. intros _. unfold min_cost_of.
  destruct (qmin_list_attained (lot_cost b) (map lot_cost l)) as [H|H].
  - exists b. split; [now left|auto].
  - apply in_map_iff in H as (a & E & Ha). exists a. split; [now right|auto].
Qed.

(** The cap in force. *)
Definition cap (mi : option Z) (n : nat) : Z := match mi with Some m => m | None => default_iterations n end.

Lemma default_cap_large n : (n <> 0)%nat -> (2 * Z.of_nat n < default_iterations n)%Z.
Proof. unfold default_iterations. lia. Qed.

(** With a cap above two purchases per asset (the default one in particular) the loop stops only
    when nothing useful is affordable. *)
Lemma greedy_exit inp sort mi s : good_inputs inp -> in_shorts inp = false -> sorts_desc sort ->
  (2 * Z.of_nat (List.length (in_assets inp)) < cap mi (List.length (in_assets inp)))%Z ->
  greedy_loop (in_total inp) (sort (in_assets inp)) mi = Some s ->
  forall a, In a (in_assets inp) ->
    tol < a_w a - inject_Z (share_of (pos_shares (g_pos s)) (a_name a)) * a_price a / in_total inp -> g_cash s + tol < lot_cost a.
Proof.
  intros HG Hs Hsort Hcap HL. destruct (greedy_raw inp sort mi HG Hs Hsort) as (s' & E & R). rewrite HL in E. injection E as <-.
  destruct R as (R1 & R2 & R3 & R4 & R5 & R6 & [[_ R7]|R7]); [|exact R7]. exfalso.
  destruct (good_sorted inp sort HG Hs Hsort) as (G1 & G2 & G3 & G4). destruct HG as (HV & _).
  pose proof (greedy_iters _ _ mi s HV G1 G2 G3 HL) as H. rewrite G4 in *. unfold cap in Hcap. lia.
Qed.

(** Then the fallback is never called, provided every target weight exceeds the tolerance. *)
Lemma no_fallback inp sort mi s : good_inputs inp -> in_shorts inp = false -> sorts_desc sort ->
  (forall a, In a (in_assets inp) -> tol < a_w a) ->
  (2 * Z.of_nat (List.length (in_assets inp)) < cap mi (List.length (in_assets inp)))%Z ->
  greedy_loop (in_total inp) (sort (in_assets inp)) mi = Some s ->
  should_try_fallback (in_total inp) (min_cost_of (sort (in_assets inp)))
     (match mi with Some k => k | None => default_iterations (List.length (sort (in_assets inp))) end) s = false.
Proof.
  intros HG Hs Hsort Hwt Hcap HL.
  pose proof (greedy_exit inp sort mi s HG Hs Hsort Hcap HL) as HX.
  destruct (good_sorted inp sort HG Hs Hsort) as (G1 & G2 & G3 & G4).
  pose proof HG as (HV & _). pose proof (greedy_iters _ _ mi s HV G1 G2 G3 HL) as HI. rewrite G4 in *.
  destruct (greedy_raw inp sort mi HG Hs Hsort) as (s' & E & R). rewrite HL in E. injection E as <-.
  destruct R as (R1 & R2 & R3 & R4 & R5 & R6 & _).
  destruct (min_cost_attained _ G1) as (b & Hb & Eb).
  destruct (Hsort (in_assets inp)) as [HP _].
  assert (Hb' : In b (in_assets inp)) by (eapply Permutation_in; eauto).
  set (m := match mi with Some k => k | None => default_iterations (List.length (in_assets inp)) end).
  assert (Em : m = cap mi (List.length (in_assets inp))) by reflexivity.
  unfold should_try_fallback. replace (m <=? g_iter s)%Z with false by (symmetry; apply Z.leb_gt; lia). cbn [andb orb].
  apply orb_false_iff. split.
  - destruct (Qle_bool _ (g_cash s + tol)) eqn:E1; [|reflexivity]. cbn [andb]. apply qleb_t in E1.
    destruct (Qlt_bool _ (qmaximum (g_last s))) eqn:E2; [|reflexivity]. exfalso. apply qltb_t in E2.
    unfold greedy_loop in HL. destruct (floor_pass (in_total inp) (in_total inp) (sort (in_assets inp))) as [ps cash] eqn:EF.
    destruct (loop_exit _ _ _ _ _ _ HL) as [H|[H|[H|H]]].
    + lra.
    + rewrite G4 in H. fold m in H. lia.
    + unfold tol in H. lra.
    + (* all unaffordable: so is the cheapest *)
      assert (HL' : greedy_loop (in_total inp) (sort (in_assets inp)) mi = Some s) by (unfold greedy_loop; rewrite EF; exact HL).
      destruct (greedy_loop_spec (in_total inp) (sort (in_assets inp)) mi HV G1 G2 G3) as (s' & S1 & S2 & _).
      rewrite HL' in S1. injection S1 as <-.
      pose proof (inv_assets _ _ _ S2) as A1. rewrite <- A1 in Hb. apply in_map_iff in Hb as (p & Ep & Hp).
      rewrite forallb_forall in H. specialize (H p Hp).
      destruct (inv_pos _ _ _ S2 p Hp) as (_ & HU & _). specialize (HU H). rewrite Ep in HU. rewrite Eb in E1. lra.
  - destruct (Z.eqb_spec (fold_right Z.add 0%Z (map p_shares (g_pos s))) 0) as [H0|]; [|reflexivity]. cbn [andb].
    destruct (Qle_bool _ (in_total inp + tol)) eqn:E1; [|reflexivity]. exfalso. apply qleb_t in E1.
    (* no shares at all *)
    assert (Hz : forall p, In p (g_pos s) -> p_shares p = 0%Z).
    { destruct (greedy_loop_spec (in_total inp) (sort (in_assets inp)) mi HV G1 G2 G3) as (s' & S1 & S2 & _).
      rewrite HL in S1. injection S1 as <-.
      assert (Hnn : forall p, In p (g_pos s) -> (0 <= p_shares p)%Z).
      { intros p Hp. destruct (inv_pos _ _ _ S2 p Hp) as ((k & K1 & K2) & _).
        assert (Ha : In (p_asset p) (sort (in_assets inp))) by (rewrite <- (inv_assets _ _ _ S2); apply in_map; auto).
        destruct (G2 _ Ha) as [[_ Hlot] _]. rewrite K2. nia. }
      clear - H0 Hnn. revert H0 Hnn. induction (g_pos s) as [|p ps IH]; simpl; intros H0 Hnn q Hq; [easy|].
      assert (Hs' : (0 <= fold_right Z.add 0 (map p_shares ps))%Z).
      { clear - Hnn. induction ps as [|x xs IH]; simpl; [lia|].
        pose proof (Hnn x (or_intror (or_introl eq_refl))).
        assert (0 <= fold_right Z.add 0 (map p_shares xs))%Z; [|lia].
        apply IH. intros y [->|Hy]; apply Hnn; simpl; auto. }
      pose proof (Hnn p (or_introl eq_refl)).
      destruct Hq as [->|Hq]; [lia|]. apply IH; auto. lia. }
    assert (Hsh : forall k, share_of (pos_shares (g_pos s)) k = 0%Z).
    { intros k. unfold share_of. destruct (lookup k (pos_shares (g_pos s))) eqn:El; [|reflexivity].
      apply lookup_in in El. unfold pos_shares in El. apply in_map_iff in El as (p & Ep & Hp). injection Ep as _ <-. auto. }
    assert (Hc : g_cash s == in_total inp).
    { rewrite <- R4. unfold cost. rewrite (qsum_ext _ (fun _ => 0)).
      - assert (Z0 : forall l : list asset, qsum (map (fun _ => 0) l) == 0) by (induction l as [|x l IH]; simpl; lra).
        rewrite Z0. lra.
      - intros a _. rewrite Hsh. change (inject_Z 0) with 0. lra. }
    assert (g_cash s + tol < lot_cost b).
    { apply HX; [exact Hb'|]. rewrite Hsh. specialize (Hwt b Hb').
      setoid_replace (inject_Z 0 * a_price b / in_total inp) with 0; [lra|]. change (inject_Z 0) with 0. field. lra. }
    rewrite Eb in E1. lra.
Qed.

(** ** What a greedy call returns on long-only input *)
Lemma greedy_long_ok inp sort mip mi fm : good_inputs inp -> in_shorts inp = false -> sorts_desc sort ->
  In fm [None; Some "auto"; Some "none"; Some ""]%string ->
  exists r, allocate_greedy sort mip inp mi fm = Some (Ok r).
Proof.
  intros HG Hs Hsort Hm. unfold allocate_greedy.
  assert (HM : exists m, parse_mode fm = Ok m /\ m <> MMilp).
  { simpl in Hm. destruct Hm as [<-|[<-|[<-|[<-|[]]]]]; eexists; (split; [reflexivity|discriminate]). }
  destruct HM as (m & -> & Hmm). rewrite Hs.
  destruct (greedy_raw inp sort mi HG Hs Hsort) as (s & E & R). rewrite E.
  destruct R as (R1 & R2 & R3 & R4 & R5 & R6 & _).
  assert (HB : exists r, build_result inp (pos_shares (g_pos s)) = Ok r).
  { apply build_result_ok. unfold tol in R5. unfold q_eps8.
    assert (cost inp (fun a => share_of (pos_shares (g_pos s)) (a_name a)) == in_total inp - g_cash s) by lra. lra. }
  destruct HB as (r & HB). rewrite HB.
  destruct (match m with MNone => false | _ => _ end); [|eauto].
  destruct (mip inp); [eauto|]. destruct m; [eauto|congruence|eauto].
Qed.

Lemma greedy_modes inp sort mip mi : good_inputs inp -> in_shorts inp = false -> sorts_desc sort ->
  exists r0, (forall fm, In fm [None; Some "none"; Some ""]%string -> allocate_greedy sort mip inp mi fm = Some (Ok r0)) /\
    ((allocate_greedy sort mip inp mi (Some "auto"%string) = Some (Ok r0) /\ allocate_greedy sort mip inp mi (Some "milp"%string) = Some (Ok r0)) \/
     (allocate_greedy sort mip inp mi (Some "milp"%string) = Some (mip inp) /\
      allocate_greedy sort mip inp mi (Some "auto"%string) = Some (match mip inp with Ok r => Ok r | Err _ => Ok r0 end))).
Proof.
  intros HG Hs Hsort. destruct (greedy_long_ok inp sort mip mi None HG Hs Hsort) as [r0 H0]; [now left|]. exists r0.
  unfold allocate_greedy in *. cbn [parse_mode String.eqb Ascii.eqb Bool.eqb orb] in *. rewrite Hs in *.
  destruct (greedy_loop (in_total inp) (sort (in_assets inp)) mi) as [s|]; [|discriminate]. cbv zeta in *. injection H0 as H0.
  split; [intros fm [<-|[<-|[<-|[]]]]; simpl; now rewrite H0|]. rewrite H0.
  destruct (should_try_fallback _ _ _ _); [right|left; auto]. split; destruct (mip inp); reflexivity.
Qed.

Lemma greedy_default inp sort mip mi fm : good_inputs inp -> in_shorts inp = false -> sorts_desc sort ->
  (forall a, In a (in_assets inp) -> tol < a_w a) ->
  (2 * Z.of_nat (List.length (in_assets inp)) < cap mi (List.length (in_assets inp)))%Z ->
  In fm [None; Some "auto"; Some "none"; Some ""; Some "milp"]%string ->
  exists r, allocate_greedy sort mip inp mi fm = Some (Ok r) /\
    long_only inp (held r) /\
    (forall a, In a (in_assets inp) -> inject_Z (held r a) * a_price a < a_w a * in_total inp + lot_cost a) /\
    (forall a, In a (in_assets inp) -> tol < a_w a - inject_Z (held r a) * a_price a / in_total inp -> r_leftover r < lot_cost a).
Proof.
  intros HG Hs Hsort Hwt Hcap Hm. unfold allocate_greedy.
  assert (HM : exists m, parse_mode fm = Ok m).
  { simpl in Hm. destruct Hm as [<-|[<-|[<-|[<-|[<-|[]]]]]]; eexists; reflexivity. }
  destruct HM as (m & ->). rewrite Hs.
  destruct (greedy_raw inp sort mi HG Hs Hsort) as (s & E & R). rewrite E.
  rewrite (no_fallback inp sort mi s HG Hs Hsort Hwt Hcap E).
  pose proof (greedy_exit inp sort mi s HG Hs Hsort Hcap E) as HX.
  destruct R as (R1 & R2 & R3 & R4 & R5 & R6 & _).
  assert (HB : exists r, build_result inp (pos_shares (g_pos s)) = Ok r).
  { apply build_result_ok. unfold tol in R5. unfold q_eps8.
    assert (cost inp (fun a => share_of (pos_shares (g_pos s)) (a_name a)) == in_total inp - g_cash s) by lra. lra. }
  destruct HB as (r & HB). rewrite HB. exists r. split; [destruct m; reflexivity|].
  pose proof HG as (HV & _ & _ & _ & Hok & _).
  destruct (build_result_l inp _ r HV R1 HB) as (A1 & A2 & A3 & A4 & A5 & A6).
  split; [intros a Ha; rewrite A1; apply R3; auto|].
  split; [intros a Ha; rewrite A1; apply R6; auto|].
  intros a Ha Ht. rewrite A1 in Ht. specialize (HX a Ha Ht).
  assert (HC : cost inp (held r) == in_total inp - g_cash s).
  { assert (Ec : cost inp (held r) == cost inp (fun a => share_of (pos_shares (g_pos s)) (a_name a))) by (apply qsum_ext; intros x _; rewrite A1; reflexivity).
    rewrite Ec. lra. }
  pose proof tol_pos. destruct A6 as [A6|[A6 _]].
  - rewrite A6, HC. lra.
  - rewrite A6. apply lot_cost_pos. apply Hok. exact Ha.
Qed.

(** The fallback cannot change the outcome, whatever it does. *)
Lemma greedy_default_indep inp sort mip mip' mi fm fm' : good_inputs inp -> in_shorts inp = false -> sorts_desc sort ->
  (forall a, In a (in_assets inp) -> tol < a_w a) ->
  (2 * Z.of_nat (List.length (in_assets inp)) < cap mi (List.length (in_assets inp)))%Z ->
  In fm [None; Some "auto"; Some "none"; Some ""; Some "milp"]%string ->
  In fm' [None; Some "auto"; Some "none"; Some ""; Some "milp"]%string ->
  allocate_greedy sort mip inp mi fm = allocate_greedy sort mip' inp mi fm'.
Proof.
  intros HG Hs Hsort Hwt Hcap Hm Hm'. unfold allocate_greedy.
  assert (HM : exists m, parse_mode fm = Ok m).
  { simpl in Hm. destruct Hm as [<-|[<-|[<-|[<-|[<-|[]]]]]]; eexists; reflexivity. }
  assert (HM' : exists m, parse_mode fm' = Ok m).
  { simpl in Hm'. destruct Hm' as [<-|[<-|[<-|[<-|[<-|[]]]]]]; eexists; reflexivity. }
  destruct HM as (m & ->). destruct HM' as (m' & ->). rewrite Hs.
  destruct (greedy_raw inp sort mi HG Hs Hsort) as (s & E & _). rewrite E.
  rewrite (no_fallback inp sort mi s HG Hs Hsort Hwt Hcap E). destruct m, m'; reflexivity.
Qed.

(** * MILP *)
Lemma all_int n (xs : list Q) : List.length xs = n -> (forall i, (i < n)%nat -> exists z, nth i xs 0 == inject_Z z) ->
  forall i, (i < n)%nat -> nth i xs 0 == inject_Z (nth i (map rint xs) 0%Z).
Proof.
  intros HL H i Hi. destruct (H i Hi) as [z Hz].
  rewrite (nth_indep _ 0%Z (rint 0)) by (rewrite map_length; lia). rewrite map_nth, (rint_int _ z Hz). exact Hz.
Qed.

Lemma milp_result inp solver pen mc x : good_inputs inp ->
  milp_feasible (build_milp inp pen mc) x -> solver (build_milp inp pen mc) = Some x ->
  exists r, allocate_mip solver pen mc inp = Ok r /\
    whole_lots inp (held r) /\
    (in_shorts inp = false -> long_only inp (held r)) /\
    cost inp (held r) + r_leftover r == in_total inp /\
    0 <= r_leftover r <= cash_ub (in_total inp) (in_assets inp) mc /\
    in_total inp * tracking inp (held r) + pen * r_leftover r <= qdot (p_c (build_milp inp pen mc)) x.
Proof.
  intros HG HF HS. pose proof HG as (HV & Hne & HN & Hw & Hok & Hsh).
  assert (HLx : List.length x = (2 * List.length (in_assets inp) + 1)%nat).
  { destruct HF as [HF _]. rewrite HF. cbn [build_milp p_c]. rewrite !app_length, zeros_length, repeat_length. simpl. lia. }
  destruct (split3 x _ HLx) as (xs & us & r & -> & Hx & Hu).
  apply milp_reading in HF; auto. destruct HF as [D1 D2 D3 D4 D5 D6].
  set (l := in_assets inp) in *. set (n := List.length l) in *. set (V := in_total inp) in *.
  set (ks := map rint xs).
  assert (Hk : List.length ks = n) by (unfold ks; rewrite map_length; auto).
  assert (Hint := all_int n xs Hx D4). fold ks in Hint.
  unfold allocate_mip. fold l n. rewrite HS.
  destruct (Nat.eqb_spec n 0) as [E0|_].
  { exfalso. apply Hne. unfold n in E0. destruct l; [auto|discriminate]. }
  assert (Ef : firstn n (xs ++ us ++ [r]) = xs).
  { rewrite firstn_app, Hx, Nat.sub_diag, firstn_O, app_nil_r. apply firstn_all2. lia. }
  rewrite Ef. fold ks. set (raw := map2 (fun a k => (a_name a, (k * a_lot a)%Z)) l ks).
  assert (Hcost : cost inp (fun a => share_of raw (a_name a)) == qdot (map lot_cost l) xs).
  { unfold cost. fold l. pose proof (share_map2 (fun a z => inject_Z z * a_price a) l ks HN Hk) as E. cbv beta in E. fold raw in E.
    rewrite E. apply cost_dot; auto. }
  assert (HB : exists res, build_result inp raw = Ok res).
  { apply build_result_ok. rewrite Hcost. fold V. assert (0 < q_eps8) by (unfold q_eps8; lra). lra. }
  destruct HB as (res & HB). exists res. split; [exact HB|].
  assert (HNr : NoDup (map fst raw)) by (unfold raw; rewrite map2_fst by auto; exact HN).
  destruct (build_result_l inp raw res HV HNr HB) as (A1 & A2 & A3 & A4 & A5 & A6).
  assert (Hc2 : cost inp (held res) == qdot (map lot_cost l) xs).
  { rewrite <- Hcost. apply qsum_ext. intros a _. rewrite A1. reflexivity. }
  assert (Hlo : r_leftover res == r).
  { destruct A6 as [A6|[_ [A6 _]]]; [rewrite A6, Hc2; fold V; lra|]. rewrite Hc2 in A6. fold V in A6. lra. }
  split; [|split; [|split; [|split]]].
  - intros a Ha. rewrite A1. destruct (share_map2_lots l ks a HN Hk Ha) as (i & Hi & Ei & Es). fold raw in Es. rewrite Es. eauto.
  - intros Hns a Ha. rewrite A1. destruct (share_map2_lots l ks a HN Hk Ha) as (i & Hi & Ei & Es). fold raw in Es. rewrite Es.
    specialize (D1 i Hi). rewrite Ei in D1.
    destruct (Qle_bool 0 (a_w a)) eqn:Ew.
    + assert (0 <= nth i ks 0)%Z; [|destruct (Hok a Ha); nia].
      destruct D1 as [D1 _]. rewrite (Hint i Hi) in D1. change 0 with (inject_Z 0) in D1. rewrite <- Zle_Qle in D1. exact D1.
    + apply qleb_f in Ew. assert (in_shorts inp = true) by (apply Hsh; eauto). congruence.
  - rewrite Hc2, Hlo. exact D5.
  - rewrite Hlo. exact D3.
  - rewrite obj_reading by auto. rewrite Hlo. apply Qplus_le_l.
    assert (ET : tracking inp (held res) = qsum (map2 (fun a k => Qabs (a_w a - inject_Z (k * a_lot a) * a_price a / V)) l ks)).
    { unfold tracking. fold l V. rewrite <- (share_map2 (fun a z => Qabs (a_w a - inject_Z z * a_price a / V)) l ks HN Hk).
      f_equal. apply map_ext. intros a. fold raw. rewrite A1. reflexivity. }
    rewrite ET, track_scale by exact HV.
    apply (qsum_map2_nth _ l ks us dasset 0%Z); [lia|lia|]. intros i Hi. specialize (D6 i Hi). rewrite (Hint i Hi) in D6. exact D6.
Qed.

Lemma milp_competitor inp pen mc h : good_inputs inp -> in_shorts inp = false ->
  whole_lots inp h -> long_only inp h -> cost inp h <= in_total inp ->
  in_total inp - cost inp h <= cash_ub (in_total inp) (in_assets inp) mc ->
  exists y, milp_feasible (build_milp inp pen mc) y /\
    qdot (p_c (build_milp inp pen mc)) y == in_total inp * tracking inp h + pen * (in_total inp - cost inp h).
Proof.
  intros HG Hns HW HL HC Hub. pose proof HG as (HV & Hne & HN & Hw & Hok & Hsh).
  set (l := in_assets inp) in *. set (V := in_total inp) in *.
  assert (Hwn : forall a, In a l -> 0 <= a_w a).
  { intros a Ha. destruct (Qlt_le_dec (a_w a) 0) as [Hlt|]; [|auto]. exfalso. assert (in_shorts inp = true) by (apply Hsh; eauto). congruence. }
  assert (Hw1 : forall a, In a l -> a_w a <= 1).
  { intros a Ha. rewrite <- Hw. clear - Ha Hwn. induction l as [|b l IH]; [easy|]. simpl.
    assert (Hs : 0 <= qsum (map a_w l)).
    { apply qsum_nonneg. apply Forall_forall. intros q Hq. apply in_map_iff in Hq as (c & <- & Hc). apply Hwn. now right. }
    pose proof (Hwn b (or_introl eq_refl)).
    destruct Ha as [->|Ha]; [lra|]. specialize (IH (fun c Hc => Hwn c (or_intror Hc)) Ha). lra. }
  assert (Hval : forall a, In a l -> 0 <= inject_Z (h a) * a_price a <= V).
  { assert (Hnn : forall a, In a l -> 0 <= inject_Z (h a) * a_price a).
    { intros a Ha. apply Qmult_le_0_compat; [apply inject_Z_nonneg, HL; auto|]. destruct (Hok a Ha). lra. }
    intros a Ha. split; [auto|]. eapply Qle_trans; [|exact HC]. unfold cost. fold l.
    clear - Ha Hnn. induction l as [|b l IH]; [easy|]. simpl.
    assert (Hs : 0 <= qsum (map (fun a => inject_Z (h a) * a_price a) l)).
    { apply qsum_nonneg. apply Forall_forall. intros q Hq. apply in_map_iff in Hq as (c & <- & Hc). apply Hnn. now right. }
    pose proof (Hnn b (or_introl eq_refl)).
    destruct Ha as [->|Ha]; [lra|]. specialize (IH (fun c Hc => Hnn c (or_intror Hc)) Ha). lra. }
  set (kof := fun a => (h a / a_lot a)%Z).
  assert (Hkof : forall a, In a l -> h a = (kof a * a_lot a)%Z).
  { intros a Ha. destruct (HW a Ha) as [k Hk]. destruct (Hok a Ha). unfold kof. rewrite Hk, Z.div_mul by lia. reflexivity. }
  set (xs := map (fun a => inject_Z (kof a)) l).
  set (us := map (fun a => Qabs (lot_cost a * inject_Z (kof a) - a_w a * V)) l).
  set (r := V - cost inp h).
  assert (Hx : List.length xs = List.length l) by (unfold xs; apply map_length).
  assert (Hu : List.length us = List.length l) by (unfold us; apply map_length).
  assert (Hv2 : forall a, In a l -> lot_cost a * inject_Z (kof a) == inject_Z (h a) * a_price a).
  { intros a Ha. rewrite (Hkof a Ha), lots_value. ring. }
  assert (Edot : qdot (map lot_cost l) xs == cost inp h).
  { unfold cost, xs, qdot. fold l. clear - Hv2. induction l as [|a l IH]; simpl; [lra|].
    rewrite IH by (intros b Hb; apply Hv2; now right). rewrite <- (Hv2 a (or_introl eq_refl)). lra. }
  exists (xs ++ us ++ [r]). split.
  - apply milp_reading; auto. split; fold l; fold V.
    + intros i Hi. set (a := nth i l dasset). assert (Ha : In a l) by (apply nth_In; auto).
      unfold xs. rewrite (nth_map_lt' _ l i dasset Hi). fold a.
      replace (Qle_bool 0 (a_w a)) with true by (symmetry; apply Qle_bool_iff; auto).
      destruct (Hok a Ha) as [Hp Hlot]. assert (Hlc : 0 < lot_cost a) by (apply lot_cost_pos; split; auto).
      assert (K0 : (0 <= kof a)%Z) by (unfold kof; apply Z.div_pos; [apply HL; auto|lia]).
      split; [apply inject_Z_nonneg; auto|]. rewrite <- Zle_Qle. unfold max_lots.
      replace (Qlt_bool 0 (lot_cost a)) with true by (symmetry; apply Qlt_bool_iff; auto).
      assert (kof a <= Qfloor (V / lot_cost a))%Z; [|lia].
      rewrite <- (Qfloor_Z (kof a)). apply Qfloor_resp_le. apply Qle_shift_div_l; [auto|].
      rewrite Qmult_comm, Hv2 by auto. apply Hval; auto.
    + intros i Hi. set (a := nth i l dasset). assert (Ha : In a l) by (apply nth_In; auto).
      unfold us. rewrite (nth_map_lt' _ l i dasset Hi). fold a. split; [apply Qabs_nonneg|].
      apply Qabs_le_iff. rewrite Hv2 by auto. pose proof (Hval a Ha). pose proof (Hwn a Ha). pose proof (Hw1 a Ha).
      assert (0 <= a_w a * V <= V).
      { split; [apply Qmult_le_0_compat; lra|]. setoid_replace V with (1 * V) at 2 by ring. apply Qmult_le_compat_r; lra. }
      split; lra.
    + unfold r. split; [lra|exact Hub].
    + intros i Hi. unfold xs. rewrite (nth_map_lt' _ l i dasset Hi). eauto. exists (kof (nth i l dasset)). reflexivity.
    + rewrite Edot. unfold r. lra.
    + intros i Hi. unfold xs, us. rewrite !(nth_map_lt' _ l i dasset Hi). apply Qle_refl.
  - rewrite obj_reading by auto. unfold r. apply Qplus_comp; [|reflexivity].
    assert (ET : tracking inp h == qsum (map (fun a => Qabs (a_w a - inject_Z (kof a * a_lot a) * a_price a / V)) l)).
    { unfold tracking. fold l V. apply qsum_ext. intros a Ha. rewrite <- (Hkof a Ha). reflexivity. }
    rewrite ET. 
    assert (EM : forall (f : asset -> Z -> Q) m, map (fun a => f a (kof a)) m = map2 f m (map kof m)) by (induction m as [|b m IH]; simpl; [|f_equal]; auto).
    rewrite (EM (fun a k => Qabs (a_w a - inject_Z (k * a_lot a) * a_price a / V))), track_scale by exact HV.
    unfold us. rewrite (EM (fun a k => Qabs (lot_cost a * inject_Z k - a_w a * V))). reflexivity.
Qed.

Lemma milp_optimal inp solver pen mc x : good_inputs inp -> in_shorts inp = false -> 
  solver (build_milp inp pen mc) = Some x -> milp_optimum (build_milp inp pen mc) x ->
  exists r, allocate_mip solver pen mc inp = Ok r /\
    whole_lots inp (held r) /\ long_only inp (held r) /\ cost inp (held r) + r_leftover r == in_total inp /\ 0 <= r_leftover r /\
    (forall m, mc = Some m -> r_leftover r <= m) /\
    forall h, whole_lots inp h -> long_only inp h -> cost inp h <= in_total inp ->
      (forall m, mc = Some m -> in_total inp - cost inp h <= m) ->
      in_total inp * tracking inp (held r) + pen * r_leftover r <=
      in_total inp * tracking inp h + pen * (in_total inp - cost inp h).
Proof.
  intros HG Hns Hx [HF HO].
  destruct (milp_result inp solver pen mc x HG HF Hx) as (r & R1 & R2 & R3 & R4 & R5 & R6).
  pose proof HG as (HV & Hne & HN & Hw & Hok & Hsh).
  exists r. split; [exact R1|]. split; [exact R2|]. split; [auto|]. split; [exact R4|]. split; [apply R5|].
  assert (Ep : qsum (map (fun a => if Qlt_bool (a_w a) 0 then inject_Z (max_lots (in_total inp) a) * lot_cost a else 0) (in_assets inp)) == 0).
  { rewrite (qsum_ext _ (fun _ => 0)).
    - assert (Z0 : forall l : list asset, qsum (map (fun _ => 0) l) == 0) by (induction l as [|z l IH]; simpl; lra). apply Z0.
    - intros a Ha. destruct (Qlt_bool (a_w a) 0) eqn:E; [|reflexivity]. apply qltb_t in E.
      assert (in_shorts inp = true) by (apply Hsh; eauto). congruence. }
  split.
  - intros m ->. destruct R5 as [_ R5]. unfold cash_ub in R5. cbv zeta in R5.
    destruct (Qle_bool m _) eqn:E; [exact R5|]. apply qleb_f in E. lra.
  - intros h HW HL HC Hm. 
    destruct (milp_competitor inp pen mc h HG Hns HW HL HC) as (y & Y1 & Y2).
    + unfold cash_ub. cbv zeta. 
      assert (0 <= cost inp h).
      { apply qsum_nonneg. apply Forall_forall. intros q Hq. apply in_map_iff in Hq as (a & <- & Ha).
        apply Qmult_le_0_compat; [apply inject_Z_nonneg, HL; auto|]. destruct (Hok a Ha). lra. }
      destruct mc as [m|]; [destruct (Qle_bool m _) eqn:E; [apply Hm; reflexivity|]|]; lra.
    + specialize (HO y Y1). rewrite Y2 in HO. eapply Qle_trans; [exact R6|exact HO].
Qed.

(** * Acceptance *)
Lemma make_inputs_iff weights prices total lots :
  (exists v, make_inputs (fin weights) (fin prices) (Fin total) lots = Ok v) <->
  weights <> [] /\ prices <> [] /\
  (forall k w, In (k, w) weights -> lookup k prices <> None) /\
  kept weights <> [] /\
  (forall k w, In (k, w) (kept weights) -> 0 < price_in prices k /\ (0 < lot_in lots k)%Z) /\
  0 < total /\ 0 < qsum (map snd (kept weights)).
Proof.
  unfold make_inputs. rewrite filter_fin. fold (kept weights).
  assert (HL : forall l, List.length (fin l) = List.length l) by (intros; apply map_length). rewrite !HL.
  destruct (Nat.eqb_spec (List.length weights) 0) as [E|Hw]; [destruct weights; [|discriminate]; split; [intros [? ?]; discriminate|tauto]|].
  destruct (Nat.eqb_spec (List.length prices) 0) as [E|Hp]; [destruct prices; [|discriminate]; split; [intros [? ?]; discriminate|tauto]|].
  destruct (forallb _ (fin weights)) eqn:Ef; cbn [negb].
  2:{ split; [intros [? ?]; discriminate|]. intros (_ & _ & H & _). exfalso.
      rewrite <- not_true_iff_false in Ef. apply Ef. apply forallb_forall. intros [k x] Hin.
      unfold fin in Hin. apply in_map_iff in Hin as ([k' w] & E & Hin). injection E as <- <-. cbn [fst]. rewrite lookup_fin.
      specialize (H k' w Hin). cbn [fst snd]. destruct (lookup k' prices); [reflexivity|congruence]. }
  assert (Hlk : forall k w, In (k, w) weights -> lookup k prices <> None).
  { intros k w Hin. rewrite forallb_forall in Ef. specialize (Ef (k, Fin w)). cbn [fst] in Ef. rewrite lookup_fin in Ef.
    destruct (lookup k prices); [discriminate|]. exfalso.
    assert (false = true); [|discriminate]. apply Ef. unfold fin. apply in_map_iff. exists (k, w). auto. }
  destruct (Nat.eqb_spec (List.length (kept weights)) 0) as [E|Hk].
  { split; [intros [? ?]; discriminate|]. intros (_ & _ & _ & H & _). destruct (kept weights); [congruence|discriminate]. }
  destruct (existsb _ (fin (kept weights))) eqn:Ep.
  { split; [intros [? ?]; discriminate|]. intros (_ & _ & _ & _ & H & _). exfalso.
    apply existsb_exists in Ep as ([k x] & Hin & E). unfold fin in Hin. apply in_map_iff in Hin as ([k' w] & E' & Hin). injection E' as <- <-.
    cbn [fst snd] in E. rewrite lookup_fin in E. destruct (H k' w Hin) as [Hpr _]. unfold price_in in Hpr.
    destruct (lookup k' prices); [|discriminate]. simpl in E. apply qleb_t in E. lra. }
  assert (Hpr : forall k w, In (k, w) (kept weights) -> 0 < price_in prices k).
  { intros k w Hin. assert (Hin' : In (k, Fin w) (fin (kept weights))) by (unfold fin; apply in_map_iff; exists (k, w); auto).
    pose proof (existsb_false _ _ Ep _ Hin') as E. cbn [fst] in E. rewrite lookup_fin in E. unfold price_in.
    apply filter_In in Hin as [Hin _]. specialize (Hlk k w Hin). destruct (lookup k prices); [|congruence]. simpl in E. apply qleb_f in E. exact E. }
  destruct (fl_le0 (Fin total)) eqn:Et; simpl in Et.
  { apply qleb_t in Et. split; [intros [? ?]; discriminate|]. intros (_ & _ & _ & _ & _ & H & _). lra. }
  apply qleb_f in Et.
  match goal with |- context [existsb ?f (fin (kept weights))] => destruct (existsb f (fin (kept weights))) eqn:El end.
  { split; [intros [? ?]; discriminate|]. intros (_ & _ & _ & _ & H & _). exfalso.
    apply existsb_exists in El as ([k x] & Hin & E). unfold fin in Hin. apply in_map_iff in Hin as ([k' w] & E' & Hin). injection E' as <- <-.
    cbn [fst snd] in E. destruct (H k' w Hin) as [_ Hlot]. unfold lot_in in Hlot. apply Z.leb_le in E. lia. }
  destruct (pd_sum_fin (kept weights)) as (t & Es & Ht). rewrite Es.
  destruct (Qle_bool t 0) eqn:E.
  { apply qleb_t in E. split; [intros [? ?]; discriminate|]. intros (_ & _ & _ & _ & _ & _ & H). lra. }
  apply qleb_f in E. split; [|eauto]. intros _.
  split; [intros ->; apply Hw; reflexivity|]. split; [intros ->; apply Hp; reflexivity|]. split; [exact Hlk|].
  split; [intros H; rewrite H in Hk; apply Hk; reflexivity|]. split; [|split; [exact Et|lra]].
  intros k w Hin. split; [eauto|].
  assert (Hin' : In (k, Fin w) (fin (kept weights))) by (unfold fin; apply in_map_iff; exists (k, w); auto).
  pose proof (existsb_false _ _ El _ Hin') as E1. cbn [fst] in E1. apply Z.leb_gt in E1. exact E1.
Qed.

(** * Shorts: the programme cuts off better holdings *)
Definition sh_inp : inputs := mkI [mkA "a" 2 1 1; mkA "b" (-1) 1 1]%string 10 true.
Definition sh_x : list Q := [11; -1; 9; 9; 0].
Lemma sh_good : good_inputs sh_inp.
Proof.
  split; [reflexivity|]. split; [discriminate|]. split; [repeat constructor; simpl; intuition discriminate|].
  split; [reflexivity|]. split.
  - intros a [<-|[<-|[]]]; split; reflexivity.
  - split; [|reflexivity]. intros _. exists (mkA "b" (-1) 1 1). split; [simpl; auto|reflexivity].
Qed.
Lemma sh_opt : milp_optimum (build_milp sh_inp 1 None) sh_x.
Proof.
  change sh_x with ([11; -1] ++ [9; 9] ++ [0]). split.
  - apply milp_reading; [reflexivity|reflexivity|]. split.
    + intros [|[|i]] Hi; cbn in Hi |- *; [| |lia]; split; vm_compute; discriminate.
    + intros [|[|i]] Hi; cbn in Hi |- *; [| |lia]; split; vm_compute; discriminate.
    + split; vm_compute; discriminate.
    + intros [|[|i]] Hi; cbn in Hi |- *; [exists 11%Z|exists (-1)%Z|lia]; reflexivity.
    + reflexivity.
    + intros [|[|i]] Hi; cbn in Hi |- *; [| |lia]; vm_compute; discriminate.
  - intros y Hy. assert (HLy : List.length y = (2 * 2 + 1)%nat) by (destruct Hy as [-> _]; reflexivity).
    destruct (split3 y 2 HLy) as (xs & us & r & -> & Hx & Hu).
    rewrite !obj_reading by auto. apply milp_reading in Hy; auto. destruct Hy as [D1 D2 D3 _ D5 D6].
    destruct xs as [|x1 [|x2 [|]]]; try discriminate Hx. destruct us as [|u1 [|u2 [|]]]; try discriminate Hu.
    pose proof (D1 0%nat ltac:(cbn; lia)) as B1. pose proof (D6 0%nat ltac:(cbn; lia)) as A1. pose proof (D6 1%nat ltac:(cbn; lia)) as A2.
    apply Qabs_le_iff in A1, A2. cbn [nth in_assets sh_inp a_w in_total lot_cost a_price a_lot] in *.
    replace (max_lots 10 (mkA "a" 2 1 1)) with 11%Z in B1 by reflexivity.
    unfold lot_cost in *. cbn [a_price a_lot] in *. change (inject_Z 1) with 1 in *. change (inject_Z 11) with 11 in *.
    unfold qdot in D5. simpl in D5. unfold lot_cost in D5. cbn [a_price a_lot] in D5. change (inject_Z 1) with 1 in D5. simpl. lra.
Qed.
