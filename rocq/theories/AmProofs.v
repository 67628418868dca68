(** Rounded lots of an approximate solution of the mixed-integer programme. *)
From Verif Require Import QBase ProbModel DiscModel DiscSpec DiscProofs DiscMilp DiscCall DiscExit AmSpec.
Open Scope Q_scope.
Open Scope list_scope.

Record near_reading (d t : Q) (inp : inputs) (pen : Q) (mc : option Q) (xs us : list Q) (r : Q) : Prop := mkNr {
  nr_x : forall i, (i < List.length (in_assets inp))%nat ->
     (if Qle_bool 0 (a_w (nth i (in_assets inp) dasset)) then 0 else - inject_Z (max_lots (in_total inp) (nth i (in_assets inp) dasset))) - d
       <= nth i xs 0;
  nr_r : - d <= r <= cash_ub (in_total inp) (in_assets inp) mc + d;
  nr_int : forall i, (i < List.length (in_assets inp))%nat -> exists z, Qabs (nth i xs 0 - inject_Z z) <= t;
  nr_eq : Qabs (qdot (map lot_cost (in_assets inp)) xs + r - in_total inp) <= d;
  nr_abs : forall i, (i < List.length (in_assets inp))%nat ->
     Qabs (lot_cost (nth i (in_assets inp) dasset) * nth i xs 0 - a_w (nth i (in_assets inp) dasset) * in_total inp) <= nth i us 0 + d }.

Lemma near_milp_reading d t inp pen mc xs us r :
  List.length xs = List.length (in_assets inp) -> List.length us = List.length (in_assets inp) ->
  near_milp d t (build_milp inp pen mc) (xs ++ us ++ [r]) -> near_reading d t inp pen mc xs us r.
Proof.
  intros Hx Hu. set (l := in_assets inp) in *. set (n := List.length l) in *. set (V := in_total inp).
  assert (HX : List.length (xs ++ us ++ [r]) = (2 * n + 1)%nat) by (rewrite !app_length; simpl; lia).
  assert (Hrow : forall i v, (i < n)%nat ->
     qdot (set_at (n + i) (-1) (set_at i v (zeros (2 * n + 1)))) (xs ++ us ++ [r]) == v * nth i xs 0 - nth i us 0).
  { intros i v Hi. rewrite qdot_row2; try lia. rewrite !(nth_app3 xs us [r] _ n Hx Hu).
    destruct (Nat.ltb_spec i n); [|lia]. destruct (Nat.ltb_spec (n + i) n); [lia|].
    destruct (Nat.ltb_spec (n + i) (2 * n)); [|lia]. replace (n + i - n)%nat with i by lia. lra. }
  assert (Heq : qdot (map lot_cost l ++ zeros n ++ [1]) (xs ++ us ++ [r]) == qdot (map lot_cost l) xs + r).
  { rewrite qdot_app by (rewrite map_length; fold n; lia). rewrite qdot_app by (rewrite zeros_length; lia).
    rewrite qdot_zeros. unfold qdot at 2. simpl. lra. }
  intros (F1 & F2 & F3 & F4 & F5).
  assert (FB : forall i, (i < 2 * n + 1)%nat -> nth i (p_lb (build_milp inp pen mc)) 0 - d <= nth i (xs ++ us ++ [r]) 0
      <= nth i (p_ub (build_milp inp pen mc)) 0 + d) by (intros i Hi; apply F2; lia).
  split; fold l; fold n; fold V.
  - intros i Hi. specialize (FB i ltac:(lia)). rewrite (nth_app3 xs us [r] i n Hx Hu) in FB.
    destruct (Nat.ltb_spec i n); [|lia]. cbn [build_milp p_lb] in FB. fold l n V in FB.
    rewrite app_nth1 in FB by (rewrite map_length; auto).
    rewrite (nth_map_lt' (fun a => if Qle_bool 0 (a_w a) then 0 else - inject_Z (max_lots V a)) l i dasset) in FB by auto. apply FB.
  - specialize (FB (2 * n)%nat ltac:(lia)). rewrite (nth_app3 xs us [r] _ n Hx Hu) in FB.
    destruct (Nat.ltb_spec (2 * n) n); [lia|]. destruct (Nat.ltb_spec (2 * n) (2 * n)); [lia|].
    rewrite Nat.sub_diag in FB. cbn [build_milp p_lb p_ub] in FB. fold l n V in FB.
    rewrite app_nth2 in FB by (rewrite map_length; fold n; lia). rewrite nth_zeros in FB.
    rewrite (nth_app3 _ _ _ (2 * n) n) in FB by (rewrite ?map_length, ?repeat_length; auto).
    destruct (Nat.ltb_spec (2 * n) n); [lia|]. destruct (Nat.ltb_spec (2 * n) (2 * n)); [lia|].
    rewrite Nat.sub_diag in FB. cbn [nth] in FB. lra.
  - intros i Hi. destruct (F3 i) as [z Hz]; [exact Hi|]. exists z. rewrite (nth_app3 xs us [r] i n Hx Hu) in Hz.
    destruct (Nat.ltb_spec i n); [|lia]. exact Hz.
  - cbn [build_milp p_eq fst snd] in F4. fold l n V in F4. rewrite Heq in F4. exact F4.
  - intros i Hi. apply Qabs_le_iff.
    assert (G1 := F5 (set_at (n + i) (-1) (set_at i (lot_cost (nth i l dasset)) (zeros (2 * n + 1)))) (a_w (nth i l dasset) * V)).
    assert (G2 := F5 (set_at (n + i) (-1) (set_at i (- lot_cost (nth i l dasset)) (zeros (2 * n + 1)))) (- (a_w (nth i l dasset) * V))).
    cbn [build_milp p_le] in G1, G2. fold l n V in G1, G2. rewrite Hrow in G1, G2 by auto.
    split.
    + assert (lot_cost (nth i l dasset) * nth i xs 0 - nth i us 0 <= a_w (nth i l dasset) * V + d); [|lra].
      apply G1. apply in_app_iff. left. apply (in_map2_seq _ l _ dasset). exists i. auto.
    + assert (- lot_cost (nth i l dasset) * nth i xs 0 - nth i us 0 <= - (a_w (nth i l dasset) * V) + d); [|lra].
      apply G2. apply in_app_iff. right. apply (in_map2_seq _ l _ dasset). exists i. auto.
Qed.

(** Rounding finds the integer that is closer than one half. *)
Lemma rint_near x z t : Qabs (x - inject_Z z) <= t -> t < 1 # 2 -> rint x = z.
Proof.
  intros H Ht. apply Qabs_le_iff in H as [H1 H2]. unfold rint.
  pose proof (Qfloor_le x) as F1. pose proof (Qlt_floor x) as F2. rewrite inject_Z_plus in F2. change (inject_Z 1) with 1 in F2.
  set (f := Qfloor x) in *.
  assert (Hz : z = f \/ z = (f + 1)%Z).
  { assert (inject_Z z < inject_Z (f + 2)) by (rewrite inject_Z_plus; change (inject_Z 2) with 2; lra).
    assert (inject_Z (f - 1) < inject_Z z) by (unfold Z.sub; rewrite inject_Z_plus; change (inject_Z (-(1))) with (-(1)); lra).
    rewrite <- Zlt_Qlt in *. lia. }
  destruct Hz as [-> | ->].
  - destruct (Qlt_bool (x - inject_Z f) (1 # 2)) eqn:E; [reflexivity|]. apply qltb_f in E. lra.
  - rewrite inject_Z_plus in H1, H2. change (inject_Z 1) with 1 in H1, H2.
    destruct (Qlt_bool (x - inject_Z f) (1 # 2)) eqn:E; [apply qltb_t in E; lra|].
    destruct (Qlt_bool (1 # 2) (x - inject_Z f)) eqn:E2; [reflexivity|]. apply qltb_f in E2. lra.
Qed.

Lemma lot_cost_pos a : 0 < a_price a -> (0 < a_lot a)%Z -> 0 < lot_cost a.
Proof. intros. unfold lot_cost. apply Qmult_lt_0_compat; auto. change 0 with (inject_Z 0). rewrite <- Zlt_Qlt. auto. Qed.

(** The cost of the rounded lots. *)
Lemma cost_near (l : list asset) : forall ks xs t, List.length ks = List.length l -> List.length xs = List.length l ->
  (forall a, In a l -> 0 <= lot_cost a) ->
  (forall i, (i < List.length l)%nat -> Qabs (nth i xs 0 - inject_Z (nth i ks 0%Z)) <= t) ->
  Qabs (qsum (map2 (fun a k => inject_Z (k * a_lot a) * a_price a) l ks) - qdot (map lot_cost l) xs) <= t * qsum (map lot_cost l).
Proof.
  induction l as [|a l IH]; intros [|k ks] [|x xs] t Hk Hx Hp H; try discriminate; cbn [map2 map].
  { cbn. lra. }
  specialize (IH ks xs t ltac:(simpl in *; lia) ltac:(simpl in *; lia) ltac:(intros; apply Hp; right; auto)
     ltac:(intros i Hi; apply (H (S i)); simpl; lia)).
  pose proof (H 0%nat ltac:(simpl; lia)) as H0. cbn [nth] in H0.
  pose proof (Hp a (or_introl eq_refl)) as Hc. apply Qabs_le_iff in H0 as [A B]. apply Qabs_le_iff in IH as [C D].
  unfold qdot in *. cbn [map2] in *. rewrite !qsum_cons in *.
  assert (E : inject_Z (k * a_lot a) * a_price a == inject_Z k * lot_cost a) by (unfold lot_cost; rewrite inject_Z_mult; ring).
  rewrite E. apply Qabs_le_iff.
  assert ((x - inject_Z k) * lot_cost a <= t * lot_cost a) by (apply Qmult_le_compat_r; auto).
  assert (- (x - inject_Z k) * lot_cost a <= t * lot_cost a) by (apply Qmult_le_compat_r; auto).
  split; lra.
Qed.

Lemma basket_lots inp : basket inp = qsum (map lot_cost (in_assets inp)).
Proof. reflexivity. Qed.

Lemma basket_nonneg inp : good_inputs inp -> 0 <= basket inp.
Proof.
  intros (_ & _ & _ & _ & Hok & _). rewrite basket_lots. apply qsum_nonneg. apply Forall_forall. intros q Hq.
  apply in_map_iff in Hq as (a & <- & Ha). destruct (Hok a Ha). apply Qlt_le_weak, lot_cost_pos; auto.
Qed.

Lemma qsum_near {A B} (f : A -> B -> Q) (c : A -> Q) d t (l : list A) (m : list B) us da db : List.length l = List.length m ->
  List.length us = List.length l ->
  (forall i, (i < List.length l)%nat -> f (nth i l da) (nth i m db) <= nth i us 0 + d + t * c (nth i l da)) ->
  qsum (map2 f l m) <= qsum us + inject_Z (Z.of_nat (List.length l)) * d + t * qsum (map c l).
Proof.
  revert m us. induction l as [|a l IH]; intros [|b m] [|u us] Hm Hu H; try discriminate; cbn [map2 map List.length].
  { change (qsum []) with 0. change (inject_Z (Z.of_nat 0)) with 0. lra. }
  rewrite !qsum_cons.
  specialize (IH m us ltac:(simpl in *; lia) ltac:(simpl in *; lia) ltac:(intros i Hi; apply (H (S i)); simpl; lia)).
  pose proof (H 0%nat ltac:(simpl; lia)) as H0. cbn [nth] in H0.
  rewrite Nat2Z.inj_succ. unfold Z.succ. rewrite inject_Z_plus. change (inject_Z 1) with 1. lra.
Qed.

Lemma tracking_holds inp h h' : (forall a, In a (in_assets inp) -> h a = h' a) -> tracking inp h == tracking inp h' /\ cost inp h == cost inp h'.
Proof. intros H. split; apply qsum_ext; intros a Ha; rewrite (H a Ha); reflexivity. Qed.

(** Holdings the allocator rounds to. *)
Lemma near_holdings inp solver pen mc x d t : good_inputs inp -> 0 <= t -> t < 1 # 2 ->
  near_milp d t (build_milp inp pen mc) x -> solver (build_milp inp pen mc) = Some x ->
  exists raw h r, allocate_mip solver pen mc inp = build_result inp raw /\ NoDup (map fst raw) /\
    (forall a, In a (in_assets inp) -> share_of raw (a_name a) = h a) /\
    whole_lots inp h /\ (in_shorts inp = false -> d + t < 1 -> long_only inp h) /\
    - d <= r <= cash_ub (in_total inp) (in_assets inp) mc + d /\
    Qabs (cost inp h + r - in_total inp) <= d + t * basket inp /\
    in_total inp * tracking inp h + pen * r <=
      qdot (p_c (build_milp inp pen mc)) x + inject_Z (Z.of_nat (List.length (in_assets inp))) * d + t * basket inp.
Proof.
  intros HG Ht0 Ht HF HS. pose proof HG as (HV & Hne & HN & Hw & Hok & Hsh).
  assert (HLx : List.length x = (2 * List.length (in_assets inp) + 1)%nat).
  { destruct HF as [HF _]. rewrite HF. cbn [build_milp p_c]. rewrite !app_length, zeros_length, repeat_length. simpl. lia. }
  destruct (split3 x _ HLx) as (xs & us & r & -> & Hx & Hu).
  apply near_milp_reading in HF; auto. destruct HF as [D1 D3 D4 D5 D6].
  rewrite basket_lots. set (l := in_assets inp) in *. set (n := List.length l) in *. set (V := in_total inp) in *.
  set (ks := map rint xs).
  assert (Hk : List.length ks = n) by (unfold ks; rewrite map_length; auto).
  assert (Hint : forall i, (i < n)%nat -> Qabs (nth i xs 0 - inject_Z (nth i ks 0%Z)) <= t).
  { intros i Hi. destruct (D4 i Hi) as [z Hz]. unfold ks.
    rewrite (nth_indep _ 0%Z (rint 0)) by (rewrite map_length; lia). rewrite map_nth, (rint_near _ z t Hz Ht). exact Hz. }
  set (raw := map2 (fun a k => (a_name a, (k * a_lot a)%Z)) l ks).
  exists raw, (fun a => share_of raw (a_name a)), r.
  assert (Ef : firstn n (xs ++ us ++ [r]) = xs).
  { rewrite firstn_app, Hx, Nat.sub_diag, firstn_O, app_nil_r. apply firstn_all2. lia. }
  split; [|split; [|split; [|split; [|split; [|split; [|split]]]]]].
  - unfold allocate_mip. fold l n. rewrite HS.
    destruct (Nat.eqb_spec n 0) as [E0|_]; [exfalso; apply Hne; unfold n in E0; destruct l; [auto|discriminate]|].
    rewrite Ef. reflexivity.
  - unfold raw; rewrite map2_fst by auto; exact HN.
  - reflexivity.
  - intros a Ha. destruct (share_map2_lots l ks a HN Hk Ha) as (i & Hi & Ei & Es). fold raw in Es. rewrite Es. eauto.
  - intros Hns Hdt a Ha. destruct (share_map2_lots l ks a HN Hk Ha) as (i & Hi & Ei & Es). fold raw in Es. cbv beta. rewrite Es.
    specialize (D1 i Hi). rewrite Ei in D1.
    destruct (Qle_bool 0 (a_w a)) eqn:Ew.
    + assert (0 <= nth i ks 0)%Z; [|destruct (Hok a Ha); nia].
      pose proof (Hint i Hi) as Hi'. apply Qabs_le_iff in Hi' as [Hi' _].
      assert (inject_Z (-1) < inject_Z (nth i ks 0%Z)) by (change (inject_Z (-1)) with (-(1)); lra).
      rewrite <- Zlt_Qlt in *. lia.
    + apply qleb_f in Ew. assert (in_shorts inp = true) by (apply Hsh; eauto). congruence.
  - exact D3.
  - assert (E : cost inp (fun a => share_of raw (a_name a)) = qsum (map2 (fun a k => inject_Z (k * a_lot a) * a_price a) l ks)).
    { unfold cost. fold l. pose proof (share_map2 (fun a z => inject_Z z * a_price a) l ks HN Hk) as E. cbv beta in E. fold raw in E. rewrite E. reflexivity. }
    rewrite E. pose proof (cost_near l ks xs t Hk Hx ltac:(intros a Ha; destruct (Hok a Ha); apply Qlt_le_weak, lot_cost_pos; auto) Hint) as C.
    apply Qabs_le_iff in C. apply Qabs_le_iff in D5. apply Qabs_le_iff. fold V in D5 |- *. split; lra.
  - rewrite obj_reading by auto.
    assert (ET : tracking inp (fun a => share_of raw (a_name a)) = qsum (map2 (fun a k => Qabs (a_w a - inject_Z (k * a_lot a) * a_price a / V)) l ks)).
    { unfold tracking. fold l V. rewrite <- (share_map2 (fun a z => Qabs (a_w a - inject_Z z * a_price a / V)) l ks HN Hk). reflexivity. }
    rewrite ET, track_scale by exact HV.
    assert (G : qsum (map2 (fun a k => Qabs (lot_cost a * inject_Z k - a_w a * V)) l ks) <=
       qsum us + inject_Z (Z.of_nat n) * d + t * qsum (map lot_cost l)); [|lra].
    apply (qsum_near _ lot_cost d t l ks us dasset 0%Z); [lia|lia|]. intros i Hi. specialize (D6 i Hi). pose proof (Hint i Hi) as Hi'.
    assert (Hc : 0 <= lot_cost (nth i l dasset)).
    { destruct (Hok (nth i l dasset)); [apply nth_In; auto|]. apply Qlt_le_weak, lot_cost_pos; auto. }
    fold V in D6. apply Qabs_le_iff in D6 as [A B]. apply Qabs_le_iff in Hi' as [C D].
    set (c := lot_cost (nth i l dasset)) in *. set (xi := nth i xs 0) in *. set (ki := inject_Z (nth i ks 0%Z)) in *.
    assert ((xi - ki) * c <= t * c) by (apply Qmult_le_compat_r; auto).
    assert (- (xi - ki) * c <= t * c) by (apply Qmult_le_compat_r; auto).
    apply Qabs_le_iff. split; lra.
Qed.
