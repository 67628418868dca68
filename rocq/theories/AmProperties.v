(** MILP allocation with a solver that stops within tolerances. *)
From Verif Require Import QBase ProbModel DiscModel DiscSpec DiscProofs DiscMilp DiscCall DiscExit DiscProperties AmSpec AmProofs.
Open Scope Q_scope.
Open Scope list_scope.

Lemma no_proceeds inp : good_inputs inp -> in_shorts inp = false ->
  qsum (map (fun a => if Qlt_bool (a_w a) 0 then inject_Z (max_lots (in_total inp) a) * lot_cost a else 0) (in_assets inp)) == 0.
Proof.
  intros (HV & Hne & HN & Hw & Hok & Hsh) Hns.
  rewrite (qsum_ext _ (fun _ => 0)).
  - assert (Z0 : forall l : list asset, qsum (map (fun _ => 0) l) == 0).
    { induction l as [|z l IH]; cbn [map]; [reflexivity|]. rewrite qsum_cons. lra. }
    apply Z0.
  - intros a Ha. destruct (Qlt_bool (a_w a) 0) eqn:E; [|reflexivity]. apply qltb_t in E.
    assert (in_shorts inp = true) by (apply Hsh; eauto). congruence.
Qed.

(** Every row and bound up to [d], integers up to [t], objective up to [e]: the lots are whole, the funds are exceeded by at most
    [overspend d t], and no admissible allocation is better by more than [e + milp_slack d t].  An overspending of 1e-8 or
    more raises. *)
Theorem milp_inexact : forall inp solver pen mc x d t e,
  good_inputs inp -> 0 <= d -> 0 <= t -> t < 1 # 2 ->
  solver (build_milp inp pen mc) = Some x ->
  near_milp d t (build_milp inp pen mc) x -> gap_milp e (build_milp inp pen mc) x ->
  exists h, whole_lots inp h /\ (in_shorts inp = false -> d + t < 1 -> long_only inp h) /\
    cost inp h <= in_total inp + overspend d t inp /\
    (forall m, mc = Some m -> in_total inp - cost inp h <= m + overspend d t inp) /\
    (in_shorts inp = false ->
     forall h', whole_lots inp h' -> long_only inp h' -> cost inp h' <= in_total inp ->
       (forall m, mc = Some m -> in_total inp - cost inp h' <= m) ->
       objective pen inp h <= objective pen inp h' + e + milp_slack d t pen inp) /\
    ((cost inp h < in_total inp + (1 # 100000000) /\
      exists r, allocate_mip solver pen mc inp = Ok r /\ (forall a, In a (in_assets inp) -> held r a = h a) /\
        0 <= r_leftover r /\
        (r_leftover r == in_total inp - cost inp h \/ (r_leftover r = 0 /\ in_total inp < cost inp h))) \/
     (in_total inp + (1 # 100000000) <= cost inp h /\ allocate_mip solver pen mc inp = Err RuntimeError)).
Proof.
  intros inp solver pen mc x d t e HG Hd Ht0 Ht HS HF HO.
  destruct (near_holdings inp solver pen mc x d t HG Ht0 Ht HF HS) as (raw & h & r & EA & HNr & Eh & W & L & Hr & HC & HT).
  pose proof HG as (HV & Hne & HN & Hw & Hok & Hsh).
  pose proof (basket_nonneg inp HG) as HB.
  assert (HtB : 0 <= t * basket inp) by (apply Qmult_le_0_compat; auto).
  exists h. split; [exact W|]. split; [exact L|].
  apply Qabs_le_iff in HC as [C1 C2]. unfold overspend.
  split; [lra|]. split.
  { intros m ->. unfold cash_ub in Hr. cbv zeta in Hr.
    destruct (Qle_bool m _) eqn:E; [lra|]. apply qleb_f in E. lra. }
  split.
  { intros Hns h' W' L' C' M'.
    destruct (milp_competitor inp pen mc h' HG Hns W' L' C') as (y & Y1 & Y2).
    { unfold cash_ub. cbv zeta. pose proof (no_proceeds inp HG Hns) as Ep.
      assert (0 <= cost inp h').
      { apply qsum_nonneg. apply Forall_forall. intros q Hq. apply in_map_iff in Hq as (a & <- & Ha).
        apply Qmult_le_0_compat; [apply inject_Z_nonneg, L'; auto|]. destruct (Hok a Ha). lra. }
      destruct mc as [m|]; [destruct (Qle_bool m _) eqn:E; [apply M'; reflexivity|]|]; lra. }
    specialize (HO y Y1). rewrite Y2 in HO. unfold objective, milp_slack.
    assert (P : pen * (in_total inp - cost inp h - r) <= Qabs pen * (d + t * basket inp)).
    { eapply Qle_trans; [apply Qle_Qabs|]. rewrite Qabs_Qmult. rewrite !(Qmult_comm (Qabs pen)).
      apply Qmult_le_compat_r; [apply Qabs_le_iff; split; lra|apply Qabs_nonneg]. }
    lra. }
  assert (Ec : cost inp (fun a => share_of raw (a_name a)) == cost inp h).
  { apply qsum_ext. intros a Ha. rewrite (Eh a Ha). reflexivity. }
  pose proof (build_result_ok inp raw) as BO. rewrite Ec in BO. unfold q_eps8 in BO.
  destruct (Qlt_le_dec (cost inp h) (in_total inp + (1 # 100000000))) as [Hlt|Hge].
  - left. split; [exact Hlt|]. destruct (proj2 BO Hlt) as (res & HR). exists res. rewrite EA. split; [exact HR|].
    destruct (build_result_l inp raw res HV HNr HR) as (A1 & A2 & A3 & A4 & A5 & A6).
    assert (Ec2 : cost inp (held res) == cost inp h).
    { apply qsum_ext. intros a Ha. rewrite A1, (Eh a Ha). reflexivity. }
    split; [intros a Ha; rewrite A1; auto|]. split; [exact A5|].
    rewrite Ec2 in A6. destruct A6 as [A6|[A6 [A7 _]]]; auto.
  - right. split; [exact Hge|]. rewrite EA.
    destruct (build_result inp raw) as [res|er] eqn:E.
    + exfalso. assert (cost inp h < in_total inp + (1 # 100000000)) by (apply BO; eauto). lra.
    + f_equal. unfold build_result in E.
      repeat match type of E with (if ?b then _ else _) = _ => destruct b end; try discriminate. injection E as <-. reflexivity.
Qed.
Print Assumptions milp_inexact.

(** When prices and funds are whole multiples of a tick larger than the possible overspending, nothing is overspent and no
    request fails. *)
Theorem milp_inexact_on_tick : forall inp solver pen mc x d t e g,
  good_inputs inp -> 0 <= d -> 0 <= t -> t < 1 # 2 ->
  solver (build_milp inp pen mc) = Some x ->
  near_milp d t (build_milp inp pen mc) x -> gap_milp e (build_milp inp pen mc) x ->
  on_tick g (in_total inp) -> (forall a, In a (in_assets inp) -> on_tick g (a_price a)) -> overspend d t inp < g ->
  exists r, allocate_mip solver pen mc inp = Ok r /\ whole_lots inp (held r) /\
    cost inp (held r) <= in_total inp /\ r_leftover r == in_total inp - cost inp (held r).
Proof.
  intros inp solver pen mc x d t e g HG Hd Ht0 Ht HS HF HO [zv Hzv] Hp Hg.
  destruct (milp_inexact inp solver pen mc x d t e HG Hd Ht0 Ht HS HF HO) as (h & W & _ & C & _ & _ & R).
  pose proof HG as (HV & Hne & HN & Hw & Hok & Hsh).
  pose proof (basket_nonneg inp HG) as HB.
  assert (HtB : 0 <= t * basket inp) by (apply Qmult_le_0_compat; auto).
  assert (Hg0 : 0 < g) by (unfold overspend in Hg; lra).
  assert (Hzc : on_tick g (cost inp h)).
  { unfold cost. clear - Hp. induction (in_assets inp) as [|a l IH]; cbn [map].
    - exists 0%Z. change (qsum []) with 0. change (inject_Z 0) with 0. lra.
    - destruct IH as [z Hz]; [intros; apply Hp; right; auto|]. destruct (Hp a (or_introl eq_refl)) as [y Hy].
      exists (h a * y + z)%Z. rewrite qsum_cons, Hz, Hy, inject_Z_plus, inject_Z_mult. ring. }
  destruct Hzc as [zc Hzc].
  assert (Hle : cost inp h <= in_total inp).
  { rewrite Hzc, Hzv in C |- *. apply Qmult_le_compat_r; [|lra]. rewrite <- Zle_Qle.
    assert (inject_Z zc * g < inject_Z (zv + 1) * g) by (rewrite inject_Z_plus; change (inject_Z 1) with 1; lra).
    apply Qmult_lt_r in H; [|auto]. rewrite <- Zlt_Qlt in H. lia. }
  destruct R as [(Hlt & r & ER & Eh & R0 & R1)|(Hge & _)]; [|exfalso; lra].
  assert (Ec : cost inp (held r) == cost inp h) by (apply qsum_ext; intros a Ha; rewrite (Eh a Ha); reflexivity).
  exists r. split; [exact ER|]. split; [intros a Ha; rewrite (Eh a Ha); auto|]. rewrite Ec. split; [exact Hle|].
  destruct R1 as [R1|[R1 R2]]; [exact R1|exfalso; lra].
Qed.
Print Assumptions milp_inexact_on_tick.

(** A tolerance above 1e-8 can turn an affordable request into a RuntimeError, even with exact integers and no gap. *)
Theorem milp_inexact_raises_refuted : forall d, (1 # 100000000) <= d -> d <= 1 ->
  exists inp solver x, good_inputs inp /\ in_shorts inp = false /\ solver (build_milp inp 1 None) = Some x /\
    near_milp d 0 (build_milp inp 1 None) x /\ gap_milp 0 (build_milp inp 1 None) x /\
    (exists h, whole_lots inp h /\ long_only inp h /\ cost inp h <= in_total inp) /\
    allocate_mip solver 1 None inp = Err RuntimeError.
Proof.
  intros d Hd Hd1. set (inp := mkI [mkA "a" 1 (100 + d) 1]%string 100 false).
  exists inp, (fun _ => Some [1; 0; 0]), [1; 0; 0].
  assert (Hm : max_lots 100 (mkA "a" 1 (100 + d) 1) = 1%Z).
  { unfold max_lots. cbv zeta. unfold lot_cost. cbn [a_price a_lot]. change (inject_Z 1) with 1.
    destruct (Qlt_bool 0 ((100 + d) * 1)) eqn:E; [|apply qltb_f in E; lra].
    assert (Qfloor (100 / ((100 + d) * 1)) = 0%Z); [|lia].
    assert (H1 : 0 <= 100 / ((100 + d) * 1)) by (apply Qle_shift_div_l; lra).
    assert (H2 : 100 / ((100 + d) * 1) < 1) by (apply Qlt_shift_div_r; lra).
    pose proof (Qfloor_le (100 / ((100 + d) * 1))) as F1. pose proof (Qlt_floor (100 / ((100 + d) * 1))) as F2.
    set (f := Qfloor _) in *. assert (inject_Z f < inject_Z 1) by (change (inject_Z 1) with 1; lra).
    assert (inject_Z 0 < inject_Z (f + 1)) by (change (inject_Z 0) with 0; lra). rewrite <- Zlt_Qlt in *. lia. }
  assert (HG : good_inputs inp).
  { split; [reflexivity|]. split; [discriminate|]. split; [repeat constructor; intros []|]. split; [reflexivity|]. split.
    - intros a [<-|[]]. cbn. split; [lra|lia].
    - split; [discriminate|]. intros (a & [<-|[]] & Ha). cbn in Ha. lra. }
  split; [exact HG|]. split; [reflexivity|]. split; [reflexivity|].
  split.
  { split; [reflexivity|]. split; [|split; [|split]].
    - intros [|[|[|i]]] Hi; cbn in Hi; try lia;
        cbn [build_milp p_lb p_ub in_assets inp in_total List.length map app repeat zeros nth Nat.add a_w].
      + rewrite Hm. change (Qle_bool 0 1) with true. cbv iota. change (inject_Z 1) with 1. lra.
      + lra.
      + unfold cash_ub. cbv zeta. cbn [map a_w qsum fold_right]. change (Qlt_bool 1 0) with false. cbv iota. change (nth 2 [0; 0; 0] 0) with 0. split; lra.
    - intros [|i] Hi; cbn in Hi; [|lia]. exists 1%Z. vm_compute. discriminate.
    - apply Qabs_le_iff. cbn [build_milp p_eq fst snd inp in_assets in_total List.length map app zeros repeat]. unfold lot_cost, qdot, qsum. cbn [map2 fold_right a_price a_lot]. change (inject_Z 1) with 1. split; lra.
    - intros row rhs [E|[E|[]]]; cbn [build_milp p_le in_assets in_total inp List.length a_w] in E; injection E as <- <-; unfold lot_cost, qdot, qsum, set_at; cbn [upd zeros repeat map2 fold_right a_price a_lot Nat.add Nat.mul]; change (inject_Z 1) with 1; lra. }
  split.
  { intros y Hy. assert (HLy : List.length y = (2 * 1 + 1)%nat) by (destruct Hy as [-> _]; reflexivity).
    destruct (split3 y 1 HLy) as (xs & us & r & -> & Hx & Hu).
    change [1; 0; 0] with ([1] ++ [0] ++ [0]). rewrite !obj_reading by auto. apply milp_reading in Hy; auto. destruct Hy as [D1 D2 D3 _ D5 D6].
    destruct us as [|u1 [|]]; try discriminate Hu. specialize (D2 0%nat ltac:(cbn; lia)). cbn [nth] in D2. cbn. lra. }
  split.
  { exists (fun _ => 0%Z). split; [|split].
    - intros a _. exists 0%Z. reflexivity.
    - intros a _. lia.
    - unfold cost, qsum. cbn [inp in_assets in_total map fold_right a_price]. change (inject_Z 0) with 0. lra. }
  unfold allocate_mip. cbn [in_assets inp List.length Nat.eqb firstn map map2].
  change (rint 1) with 1%Z.
  match goal with |- build_result _ ?raw = _ => pose proof (build_result_ok inp raw) as BO; destruct (build_result inp raw) as [res|er] eqn:E end.
  - exfalso. destruct BO as [BO _]. specialize (BO ltac:(eauto)).
    unfold cost, q_eps8, qsum in BO. cbn [inp in_assets in_total map a_name a_price a_lot fold_right] in BO.
    change (share_of [("a"%string, (1 * 1)%Z)] "a"%string) with 1%Z in BO. change (inject_Z 1) with 1 in BO. lra.
  - f_equal. unfold build_result in E.
    repeat match type of E with (if ?b then _ else _) = _ => destruct b end; try discriminate. injection E as <-. reflexivity.
Qed.
Print Assumptions milp_inexact_raises_refuted.

(** Tolerances of zero: the exact allocator. *)
Theorem milp_exact_is_inexact : forall P x, milp_optimum P x -> near_milp 0 0 P x /\ gap_milp 0 P x.
Proof.
  intros P x [(F1 & F2 & F3 & F4 & F5) O]. split.
  - split; [exact F1|]. split; [intros i Hi; specialize (F2 i Hi); lra|]. split; [|split].
    + intros i Hi. destruct (F3 i Hi) as [z Hz]. exists z. apply Qabs_le_iff. lra.
    + apply Qabs_le_iff. lra.
    + intros row rhs Hin. specialize (F5 row rhs Hin). lra.
  - intros y Hy. specialize (O y Hy). lra.
Qed.
Print Assumptions milp_exact_is_inexact.

(** The hypotheses are met: HiGHS' tolerances on one asset at 10.01 with funds of 100.00 (ticks of a cent). *)
Definition am_inp : inputs := mkI [mkA "a" 1 (1001 # 100) 1]%string 100 false.
Definition am_x : list Q := [9 + (1 # 100000000); 991 # 100; 991 # 100].
Example am_near : near_milp (1 # 1000000) (1 # 1000000) (build_milp am_inp 1 None) am_x.
Proof.
  split; [reflexivity|]. split; [|split; [|split]].
  - intros [|[|[|i]]] Hi; cbn in Hi; try lia; vm_compute; split; discriminate.
  - intros [|i] Hi; cbn in Hi; [|lia]. exists 9%Z. vm_compute. discriminate.
  - vm_compute. discriminate.
  - intros row rhs [E|[E|[]]]; cbn in E; injection E as <- <-; vm_compute; discriminate.
Qed.
Example am_hyps : good_inputs am_inp /\ overspend (1 # 1000000) (1 # 1000000) am_inp < 1 # 100 /\
  on_tick (1 # 100) (in_total am_inp) /\ (forall a, In a (in_assets am_inp) -> on_tick (1 # 100) (a_price a)).
Proof.
  split; [|split; [|split]].
  - split; [reflexivity|]. split; [discriminate|]. split; [repeat constructor; intros []|]. split; [reflexivity|]. split.
    + intros a [<-|[]]. split; reflexivity.
    + split; [discriminate|]. intros (a & [<-|[]] & Ha). discriminate Ha.
  - vm_compute. reflexivity.
  - exists 10000%Z. reflexivity.
  - intros a [<-|[]]. exists 1001%Z. reflexivity.
Qed.
(** ... and this point is within 1e-4 of the optimum. *)
Example am_gap : gap_milp (1 # 10000) (build_milp am_inp 1 None) am_x.
Proof.
  intros y Hy. assert (HLy : List.length y = (2 * 1 + 1)%nat) by (destruct Hy as [-> _]; reflexivity).
  destruct (split3 y 1 HLy) as (xs & us & r & -> & Hx & Hu).
  change am_x with ([9 + (1 # 100000000)] ++ [991 # 100] ++ [991 # 100]). rewrite !obj_reading by auto. apply milp_reading in Hy; auto.
  destruct Hy as [D1 D2 D3 D4 D5 D6].
  destruct xs as [|x1 [|]]; try discriminate Hx. destruct us as [|u1 [|]]; try discriminate Hu.
  pose proof (D4 0%nat ltac:(cbn; lia)) as [z Hz]. pose proof (D6 0%nat ltac:(cbn; lia)) as A1.
  apply Qabs_le_iff in A1. cbn [nth in_assets am_inp a_w in_total] in *. unfold lot_cost in *. cbn [a_price a_lot] in *.
  change (inject_Z 1) with 1 in *. unfold qdot in D5. simpl in D5. unfold lot_cost in D5. cbn [a_price a_lot] in D5. change (inject_Z 1) with 1 in D5.
  rewrite Hz in *. assert (inject_Z z < inject_Z 10) by (change (inject_Z 10) with 10; lra). rewrite <- Zlt_Qlt in H.
  assert (inject_Z z <= inject_Z 9) by (rewrite <- Zle_Qle; lia). change (inject_Z 9) with 9 in *. simpl. lra.
Qed.
