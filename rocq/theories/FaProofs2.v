(** The greedy allocator stays within its budget guard in binary64 when the budget is moderate. *)
From Flocq Require Import Core.
From Verif Require Import RBase FpLib FpSpec FpProofs FaModel FaSpec FaProofs.
Open Scope R_scope.

Definition ordinary1 (V : R) (a : fasset) : Prop :=
  0 <= fa_w a /\ isf (fa_price a) /\ bpow radix2 (-900) <= fa_price a /\ (1 <= fa_lot a <= 2 ^ 51)%Z /\ V <= bpow radix2 51 * fa_price a.

Lemma bpow51 : bpow radix2 51 = 2251799813685248. Proof. reflexivity. Qed.

Lemma lot_cost_rel V a : ordinary1 V a -> exists e, Rabs e <= ur /\ flot_cost a = fa_price a * IZR (fa_lot a) * (1 + e) /\ 0 < fa_price a /\ 1 <= IZR (fa_lot a).
Proof.
  intros (_ & _ & Hp & HL & _). assert (Hp0 : 0 < fa_price a) by (eapply Rlt_le_trans; [apply bpow_gt_0|exact Hp]). assert (HL1 : 1 <= IZR (fa_lot a)) by (apply (IZR_le 1); lia).
  unfold flot_cost, fmul. rewrite fint_id by lia.
  destruct (rnd_rel (fa_price a * IZR (fa_lot a))) as (e & He & E).
  { rewrite Rabs_pos_eq by nra. apply Rle_trans with (bpow radix2 (-900)); [apply bpow_le; lia|]. nra. }
  exists e. auto.
Qed.

(** One purchase of [n] lots out of a budget [B]. *)
Lemma purchase V a B n : ordinary1 V a -> 0 < V -> 0 <= B <= 2 * V -> (1 <= n)%Z -> IZR n <= rnd (B / flot_cost a) ->
  let x := IZR (n * fa_lot a) * fa_price a in
  0 < x <= B * (1 + 3 * ur) /\ Rabs (fmul (fint n) (flot_cost a) - x) <= 3 * ur * x /\ (n * fa_lot a <= 2 ^ 53)%Z.
Proof.
  intros Ho HV HB Hn Hq x. destruct (lot_cost_rel V a Ho) as (e1 & He1 & Ec & Hp & HL). pose proof Ho as (_ & _ & Hp9 & HLz & HVp).
  pose proof ur_pos as Hu. pose proof ur_small as Hus. apply Rabs_bd in He1. set (c := flot_cost a) in *. set (p := fa_price a) in *. set (L := IZR (fa_lot a)) in *.
  assert (HpL : 0 < p * L) by nra. assert (Hc : 0 < c) by (rewrite Ec; apply Rmult_lt_0_compat; lra). assert (Hn1 : 1 <= IZR n) by (apply (IZR_le 1); lia).
  assert (HBc : 0 <= B / c) by (apply Rmult_le_pos; [lra|left; apply Rinv_0_lt_compat; exact Hc]).
  destruct (rnd_big (B / c) HBc) as (e2 & He2 & E2).
  { eapply Rle_trans; [|exact Hq]. apply Rle_trans with 1; [|exact Hn1]. change 1 with (bpow radix2 0). apply bpow_le. lia. }
  apply Rabs_bd in He2. rewrite E2 in Hq.
  assert (Hnc : IZR n * c <= B * (1 + ur)).
  { apply Rle_trans with (B * (1 + e2)); [|nra]. apply Rmult_le_reg_r with (/ c); [apply Rinv_0_lt_compat; exact Hc|]. rewrite Rmult_assoc, Rinv_r, Rmult_1_r by lra. replace (B * (1 + e2) * / c) with (B / c * (1 + e2)) by (unfold Rdiv; ring). exact Hq. }
  assert (Ex : x = IZR n * (p * L)) by (unfold x; rewrite mult_IZR; fold L p; ring).
  assert (Hx0 : 0 < x) by (rewrite Ex; apply Rmult_lt_0_compat; lra).
  assert (Hx1 : x * (1 - ur) <= B * (1 + ur)). { replace (IZR n * c) with (x * (1 + e1)) in Hnc by (rewrite Ex, Ec; ring). nra. }
  assert (Hx : x <= B * (1 + 3 * ur)).
  { apply Rmult_le_reg_r with (1 - ur); [lra|]. eapply Rle_trans; [exact Hx1|]. rewrite Rmult_assoc. apply Rmult_le_compat_l; [lra|]. nra. }
  assert (Hnl : (n * fa_lot a <= 2 ^ 53)%Z).
  { apply le_IZR. apply Rmult_le_reg_r with p; [exact Hp|]. fold x. assert (x <= 3 * V) by nra. rewrite bpow51 in HVp. fold p in HVp. replace (IZR (2 ^ 53)) with 9007199254740992 by reflexivity. lra. }
  split; [split; assumption|]. split; [|exact Hnl].
  rewrite fint_id by nia. unfold fmul. destruct (rnd_rel (IZR n * c)) as (e3 & He3 & E3).
  { assert (Hcb : bpow radix2 (-1022) <= c). { apply Rle_trans with (bpow radix2 (-901)); [apply bpow_le; lia|]. replace (bpow radix2 (-901)) with (bpow radix2 (-900) * / 2) by (replace (-901)%Z with (-900 + -1)%Z by reflexivity; rewrite bpow_plus; reflexivity).
      assert (p <= p * L) by nra. rewrite Ec. pose proof (bpow_gt_0 radix2 (-900)). fold p in Hp9. nra. }
    rewrite Rabs_pos_eq by (apply Rmult_le_pos; lra). nra. }
  rewrite E3. replace (IZR n * c) with (x * (1 + e1)) by (rewrite Ex, Ec; ring). apply Rabs_bd in He3.
  replace (x * (1 + e1) * (1 + e3) - x) with (x * (e1 + e3 + e1 * e3)) by ring. rewrite Rabs_mult, (Rabs_pos_eq x) by lra. rewrite (Rmult_comm (3 * ur)). apply Rmult_le_compat_l; [lra|]. apply Rabs_le. nra.
Qed.

(** Tracked cash against the exact remainder after one purchase. *)
Lemma cash_step V S cash x f k : 0 < V -> 0 <= S -> 0 < x -> S + x <= 3 / 2 * V -> 0 <= k -> k * ur <= 1 / 16 -> isf cash -> isf f ->
  Rabs (cash - (V - S)) <= 3 * ur * S + 2 * ur * V * k -> Rabs (f - x) <= 3 * ur * x ->
  Rabs (fsub cash f - (V - (S + x))) <= 3 * ur * (S + x) + 2 * ur * V * (k + 1).
Proof.
  intros HV HS Hx HSx Hk Hku Fc Ff H1 H2. pose proof ur_pos. pose proof ur_small.
  pose proof (fadd_abs cash (- f) Fc (isf_opp _ Ff)) as HF. change (fadd cash (- f)) with (fsub cash f) in HF. change (cash + - f) with (cash - f) in HF.
  assert (A : Rabs (cash - f) <= 2 * V).
  { replace (cash - f) with ((cash - (V - S)) - (f - x) + (V - (S + x))) by ring. eapply Rle_trans; [apply Rabs_triang|]. pose proof (Rabs_triang (cash - (V - S)) (- (f - x))) as T. rewrite Rabs_Ropp in T.
    assert (Rabs (V - (S + x)) <= V) by (apply Rabs_le; lra). unfold Rminus in *. assert (ur * V * k <= 1 / 16 * V) by nra. nra. }
  replace (fsub cash f - (V - (S + x))) with ((fsub cash f - (cash - f)) + ((cash - (V - S)) - (f - x))) by ring. eapply Rle_trans; [apply Rabs_triang|].
  pose proof (Rabs_triang (cash - (V - S)) (- (f - x))) as T. rewrite Rabs_Ropp in T. unfold Rminus in *. assert (ur * Rabs (cash + - f) <= ur * (2 * V)) by (apply Rmult_le_compat_l; lra). lra.
Qed.

(** ** The floor pass *)
Definition longs (ps : list fpos) : Prop := forall p, In p ps -> (0 <= fp_shares p)%Z.

Lemma floor_pass_l V l : 0 < V -> (forall a, In a l -> ordinary1 V a) -> forall cash S k, isf cash -> 0 <= S -> 0 <= k ->
  S + V * (1 + 5 * ur) * rsum (map fa_w l) <= 3 / 2 * V -> (k + INR (length l)) * ur <= 1 / 16 ->
  Rabs (cash - (V - S)) <= 3 * ur * S + 2 * ur * V * k ->
  let '(ps, cash') := f_floor_pass V cash l in
  isf cash' /\ map fp_asset ps = l /\ longs ps /\ (forall p, In p ps -> fp_unaff p = false) /\
  0 <= exact_cost ps <= V * (1 + 5 * ur) * rsum (map fa_w l) /\
  Rabs (cash' - (V - (S + exact_cost ps))) <= 3 * ur * (S + exact_cost ps) + 2 * ur * V * (k + INR (length l)).
Proof.
  intros HV. pose proof ur_pos as Hu. pose proof ur_small as Hus. induction l as [|a l IH]; intros Ho cash S k Fc HS Hk Hw Hku Hc.
  - cbn [f_floor_pass]. unfold exact_cost, longs. simpl. rewrite !Rplus_0_r. repeat split; auto; try contradiction; lra.
  - assert (Hoa : ordinary1 V a) by (apply Ho; left; reflexivity). assert (Hol : forall b, In b l -> ordinary1 V b) by (intros; apply Ho; right; assumption).
    cbn [length] in *. rewrite S_INR in *. cbn [map] in Hw. rewrite rsum_cons in Hw. cbn [map]. rewrite (rsum_cons (fa_w a)).
    assert (Hwl : 0 <= rsum (map fa_w l)) by (apply rsum_nonneg; intros y Hy; apply in_map_iff in Hy as (b & <- & Hb); apply (Hol b Hb)).
    assert (Hwa : 0 <= fa_w a) by apply Hoa. pose proof (pos_INR (length l)) as Hn.
    assert (Pw : 0 <= V * (1 + 5 * ur) * fa_w a) by (apply Rmult_le_pos; [nra|exact Hwa]).
    cbn [f_floor_pass]. set (c := flot_cost a). set (B := fmul (fa_w a) V).
    set (lots := if Rltb cash c then 0%Z else if (ffloor (fdiv B c) <=? 0)%Z then 0%Z else ffloor (fdiv B c)).
    assert (HL : lots = 0%Z \/ (1 <= lots)%Z /\ IZR lots <= rnd (B / c)).
    { unfold lots. destruct (Rltb cash c); [left; reflexivity|]. destruct (ffloor (fdiv B c) <=? 0)%Z eqn:E; [left; reflexivity|]. apply Z.leb_gt in E. right. split; [lia|]. apply Zfloor_lb. }
    destruct HL as [E0|(HL1 & HL2)].
    + rewrite E0. cbn [Z.eqb]. specialize (IH Hol cash S k Fc HS Hk ltac:(nra) ltac:(nra) Hc). destruct (f_floor_pass V cash l) as (ps & cash'). destruct IH as (I1 & I2 & I3 & I4 & I5 & I6).
      assert (EC : exact_cost ((a, (0 * fa_lot a)%Z, false) :: ps) = exact_cost ps) by (unfold exact_cost; cbn [map]; rewrite rsum_cons; unfold fp_shares at 1; cbn [fst snd]; rewrite Z.mul_0_l; simpl; ring).
      rewrite EC. repeat split; auto.
      * cbn [map]. rewrite I2. reflexivity.
      * intros p [<-|Hp]; [unfold fp_shares; simpl; lia|auto].
      * intros p [<-|Hp]; [reflexivity|auto].
      * lra.
      * lra.
      * eapply Rle_trans; [exact I6|]. nra.
    + assert (Hlz : (lots =? 0)%Z = false) by (apply Z.eqb_neq; lia). rewrite Hlz.
      destruct (lot_cost_rel V a Hoa) as (e1 & He1 & Ec & Hp & HLr). fold c in Ec. apply Rabs_bd in He1.
      assert (Hp9 : bpow radix2 (-900) <= fa_price a) by apply Hoa.
      assert (Hcb : bpow radix2 (-901) <= c). { replace (bpow radix2 (-901)) with (bpow radix2 (-900) * / 2) by (replace (-901)%Z with (-900 + -1)%Z by reflexivity; rewrite bpow_plus; reflexivity).
        assert (fa_price a <= fa_price a * IZR (fa_lot a)) by nra. rewrite Ec. pose proof (bpow_gt_0 radix2 (-900)). nra. }
      assert (Hc0 : 0 < c) by (eapply Rlt_le_trans; [apply bpow_gt_0|exact Hcb]).
      assert (HB0 : 0 <= B) by (apply rnd_ge0; nra).
      assert (HBc : bpow radix2 (-1021) <= B).
      { destruct (rnd_big (B / c)) as (e2 & He2 & E2).
        - apply Rmult_le_pos; [lra|left; apply Rinv_0_lt_compat; exact Hc0].
        - eapply Rle_trans; [|exact HL2]. apply Rle_trans with 1; [change 1 with (bpow radix2 0); apply bpow_le; lia|apply (IZR_le 1); lia].
        - apply Rabs_bd in He2. assert (1 <= IZR lots) by (apply (IZR_le 1); lia). rewrite E2 in HL2.
          assert (Hh : / 2 <= B / c). { assert (0 <= B / c) by (apply Rmult_le_pos; [lra|left; apply Rinv_0_lt_compat; exact Hc0]). nra. }
          assert (c * / 2 <= B). { replace B with (B / c * c) by (field; lra). nra. }
          apply Rle_trans with (bpow radix2 (-901) * / 2); [|lra]. replace (bpow radix2 (-901) * / 2) with (bpow radix2 (-902)) by (replace (-902)%Z with (-901 + -1)%Z by reflexivity; rewrite bpow_plus; reflexivity). apply bpow_le; lia. }
      destruct (rnd_big (fa_w a * V)) as (e3 & He3 & E3); [nra|exact HBc|]. change (rnd (fa_w a * V)) with B in E3. apply Rabs_bd in He3.
      assert (HwV : 0 <= fa_w a * V) by nra.
      assert (HB1 : B <= fa_w a * V * (1 + ur)) by (rewrite E3; apply Rmult_le_compat_l; lra).
      assert (HwV2 : fa_w a * V * (1 + 5 * ur) <= 3 / 2 * V - S). { assert (0 <= V * (1 + 5 * ur) * rsum (map fa_w l)) by (apply Rmult_le_pos; [nra|exact Hwl]). nra. }
      destruct (purchase V a B lots Hoa HV ltac:(split; [exact HB0|nra]) HL1 HL2) as (Hx & Hf & _). fold c in Hf. set (x := IZR (lots * fa_lot a) * fa_price a) in *.
      assert (Hx5 : x <= V * (1 + 5 * ur) * fa_w a).
      { eapply Rle_trans; [apply Hx|]. apply Rle_trans with (fa_w a * V * (1 + ur) * (1 + 3 * ur)); [apply Rmult_le_compat_r; lra|]. replace (V * (1 + 5 * ur) * fa_w a) with (fa_w a * V * (1 + 5 * ur)) by ring. rewrite Rmult_assoc. apply Rmult_le_compat_l; [exact HwV|nra]. }
      pose proof (cash_step V S cash x (fmul (fint lots) c) k HV HS (proj1 Hx) ltac:(nra) Hk ltac:(nra) Fc (rnd_isf _) Hc Hf) as HC.
      set (cash1 := fsub cash (fmul (fint lots) c)) in *.
      specialize (IH Hol cash1 (S + x) (k + 1) (rnd_isf _) ltac:(lra) ltac:(lra) ltac:(nra) ltac:(nra) HC).
      destruct (f_floor_pass V cash1 l) as (ps & cash'). destruct IH as (I1 & I2 & I3 & I4 & I5 & I6).
      assert (EC : exact_cost ((a, (lots * fa_lot a)%Z, false) :: ps) = x + exact_cost ps) by (unfold exact_cost; cbn [map]; rewrite rsum_cons; reflexivity).
      rewrite EC. repeat split; auto.
      * cbn [map]. rewrite I2. reflexivity.
      * intros p [<-|Hpp]; [|auto]. unfold fp_shares. cbn [fst snd]. assert (1 <= fa_lot a)%Z by apply Hoa. nia.
      * intros p [<-|Hpp]; [reflexivity|auto].
      * lra.
      * lra.
      * replace (S + (x + exact_cost ps)) with (S + x + exact_cost ps) by ring. replace (k + (INR (length l) + 1)) with (k + 1 + INR (length l)) by ring. exact I6.
Qed.
