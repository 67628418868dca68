(** The top-up loop in binary64: termination and budget. *)
From Flocq Require Import Core.
From Verif Require Import RBase FpLib FpSpec FpProofs FaModel FaSpec FaProofs FaProofs2.
Open Scope R_scope.

Lemma f_argmax_from_spec l : forall best bi i, let k := f_argmax_from best bi i l in
  (k = bi /\ forall x, In x l -> x <= best) \/ ((i <= k < i + length l)%nat /\ best < nth (k - i) l 0).
Proof.
  induction l as [|x l IH]; intros best bi i; cbn [f_argmax_from]; [left; split; [reflexivity|contradiction]|].
  destruct (Rltb_spec best x) as [L|L].
  - right. destruct (IH x i (S i)) as [(E & H)|(H1 & H2)]; cbv zeta in *.
    + rewrite E, Nat.sub_diag. simpl. split; [lia|exact L].
    + cbn [length]. split; [lia|]. set (k := f_argmax_from x i (S i) l) in *. replace (k - i)%nat with (S (k - S i)) by lia. cbn [nth]. lra.
  - destruct (IH best bi (S i)) as [(E & H)|(H1 & H2)]; cbv zeta in *.
    + left. split; [exact E|]. intros y [<-|Hy]; [lra|auto].
    + right. cbn [length]. split; [lia|]. set (k := f_argmax_from best bi (S i) l) in *. replace (k - i)%nat with (S (k - S i)) by lia. cbn [nth]. exact H2.
Qed.
Lemma f_argmax_lt l : l <> [] -> (f_argmax l < length l)%nat.
Proof.
  destruct l as [|x l]; [congruence|]. intros _. unfold f_argmax. destruct (f_argmax_from_spec l x 0%nat 1%nat) as [(E & _)|(H & _)]; cbv zeta in *; cbn [length]; lia.
Qed.

(** Position updates. *)
Lemma f_upd_length {A} k f (l : list A) : length (f_upd k f l) = length l.
Proof. revert k. induction l as [|x l IH]; intros [|k]; simpl; auto. Qed.
Lemma f_upd_in {A} k f (l : list A) d y : In y (f_upd k f l) -> In y l \/ ((k < length l)%nat /\ y = f (nth k l d)).
Proof.
  revert k. induction l as [|x l IH]; intros k H; [destruct k; destruct H|]. destruct k as [|k].
  - destruct H as [<-|H]; [right; split; [simpl; lia|reflexivity]|left; right; exact H].
  - destruct H as [<-|H]; [left; left; reflexivity|]. destruct (IH k H) as [H1|(H1 & H2)]; [left; right; exact H1|right; split; [simpl; lia|exact H2]].
Qed.
Lemma mark_assets k ps : map fp_asset (f_mark k ps) = map fp_asset ps.
Proof. unfold f_mark. revert k. induction ps as [|p ps IH]; intros [|k]; simpl; f_equal; auto. Qed.
Lemma buy_assets k n ps : map fp_asset (f_buy k n ps) = map fp_asset ps.
Proof. unfold f_buy. revert k. induction ps as [|p ps IH]; intros [|k]; simpl; f_equal; auto. Qed.
Lemma mark_cost k ps : exact_cost (f_mark k ps) = exact_cost ps.
Proof.
  unfold exact_cost, f_mark. revert k. induction ps as [|p ps IH]; intros [|k]; cbn [f_upd map]; auto. rewrite !rsum_cons, IH. reflexivity.
Qed.
Lemma buy_cost k n ps : (k < length ps)%nat -> let a := fp_asset (nth k ps f_dummy) in
  exact_cost (f_buy k n ps) = exact_cost ps + IZR (n * fa_lot a) * fa_price a.
Proof.
  unfold exact_cost, f_buy. revert k. induction ps as [|p ps IH]; intros k H; [simpl in H; lia|]. destruct k as [|k]; cbn [f_upd map nth]; cbv zeta.
  - rewrite !rsum_cons. unfold fp_shares at 1, fp_asset at 2 3. cbn [fst snd]. rewrite plus_IZR. unfold fp_asset. ring.
  - rewrite !rsum_cons, IH by (simpl in H; lia). cbv zeta. ring.
Qed.
Lemma mark_longs k ps : longs ps -> longs (f_mark k ps).
Proof.
  intros H p Hp. apply (f_upd_in _ _ _ f_dummy) in Hp as [Hp|(Hk & ->)]; [auto|]. unfold fp_shares. cbn [fst]. apply H. apply nth_In. exact Hk.
Qed.
Lemma buy_longs k n ps : longs ps -> (0 <= n)%Z -> (forall p, In p ps -> (0 <= fa_lot (fp_asset p))%Z) -> longs (f_buy k n ps).
Proof.
  intros H Hn HL p Hp. apply (f_upd_in _ _ _ f_dummy) in Hp as [Hp|(Hk & ->)]; [auto|]. unfold fp_shares at 1. cbn [fst snd].
  pose proof (nth_In ps f_dummy Hk) as Hin. specialize (H _ Hin). specialize (HL _ Hin). nia.
Qed.

(** ** Termination: every pass buys, marks a fresh asset, or stops. *)
Definition unmarked (ps : list fpos) : nat := length (filter (fun p => negb (fp_unaff p)) ps).
Lemma mark_fewer k ps : (k < length ps)%nat -> fp_unaff (nth k ps f_dummy) = false -> S (unmarked (f_mark k ps)) = unmarked ps.
Proof.
  unfold unmarked, f_mark. revert k. induction ps as [|p ps IH]; intros k Hk Hu; [simpl in Hk; lia|]. destruct k as [|k]; cbn [f_upd nth] in *.
  - cbn [filter]. rewrite Hu. reflexivity.
  - cbn [filter]. destruct (negb (fp_unaff p)); cbn [length]; rewrite <- (IH k) by (auto; simpl in Hk; lia); reflexivity.
Qed.
Lemma buy_same k n ps : (k < length ps)%nat -> fp_unaff (nth k ps f_dummy) = false -> unmarked (f_buy k n ps) = unmarked ps.
Proof.
  unfold unmarked, f_buy. revert k. induction ps as [|p ps IH]; intros k Hk Hu; [simpl in Hk; lia|]. destruct k as [|k]; cbn [f_upd nth] in *.
  - cbn [filter]. rewrite Hu. reflexivity.
  - cbn [filter]. destruct (negb (fp_unaff p)); cbn [length]; rewrite (IH k) by (auto; simpl in Hk; lia); reflexivity.
Qed.
(** The candidate exists and has not been marked. *)
Lemma candidate V ps : Rleb (f_maximum (map (f_deficit V) ps)) f_tol = false ->
  let k := f_argmax (map (f_deficit V) ps) in (k < length ps)%nat /\ fp_unaff (nth k ps f_dummy) = false.
Proof.
  intros H k. apply Rleb_false in H. pose proof tol_bounds as HT. destruct ps as [|p ps]; [unfold f_maximum in H; simpl in H; lra|].
  assert (Hk : (k < length (p :: ps))%nat). { unfold k. rewrite <- (map_length (f_deficit V) (p :: ps)). apply f_argmax_lt. discriminate. }
  split; [exact Hk|]. unfold f_maximum in H. fold k in H. rewrite nth_indep with (d' := f_deficit V f_dummy) in H by (rewrite map_length; exact Hk). rewrite map_nth in H.
  unfold f_deficit at 1 in H. destruct (fp_unaff (nth k (p :: ps) f_dummy)); [lra|reflexivity].
Qed.

Inductive step_kind (V : R) (s : fstate) : fstate + fstate -> Prop :=
| SK_stop ps ds : ps = fg_pos s \/ (exists k, ps = f_mark k (fg_pos s)) -> step_kind V s (inr (mkFG ps (fg_cash s) (fg_iter s) ds true))
| SK_mark k ds : (k < length (fg_pos s))%nat -> fp_unaff (nth k (fg_pos s) f_dummy) = false -> step_kind V s (inl (mkFG (f_mark k (fg_pos s)) (fg_cash s) (fg_iter s) ds false))
| SK_buy k n ds : (k < length (fg_pos s))%nat -> fp_unaff (nth k (fg_pos s) f_dummy) = false -> (1 <= n)%Z ->
    let c := flot_cost (fp_asset (nth k (fg_pos s) f_dummy)) in
    c <= fadd (fg_cash s) f_tol -> IZR n <= rnd (fadd (fg_cash s) f_tol / c) ->
    step_kind V s (inl (mkFG (f_buy k n (fg_pos s)) (fsub (fg_cash s) (fmul (fint n) c)) (fg_iter s + 1) ds false)).

Lemma f_step_kind V s : step_kind V s (f_step V s).
Proof.
  unfold f_step. destruct (Rleb (f_maximum (map (f_deficit V) (fg_pos s))) f_tol) eqn:E; [apply SK_stop; left; reflexivity|].
  destruct (candidate V (fg_pos s) E) as (Hk & Hu). set (k := f_argmax (map (f_deficit V) (fg_pos s))) in *. cbv zeta.
  assert (HU : step_kind V s (if forallb fp_unaff (f_mark k (fg_pos s)) then inr (mkFG (f_mark k (fg_pos s)) (fg_cash s) (fg_iter s) (map (f_deficit V) (fg_pos s)) true)
     else inl (mkFG (f_mark k (fg_pos s)) (fg_cash s) (fg_iter s) (map (f_deficit V) (fg_pos s)) false))).
  { destruct (forallb fp_unaff (f_mark k (fg_pos s))); [apply SK_stop; right; eexists; reflexivity|apply SK_mark; assumption]. }
  match goal with |- step_kind _ _ (if Rltb ?a ?b then _ else _) => destruct (Rltb_spec a b) as [L|L]; [exact HU|] end.
  match goal with |- step_kind _ _ (if (?n <=? 0)%Z then _ else _) => destruct (n <=? 0)%Z eqn:EN; [exact HU|]; set (m := n) in * end. apply Z.leb_gt in EN.
  apply SK_buy; auto; try lia; try lra.
  apply Rle_trans with (IZR (ffloor (fdiv (fadd (fg_cash s) f_tol) (flot_cost (fp_asset (nth k (fg_pos s) f_dummy)))))); [apply IZR_le; unfold m; lia|apply Zfloor_lb].
Qed.

Lemma f_loop_total V mc mi fuel : forall s, (Z.to_nat (mi - fg_iter s) + unmarked (fg_pos s) < fuel)%nat -> f_loop fuel V mc mi s <> None.
Proof.
  induction fuel as [|f IH]; intros s H; [lia|]. cbn [f_loop]. destruct (Rleb mc (fadd (fg_cash s) f_tol) && (fg_iter s <? mi)%Z) eqn:E; [|discriminate].
  apply andb_prop in E as (_ & E). apply Z.ltb_lt in E. pose proof (f_step_kind V s) as K. destruct K as [ps ds _|k ds Hk Hu|k n ds Hk Hu Hn c _ _]; [discriminate| |].
  - apply IH. cbn [fg_iter fg_pos]. pose proof (mark_fewer k (fg_pos s) Hk Hu). lia.
  - apply IH. cbn [fg_iter fg_pos]. rewrite (buy_same k n (fg_pos s) Hk Hu). lia.
Qed.

(** ** Budget *)
Definition loop_inv (V D : R) (l : list fasset) (n0 : R) (s : fstate) : Prop :=
  isf (fg_cash s) /\ map fp_asset (fg_pos s) = l /\ longs (fg_pos s) /\ (0 <= fg_iter s)%Z /\ 0 <= exact_cost (fg_pos s) <= V + D /\
  Rabs (fg_cash s - (V - exact_cost (fg_pos s))) <= 3 * ur * exact_cost (fg_pos s) + 2 * ur * V * (n0 + IZR (fg_iter s)).

Lemma cost_longs ps : longs ps -> (forall p, In p ps -> 0 <= fa_price (fp_asset p)) -> 0 <= exact_cost ps /\ gross_value ps = exact_cost ps.
Proof.
  intros HL HP. unfold exact_cost, gross_value. induction ps as [|p ps IH]; [simpl; split; lra|]. cbn [map]. rewrite !rsum_cons.
  destruct IH as (I1 & I2); [intros q Hq; apply HL; right; exact Hq|intros q Hq; apply HP; right; exact Hq|]. rewrite I2.
  assert (0 <= IZR (fp_shares p) * fa_price (fp_asset p)). { apply Rmult_le_pos; [apply (IZR_le 0), HL; left; reflexivity|apply HP; left; reflexivity]. }
  rewrite Rabs_pos_eq by assumption. split; lra.
Qed.

Lemma loop_budget V D l n0 mc mi fuel : 1 <= V -> (forall a, In a l -> ordinary1 V a) -> 0 <= n0 -> (0 <= mi)%Z -> (n0 + IZR mi) * ur <= 1 / 64 ->
  (2 * (n0 + IZR mi) + 12) * ur * V + 2 * f_tol <= D -> D <= V / 4 ->
  forall s s', loop_inv V D l n0 s -> f_loop fuel V mc mi s = Some s' -> loop_inv V D l n0 s'.
Proof.
  intros HV Ho Hn0 Hmi HK HD1 HD2. pose proof ur_pos as Hu. pose proof ur_small as Hus. pose proof tol_bounds as HTol.
  induction fuel as [|f IH]; intros s s' HI H.
  { cbn [f_loop] in H. destruct (_ && _)%bool; [discriminate H|]. injection H as <-. exact HI. }
  cbn [f_loop] in H. destruct (Rleb mc (fadd (fg_cash s) f_tol) && (fg_iter s <? mi)%Z)%bool eqn:E; [|injection H as <-; exact HI].
  apply andb_prop in E as (_ & E). apply Z.ltb_lt in E. pose proof (f_step_kind V s) as K. destruct HI as (Fc & HA & HL & Hit & HS & HC).
  set (S := exact_cost (fg_pos s)) in *.
  destruct K as [ps ds Hps|k ds Hk Hum|k n ds Hk Hum Hn c Hc Hq].
  - injection H as <-. unfold loop_inv. cbn [fg_pos fg_cash fg_iter]. destruct Hps as [-> | (k & ->)]; [|rewrite mark_assets, mark_cost]; fold S; repeat split; auto using mark_longs; lra.
  - refine (IH _ _ _ H). unfold loop_inv. cbn [fg_pos fg_cash fg_iter]. rewrite mark_assets, mark_cost. fold S. repeat split; auto using mark_longs; lra.
  - refine (IH _ _ _ H). unfold loop_inv. cbn [fg_pos fg_cash fg_iter]. rewrite buy_assets, (buy_cost k n (fg_pos s) Hk). fold S. cbv zeta. set (a := fp_asset (nth k (fg_pos s) f_dummy)) in *.
    assert (Ha : In a l) by (rewrite <- HA; unfold a; apply in_map, nth_In; exact Hk). pose proof (Ho a Ha) as Hoa.
    assert (Hit' : IZR (fg_iter s) <= IZR mi) by (apply IZR_le; lia). assert (Hit0 : 0 <= IZR (fg_iter s)) by (apply (IZR_le 0); lia).
    set (kk := n0 + IZR (fg_iter s)) in *. assert (HkK : kk * ur <= 1 / 64) by (unfold kk; nra). assert (Hk0 : 0 <= kk) by (unfold kk; lra).
    destruct (add_err (fg_cash s) f_tol Fc (rnd_isf _)) as (e & He & Ee). apply Rabs_bd in He. rewrite Ee in Hc, Hq.
    destruct (lot_cost_rel V a Hoa) as (e1 & He1 & Ec & Hp & HLr). fold c in Ec. apply Rabs_bd in He1.
    assert (Hc0 : 0 < c) by (rewrite Ec; apply Rmult_lt_0_compat; nra).
    apply Rabs_bd in HC. assert (HuV : ur * V <= V / 1000) by nra. assert (HuVk : ur * V * kk <= V / 64) by nra. assert (HuS : ur * S <= ur * (5 / 4 * V)) by (apply Rmult_le_compat_l; lra).
    set (B := (fg_cash s + f_tol) * (1 + e)) in *. assert (HB0 : 0 <= B) by lra.
    assert (Hct : 0 < fg_cash s + f_tol). { destruct (Rle_lt_dec (fg_cash s + f_tol) 0) as [L|L]; [exfalso|exact L]. assert (B <= 0) by (unfold B; nra). lra. }
    assert (HcU : fg_cash s + f_tol <= 5 / 4 * V) by nra.
    assert (HB1 : B <= (fg_cash s + f_tol) * (1 + ur)) by (unfold B; apply Rmult_le_compat_l; lra).
    destruct (purchase V a B n Hoa ltac:(lra) ltac:(split; [exact HB0|nra]) Hn Hq) as (Hx & Hf & _). fold c in Hf. set (x := IZR (n * fa_lot a) * fa_price a) in *.
    assert (Hx5 : x <= (fg_cash s + f_tol) + 5 * ur * (5 / 4 * V)).
    { eapply Rle_trans; [apply Hx|]. apply Rle_trans with ((fg_cash s + f_tol) * (1 + ur) * (1 + 3 * ur)); [apply Rmult_le_compat_r; lra|].
      apply Rle_trans with ((fg_cash s + f_tol) * (1 + 5 * ur)); [rewrite Rmult_assoc; apply Rmult_le_compat_l; [lra|nra]|]. nra. }
    assert (HkmK : ur * V * kk <= ur * V * (n0 + IZR mi)) by (apply Rmult_le_compat_l; [nra|unfold kk; lra]).
    assert (HuV0 : 0 <= ur * V) by nra. assert (HSx : S + x <= V + D) by lra.
    pose proof (cash_step V S (fg_cash s) x (fmul (fint n) c) kk ltac:(lra) ltac:(lra) (proj1 Hx) ltac:(lra) Hk0 ltac:(lra) Fc (rnd_isf _) ltac:(apply Rabs_le; lra) Hf) as HC'.
    repeat split; try assumption; try lra.
    + apply rnd_isf.
    + apply buy_longs; [exact HL|lia|]. intros p Hp'. assert (In (fp_asset p) l) as Hpl by (rewrite <- HA; apply in_map; exact Hp'). destruct (Ho _ Hpl) as (_ & _ & _ & Hlot & _). lia.
    + lia.
    + rewrite plus_IZR. replace (n0 + (IZR (fg_iter s) + 1)) with (kk + 1) by (unfold kk; ring). exact HC'.
Qed.

(** ** The whole call *)
Lemma floor_pass_shape V l : forall cash, let '(ps, _) := f_floor_pass V cash l in length ps = length l.
Proof.
  induction l as [|a l IH]; intros cash; cbn [f_floor_pass]; [reflexivity|].
  match goal with |- context [f_floor_pass V ?c l] => specialize (IH c); destruct (f_floor_pass V c l) as (ps & c') end. cbn [length]. rewrite IH. reflexivity.
Qed.
Lemma filter_le {A} (f : A -> bool) l : (length (filter f l) <= length l)%nat.
Proof. induction l as [|x l IH]; simpl; [lia|]. destruct (f x); simpl; lia. Qed.

Lemma greedy_total V l mi : exists s, f_greedy_loop V l mi = Some s.
Proof.
  unfold f_greedy_loop. pose proof (floor_pass_shape V l V) as HL. destruct (f_floor_pass V V l) as (ps & cash).
  match goal with |- exists s, f_loop ?fu ?v ?mc ?m ?s0 = Some s => destruct (f_loop fu v mc m s0) as [s|] eqn:E; [eauto|exfalso; revert E; apply f_loop_total] end.
  cbn [fg_iter fg_pos]. unfold unmarked. pose proof (filter_le (fun p => negb (fp_unaff p)) ps). rewrite Z.sub_0_r. lia.
Qed.

Lemma ordinary_1 V l : ordinary V l -> forall a, In a l -> ordinary1 V a.
Proof. intros (_ & _ & H) a Ha. exact (H a Ha). Qed.

Lemma greedy_budget V l mi s : ordinary V l -> 1 <= V -> rsum (map fa_w l) <= 1 + (3 * INR (length l) + 4) * ur ->
  crash_slack (length l) mi * ur * V <= 9 / 1000000000 -> f_greedy_loop V l mi = Some s ->
  map fp_asset (fg_pos s) = l /\ longs (fg_pos s) /\ exact_cost (fg_pos s) <= V + (5 * INR (length l) + 2 * IZR (Z.max mi 0) + 22) * ur * V + 2 * f_tol.
Proof.
  intros HO HV Hw HB H. pose proof (ordinary_1 V l HO) as Ho. destruct HO as (HV0 & FV & _). unfold f_greedy_loop in H. pose proof ur_pos as Hu. pose proof ur_small as Hus. pose proof tol_bounds as HT.
  pose proof (pos_INR (length l)) as Hn. set (n := INR (length l)) in *. set (m := IZR (Z.max mi 0)) in *. assert (Hm : 0 <= m) by (apply (IZR_le 0); lia). unfold crash_slack in HB. fold n m in HB.
  assert (HUV : ur <= ur * V) by nra. assert (Hnu : n * ur <= n * (ur * V)) by nra. assert (Hmu : m * ur <= m * (ur * V)) by nra.
  assert (Hnn : 0 <= n * (ur * V)) by nra. assert (Hmm : 0 <= m * (ur * V)) by nra.
  assert (HB' : 8 * (n * (ur * V)) + 2 * (m * (ur * V)) + 24 * (ur * V) <= 9 / 1000000000) by lra.
  assert (Hw2 : V * (1 + 5 * ur) * rsum (map fa_w l) <= V + (3 * n + 10) * (ur * V)).
  { apply Rle_trans with (V * (1 + 5 * ur) * (1 + (3 * n + 4) * ur)); [apply Rmult_le_compat_l; [nra|exact Hw]|].
    replace (V * (1 + 5 * ur) * (1 + (3 * n + 4) * ur)) with (V + (3 * n + 9) * (ur * V) + (ur * V) * (5 * (3 * n + 4) * ur)) by ring.
    assert ((ur * V) * (5 * (3 * n + 4) * ur) <= (ur * V) * 1); [|lra]. apply Rmult_le_compat_l; [nra|]. nra. }
  pose proof (floor_pass_l V l HV0 Ho V 0 0 FV ltac:(lra) ltac:(lra)) as FP. fold n in FP.
  destruct (f_floor_pass V V l) as (ps & cash). destruct FP as (F1 & F2 & F3 & F4 & F5 & F6).
  { lra. } { lra. } { rewrite Rminus_0_r, Rminus_diag_eq, Rabs_R0 by reflexivity. lra. }
  rewrite !Rplus_0_l in F6.
  set (D := (5 * n + 2 * m + 22) * ur * V + 2 * f_tol) in *.
  assert (HD : D = 5 * (n * (ur * V)) + 2 * (m * (ur * V)) + 22 * (ur * V) + 2 * f_tol) by (unfold D; ring).
  assert (HI : loop_inv V D l n s).
  { destruct (Z_le_gt_dec 0 mi) as [L|L].
    - assert (Em : IZR mi = m) by (unfold m; rewrite Z.max_l by lia; reflexivity).
      eapply (loop_budget V D l n _ mi _ HV Ho Hn L); [| | | |exact H].
      + rewrite Em. lra. + rewrite Em. lra. + lra.
      + unfold loop_inv. cbn [fg_pos fg_cash fg_iter]. rewrite Rplus_0_r. repeat split; auto; try lia; lra.
    - assert (E : forall fu mc st, fg_iter st = 0%Z -> f_loop fu V mc mi st = Some s -> s = st).
      { intros fu mc st E0 HE. destruct fu; cbn [f_loop] in HE; rewrite E0 in HE; (replace (0 <? mi)%Z with false in HE by (symmetry; apply Z.ltb_ge; lia)); rewrite andb_false_r in HE; injection HE as <-; reflexivity. }
      apply E in H; [|reflexivity]. subst s. unfold loop_inv. cbn [fg_pos fg_cash fg_iter]. rewrite Rplus_0_r. repeat split; auto; try lia; lra. }
  destruct HI as (_ & H1 & H2 & _ & H3 & _). repeat split; auto. unfold D in H3. lra.
Qed.

Lemma greedy_no_crash npsum V l mi s : sums npsum -> ordinary V l -> 1 <= V -> rsum (map fa_w l) <= 1 + (3 * INR (length l) + 4) * ur ->
  crash_slack (length l) mi * ur * V <= 9 / 1000000000 -> f_greedy_loop V l mi = Some s ->
  exists r, f_build_result npsum V (fg_pos s) = Ok r.
Proof.
  intros Hs HO HV Hw HB H. destruct (greedy_budget V l mi s HO HV Hw HB H) as (HA & HL & HC). pose proof (ordinary_1 V l HO) as Ho. destruct HO as (HV0 & FV & _).
  pose proof ur_pos as Hu. pose proof ur_small as Hus. pose proof tol_bounds as HT.
  assert (Hps : forall p, In p (fg_pos s) -> ordinary1 V (fp_asset p)) by (intros p Hp; apply Ho; rewrite <- HA; apply in_map; exact Hp).
  assert (Hpr : forall p, In p (fg_pos s) -> 0 < fa_price (fp_asset p)) by (intros p Hp; destruct (lot_cost_rel _ _ (Hps p Hp)) as (_ & _ & _ & K & _); exact K).
  destruct (cost_longs (fg_pos s) HL (fun p Hp => Rlt_le _ _ (Hpr p Hp))) as (HC0 & HG).
  assert (Elen : length (fg_pos s) = length l) by (rewrite <- HA, map_length; reflexivity).
  pose proof (pos_INR (length l)) as Hn. set (n := INR (length l)) in *. set (m := IZR (Z.max mi 0)) in *. assert (Hm : 0 <= m) by (apply (IZR_le 0); lia). unfold crash_slack in HB. fold n m in HB.
  assert (HUV : ur <= ur * V) by nra. assert (Hnn : 0 <= n * (ur * V)) by nra. assert (Hmm : 0 <= m * (ur * V)) by nra.
  assert (HB' : 8 * (n * (ur * V)) + 2 * (m * (ur * V)) + 24 * (ur * V) <= 9 / 1000000000) by lra.
  assert (HC' : exact_cost (fg_pos s) <= V + 5 * (n * (ur * V)) + 2 * (m * (ur * V)) + 22 * (ur * V) + 2 * f_tol) by lra.
  assert (Hmod : moderate (fg_pos s)).
  { intros p Hp. pose proof (HL p Hp) as HLp. rewrite Z.abs_eq by exact HLp. apply le_IZR. pose proof (Hpr p Hp) as Hprp. apply Rmult_le_reg_r with (fa_price (fp_asset p)); [exact Hprp|].
    destruct (Hps p Hp) as (_ & _ & _ & _ & HVp). rewrite bpow51 in HVp. replace (IZR (2 ^ 53)) with 9007199254740992 by reflexivity.
    assert (IZR (fp_shares p) * fa_price (fp_asset p) <= exact_cost (fg_pos s)); [|lra].
    unfold exact_cost. apply rsum_ge_elem; [|apply in_map_iff; exists p; auto].
    intros y Hy. apply in_map_iff in Hy as (q & <- & Hq). apply Rmult_le_pos; [apply (IZR_le 0), HL, Hq|left; apply Hpr, Hq]. }
  destruct (f_pv_err npsum (fg_pos s) Hs Hmod) as (He & Fp). unfold f_build_result.
  set (pv := npsum (map (fun p => f_value (fp_shares p) (fa_price (fp_asset p))) (fg_pos s))) in *. rewrite HG, Elen in He.
  assert (HE : sum_error (length l) (exact_cost (fg_pos s)) <= 3 * (n * (ur * V)) + ur * V).
  { unfold sum_error. fold n. assert (Hg : gam (length l) <= 2 * n * ur) by (apply gam_lin; fold n; nra). pose proof (gam_ge0 (length l)). pose proof eta_ur. pose proof eta_pos.
    assert (gam (length l) * exact_cost (fg_pos s) <= 2 * n * ur * (5 / 4 * V)) by (apply Rmult_le_compat; lra).
    assert (n * eta * (1 + gam (length l)) <= ur * V). { apply Rle_trans with (n * eta * 2); [apply Rmult_le_compat_l; [nra|nra]|]. assert (n * eta <= n * (ur * ur)) by nra. assert (n * ur <= 1 / 2) by nra. nra. }
    nra. }
  pose proof (fadd_abs V (- pv) FV (isf_opp _ Fp)) as HF. change (fadd V (- pv)) with (fsub V pv) in HF. change (V + - pv) with (V - pv) in HF. apply Rabs_bd in He.
  pose proof eps8_bounds as B8.
  destruct (Rltb_spec (fsub V pv) 0) as [L|L]; [|eexists; reflexivity].
  destruct (Rltb_spec (Rabs (fsub V pv)) f_eps8) as [L8|L8]; [eexists; reflexivity|exfalso]. apply L8. clear L8.
  rewrite Rabs_left by exact L. destruct (Rle_lt_dec 0 (V - pv)) as [P|P].
  - exfalso. assert (0 <= fsub V pv) by (apply rnd_ge0; exact P). lra.
  - rewrite (Rabs_left (V - pv)) in HF by exact P. apply Rabs_bd in HF. assert (pv - V <= 9 / 1000000000 + 4 / 1000000000000) by lra. nra.
Qed.

(** Weights divided by their computed total (discrete_allocation.py:120-123). *)
Lemma normalised_sum npsum r : sums npsum -> (forall x, In x r -> 0 <= x /\ isf x) -> 0 < npsum r -> INR (length r) * ur <= 1 / 64 ->
  rsum (map (fun x => fdiv x (npsum r)) r) <= 1 + (3 * INR (length r) + 4) * ur.
Proof.
  intros Hs Hr Ht Hn. assert (F : forall x, In x r -> isf x) by (intros x Hx; apply Hr; exact Hx). destruct (fsum_err _ _ (Hs r F) F) as (He & _).
  assert (EA : rsum (map Rabs r) = rsum r). { f_equal. clear -Hr. induction r as [|x r IH]; [reflexivity|]. cbn [map]. rewrite IH by (intros; apply Hr; right; assumption). rewrite Rabs_pos_eq by (apply Hr; left; reflexivity). reflexivity. }
  rewrite EA in He. set (t := npsum r) in *. set (n := INR (length r)) in *. pose proof (pos_INR (length r)) as Hn0. fold n in Hn0. pose proof ur_pos as Hu. pose proof ur_small as Hus. pose proof eta_pos. pose proof eta_ur.
  assert (Hg : gam (length r - 1) <= 2 * n * ur). { eapply Rle_trans; [apply gam_mono with (m := length r); lia|]. apply gam_lin. fold n. lra. }
  pose proof (gam_ge0 (length r - 1)) as Hg0. assert (S0 : 0 <= rsum r) by (apply rsum_nonneg; intros x Hx; apply Hr; exact Hx). apply Rabs_bd in He.
  assert (Hit : 0 < / t) by (apply Rinv_0_lt_compat; exact Ht).
  assert (A' : forall q, (forall x, In x q -> 0 <= x /\ isf x) -> rsum (map (fun x => fdiv x t) q) <= (1 + ur) * (rsum q * / t) + INR (length q) * eta).
  { clear -Hit Hu. induction q as [|x q IH]; intros Hq; [simpl; lra|]. cbn [map length]. rewrite !rsum_cons, S_INR. specialize (IH (fun z Hz => Hq z (or_intror Hz))).
    assert (Hx : 0 <= x) by (apply Hq; left; reflexivity). assert (0 <= x / t) by (apply Rmult_le_pos; lra). pose proof (rnd_abs (x / t)) as K. rewrite (Rabs_pos_eq (x / t)) in K by assumption. apply Rabs_bd in K. change (fdiv x t) with (rnd (x / t)). unfold Rdiv in *. lra. }
  pose proof (A' r Hr) as A. fold n in A.
  assert (B : rsum r * / t <= 1 + (2 * n + n / 8) * ur).
  { apply Rmult_le_reg_r with t; [exact Ht|]. rewrite Rmult_assoc, Rinv_l by lra. rewrite Rmult_1_r. assert (G2 : gam (length r - 1) * rsum r <= 2 * n * ur * rsum r) by (apply Rmult_le_compat_r; lra).
    assert (T1 : rsum r * (1 - 2 * n * ur) <= t) by lra. set (g := n * ur) in *. assert (Hgn : 0 <= g) by (unfold g; nra).
    apply Rle_trans with ((1 + (2 * n + n / 8) * ur) * (rsum r * (1 - 2 * n * ur))); [|apply Rmult_le_compat_l; [fold g; nra|exact T1]].
    replace ((1 + (2 * n + n / 8) * ur) * (rsum r * (1 - 2 * n * ur))) with (rsum r * ((1 + 17 / 8 * g) * (1 - 2 * g))) by (unfold g; field).
    replace (rsum r) with (rsum r * 1) at 1 by ring. apply Rmult_le_compat_l; [exact S0|]. nra. }
  assert (C : (1 + ur) * (rsum r * / t) <= (1 + ur) * (1 + (2 * n + n / 8) * ur)) by (apply Rmult_le_compat_l; lra).
  assert (n * eta <= ur) by nra. nra.
Qed.
