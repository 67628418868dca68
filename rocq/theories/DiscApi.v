(** Call-level proofs about discrete allocation. *)
From Verif Require Import QBase ProbModel DiscModel DiscSpec DiscProofs DiscMilp.
Open Scope Q_scope.
Open Scope list_scope.
Arguments Qfloor : simpl never.
Arguments inject_Z : simpl never.

(** * How often an asset can be bought *)
Definition mu (V cash : Q) (p : pos) : Z :=
  let c := lot_cost (p_asset p) in
  let d := a_w (p_asset p) * V - pvalue p in
  if Qlt_bool (cash + tol) c then 0%Z else if Qle_bool d 0 then 0%Z else if Qlt_bool d c then 1%Z else 2%Z.
Definition zsum (l : list Z) : Z := fold_right Z.add 0%Z l.
Definition mus (V : Q) (s : gstate) : Z := zsum (map (mu V (g_cash s)) (g_pos s)).

Lemma zsum_app a b : zsum (a ++ b) = (zsum a + zsum b)%Z.
Proof. induction a as [|x a IH]; simpl; [lia|]. rewrite IH. lia. Qed.

Lemma zsum_le {A} (f g : A -> Z) l : (forall x, In x l -> f x <= g x)%Z -> (zsum (map f l) <= zsum (map g l))%Z.
Proof. induction l as [|x l IH]; intros H; simpl; [lia|]. pose proof (H x (or_introl eq_refl)). specialize (IH (fun y Hy => H y (or_intror Hy))). lia. Qed.

Lemma mu_range V cash p : (0 <= mu V cash p <= 2)%Z.
Proof. unfold mu. destruct (Qlt_bool _ _); [lia|]. destruct (Qle_bool _ _); [lia|]. destruct (Qlt_bool _ _); lia. Qed.

Lemma mu_mono V c1 c2 p : c2 <= c1 -> (mu V c2 p <= mu V c1 p)%Z.
Proof.
  intros H. pose proof (mu_range V c1 p) as HR. unfold mu in *. cbv zeta in *. destruct (Qlt_bool (c2 + tol) _) eqn:E1; [apply HR|].
  apply qltb_f in E1. destruct (Qlt_bool (c1 + tol) _) eqn:E2; [apply qltb_t in E2; lra|]. lia.
Qed.

Lemma floor_gt x c : 0 < c -> x < (inject_Z (Qfloor (x / c)) + 1) * c.
Proof.
  intros Hc. pose proof (Qlt_floor (x / c)) as H.
  apply Qmult_lt_compat_r with (z := c) in H; [|lra].
  rewrite (Qmult_comm (x / c)), Qmult_div_r in H by lra. rewrite inject_Z_plus in H. exact H.
Qed.

Lemma step_mus V l s s' : 0 < V -> l <> [] -> (forall a, In a l -> ok_asset a) -> inv V l s -> step V s = inl s' ->
  (g_iter s' + mus V s' <= g_iter s + mus V s)%Z.
Proof.
  intros HV Hl Hok [I1 I2 I3 I4]. unfold step. cbn [g_pos g_cash g_iter g_break g_last].
  set (ds := map (deficit V) (g_pos s)).
  assert (Hne : ds <> []).
  { subst ds. intros E. apply map_eq_nil in E. rewrite E in I1. simpl in I1. congruence. }
  destruct (argmax_spec ds Hne) as [K1 K2]. set (k := argmax ds) in *.
  assert (Kl : (k < List.length (g_pos s))%nat) by (subst ds; rewrite map_length in K1; exact K1).
  unfold qmaximum. fold k.
  destruct (Qle_bool (nth k ds 0) tol) eqn:Em; [discriminate|].
  apply qleb_f in Em. pose proof tol_pos as Htol.
  set (p0 := nth k (g_pos s) dummy_pos).
  assert (Hdk : nth k ds 0 = deficit V p0).
  { unfold ds. rewrite (nth_indep _ 0 (deficit V dummy_pos)) by (rewrite map_length; exact Kl). apply map_nth. }
  assert (Hin : In p0 (g_pos s)) by (apply nth_In; exact Kl).
  destruct (deficit_pos V p0 HV) as [Hfree Hdef]; [rewrite <- Hdk; lra|].
  assert (Hoka : ok_asset (p_asset p0)).
  { apply Hok. rewrite <- I1. apply in_map. exact Hin. }
  pose proof (lot_cost_pos _ Hoka) as Hc.
  set (c := lot_cost (p_asset p0)) in *.
  assert (UN : forall s'', (if forallb p_unaff (mark k (g_pos s))
              then inr (mkG (mark k (g_pos s)) (g_cash s) (g_iter s) ds true)
              else inl (mkG (mark k (g_pos s)) (g_cash s) (g_iter s) ds false) : gstate + gstate) = inl s'' ->
       (g_iter s'' + mus V s'' <= g_iter s + mus V s)%Z).
  { intros s'' H. destruct (forallb _ _); [discriminate|]. injection H as <-. cbn [g_iter]. unfold mus. cbn [g_pos g_cash].
    destruct (upd_split k (fun p : pos => (fst p, true)) (g_pos s) dummy_pos Kl) as (l1 & l2 & E1 & E2).
    fold p0 in E1, E2. match type of E2 with _ = ?y => assert (E3 : mark k (g_pos s) = y) by exact E2 end.
    rewrite E3. rewrite E1 at 1. rewrite !map_app. simpl map. rewrite !zsum_app. simpl.
    apply Z.le_refl. }
  destruct (Qlt_bool (g_cash s + tol) c) eqn:Eaff; [apply UN|].
  apply qltb_f in Eaff. replace (Qlt_bool 0 c) with true by (symmetry; apply Qlt_bool_iff; exact Hc).
  pose proof (floor_ge1 _ _ Hc Eaff) as Hpos.
  rewrite Hdk. set (target := Qfloor (deficit V p0 * V / c)).
  set (possible := Qfloor ((g_cash s + tol) / c)) in *.
  set (n := Z.min possible (Z.max target 1)).
  assert (Hn1 : (1 <= n)%Z) by lia.
  destruct (Z.leb_spec n 0); [lia|]. intros E. injection E as <-.
  cbn [g_iter]. unfold mus. cbn [g_pos g_cash].
  assert (Hn0 : 0 <= inject_Z n * c) by (apply Qmult_le_0_compat; [apply inject_Z_nonneg; lia|lra]).
  unfold buy.
  destruct (upd_split k (fun p => (p_asset p, (p_shares p + n * a_lot (p_asset p))%Z, false)) (g_pos s) dummy_pos Kl)
    as (l1 & l2 & E1 & E2). fold p0 in E1, E2.
  rewrite E2. rewrite E1 at 1. rewrite !map_app. simpl map. rewrite !zsum_app. simpl zsum.
  assert (M1 : (zsum (map (mu V (g_cash s - inject_Z n * c)) l1) <= zsum (map (mu V (g_cash s)) l1))%Z) by (apply zsum_le; intros; apply mu_mono; lra).
  assert (M2 : (zsum (map (mu V (g_cash s - inject_Z n * c)) l2) <= zsum (map (mu V (g_cash s)) l2))%Z) by (apply zsum_le; intros; apply mu_mono; lra).
  assert (M3 : (mu V (g_cash s - inject_Z n * c) (p_asset p0, (p_shares p0 + n * a_lot (p_asset p0))%Z, false) + 1 <= mu V (g_cash s) p0)%Z); [|lia].
  assert (Ev : pvalue (p_asset p0, (p_shares p0 + n * a_lot (p_asset p0))%Z, false) == pvalue p0 + inject_Z n * c).
  { rewrite pvalue_mk, inject_Z_plus, Qmult_plus_distr_l, lots_value. reflexivity. }
  assert (Hd : 0 < deficit V p0 * V) by (apply Qmult_lt_0_compat; [rewrite <- Hdk; lra|exact HV]).
  unfold mu. change (p_asset (p_asset p0, (p_shares p0 + n * a_lot (p_asset p0))%Z, false)) with (p_asset p0). fold c.
  destruct (Qlt_bool (g_cash s + tol) c) eqn:EA; [apply qltb_t in EA; lra|]. clear EA.
  destruct (Qle_bool (a_w (p_asset p0) * V - pvalue p0) 0) eqn:EB; [apply qleb_t in EB; lra|]. clear EB.
  pose proof (floor_gt (deficit V p0 * V) c Hc) as G1. fold target in G1.
  pose proof (floor_gt (g_cash s + tol) c Hc) as G2. fold possible in G2.
  assert (Hmin : n = possible \/ n = Z.max target 1) by lia.
  destruct Hmin as [Hm|Hm].
  - replace (Qlt_bool (g_cash s - inject_Z n * c + tol) c) with true.
    + destruct (Qlt_bool _ c); lia.
    + symmetry. apply Qlt_bool_iff. rewrite Hm. lra.
  - destruct (Qlt_bool (g_cash s - inject_Z n * c + tol) c); [destruct (Qlt_bool (a_w (p_asset p0) * V - pvalue p0) c); lia|].
    destruct (Z.le_gt_cases target 0).
    + assert (n = 1%Z) by lia. replace (inject_Z n) with 1 in * by (rewrite H1; reflexivity).
      assert (inject_Z target <= 0) by (change 0 with (inject_Z 0); rewrite <- Zle_Qle; exact H0).
      assert ((inject_Z target + 1) * c <= 1 * c) by (apply Qmult_le_compat_r; lra).
      replace (Qle_bool _ 0) with true by (symmetry; apply Qle_bool_iff; rewrite Ev; lra).
      destruct (Qlt_bool _ c); lia.
    + assert (n = target) by lia.
      destruct (Qlt_bool (a_w (p_asset p0) * V - pvalue p0) c) eqn:EC.
      * apply qltb_t in EC. exfalso. assert (1 <= inject_Z target) by (change 1 with (inject_Z 1); rewrite <- Zle_Qle; lia).
        assert (inject_Z target * c <= deficit V p0 * V) by (apply floor_le; exact Hc).
        assert (1 * c <= inject_Z target * c) by (apply Qmult_le_compat_r; lra). lra.
      * destruct (Qle_bool _ 0); [lia|].
        match goal with |- context [Qlt_bool ?x c] => replace (Qlt_bool x c) with true; [lia|] end.
        symmetry. apply Qlt_bool_iff. rewrite Ev, H1. lra.
Qed.

Lemma loop_mus V mc mi l : 0 < V -> l <> [] -> (forall a, In a l -> ok_asset a) ->
  forall fuel s s', inv V l s -> loop fuel V mc mi s = Some s' -> (g_iter s' <= g_iter s + mus V s)%Z.
Proof.
  intros HV Hl Hok. 
  assert (N : forall s, (0 <= mus V s)%Z).
  { intros s. unfold mus. induction (g_pos s) as [|x t IH]; simpl; [lia|]. pose proof (mu_range V (g_cash s) x). lia. }
  induction fuel as [|f IH]; intros s s' Hi; simpl loop; pose proof (N s) as H0;
    destruct (_ && _); try discriminate; try (intros E; injection E as <-; lia).
  pose proof (step_inv V l s HV Hl Hok Hi) as HS. destruct (step V s) as [s1|s1] eqn:Es.
  - intros H. apply IH in H; [|apply HS]. pose proof (step_mus V l s s1 HV Hl Hok Hi Es). lia.
  - intros H. injection H as <-. destruct HS as (_ & -> & _). lia.
Qed.

Lemma zsum_const {A} (l : list A) : zsum (map (fun _ => 2%Z) l) = (2 * Z.of_nat (List.length l))%Z.
Proof.
  induction l as [|x l IH]; [reflexivity|].
  change (zsum (map (fun _ => 2%Z) (x :: l))) with (2 + zsum (map (fun _ => 2%Z) l))%Z. rewrite IH.
  change (List.length (x :: l)) with (S (List.length l)). lia.
Qed.

(** At most two purchases per asset. *)
Lemma greedy_iters V l mi s : 0 < V -> l <> [] -> (forall a, In a l -> ok_asset a /\ 0 <= a_w a) ->
  qsum (map a_w l) == 1 -> greedy_loop V l mi = Some s -> (g_iter s <= 2 * Z.of_nat (List.length l))%Z.
Proof.
  intros HV Hl Hok Hw. unfold greedy_loop. destruct (floor_pass V V l) as [ps cash] eqn:E.
  destruct (floor_pass_spec V l HV Hok V ps cash E) as (F1 & F2 & F3 & F4).
  intros H. apply (loop_mus V _ _ l HV Hl (fun a Ha => proj1 (Hok a Ha))) in H.
  - cbn [g_iter] in H. unfold mus in H. cbn [g_cash g_pos] in H.
    assert (L : List.length ps = List.length l) by (rewrite <- F1, map_length; reflexivity).
    pose proof (zsum_le (mu V cash) (fun _ => 2%Z) ps (fun x _ => proj2 (mu_range _ _ x))) as H2.
    rewrite zsum_const, L in H2. lia.
  - split; cbn [g_pos g_cash]; auto; [rewrite Hw in F3; unfold tol; lra|].
    intros p Hp. destruct (F4 p Hp) as (A & B & C). split; [exact A|]. split; [congruence|].
    assert (0 < lot_cost (p_asset p)); [|lra]. apply lot_cost_pos, Hok. rewrite <- F1. apply in_map; auto.
Qed.
