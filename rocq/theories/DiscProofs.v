(** Proofs about discrete allocation. *)
From Verif Require Import QBase ProbModel DiscModel DiscSpec.
Open Scope Q_scope.
Open Scope list_scope.
Arguments Qfloor : simpl never.
Arguments inject_Z : simpl never.

Lemma qltb_t a b : Qlt_bool a b = true -> a < b. Proof. apply Qlt_bool_iff. Qed.
Lemma qltb_f a b : Qlt_bool a b = false -> b <= a. Proof. apply Qlt_bool_false. Qed.
Lemma qleb_t a b : Qle_bool a b = true -> a <= b. Proof. apply Qle_bool_iff. Qed.
Lemma qleb_f a b : Qle_bool a b = false -> b < a. Proof. apply Qle_bool_false. Qed.

Lemma inject_Z_nonneg z : (0 <= z)%Z -> 0 <= inject_Z z.
Proof. intros H. change 0 with (inject_Z 0). rewrite <- Zle_Qle. exact H. Qed.
Lemma inject_Z_pos z : (0 < z)%Z -> 0 < inject_Z z.
Proof. intros H. change 0 with (inject_Z 0). rewrite <- Zlt_Qlt. exact H. Qed.

Lemma floor_le x c : 0 < c -> inject_Z (Qfloor (x / c)) * c <= x.
Proof.
  intros Hc. pose proof (Qfloor_le (x / c)) as H.
  apply Qmult_le_compat_r with (z := c) in H; [|lra].
  rewrite (Qmult_comm (x / c)), Qmult_div_r in H by lra. exact H.
Qed.

Lemma floor_ge1 x c : 0 < c -> c <= x -> (1 <= Qfloor (x / c))%Z.
Proof.
  intros Hc H. change 1%Z with (Qfloor 1). apply Qfloor_resp_le. apply Qle_shift_div_l; lra.
Qed.

Lemma floor_lt1 x c : 0 < c -> (Qfloor (x / c) < 1)%Z -> x < c.
Proof. intros Hc H. destruct (Qlt_le_dec x c) as [|H']; [auto|]. pose proof (floor_ge1 x c Hc H'). lia. Qed.

Definition ok_asset (a : asset) : Prop := 0 < a_price a /\ (0 < a_lot a)%Z.
Lemma lot_cost_pos a : ok_asset a -> 0 < lot_cost a.
Proof. intros [H1 H2]. apply Qmult_lt_0_compat; auto using inject_Z_pos. Qed.

Definition pvalue (p : pos) : Q := inject_Z (p_shares p) * a_price (p_asset p).
Definition pos_lots (p : pos) : Prop := exists k, (0 <= k)%Z /\ p_shares p = (k * a_lot (p_asset p))%Z.

Lemma lots_value k a : inject_Z (k * a_lot a) * a_price a == inject_Z k * lot_cost a.
Proof. unfold lot_cost. rewrite inject_Z_mult. ring. Qed.

Lemma pvalue_mk a z u : pvalue (a, z, u) = inject_Z z * a_price a.
Proof. reflexivity. Qed.
Lemma p_unaff_mk (a : asset) (z : Z) u : p_unaff (a, z, u) = u.
Proof. reflexivity. Qed.

(** * Floor pass *)
Lemma floor_pass_spec V l : 0 < V -> (forall a, In a l -> ok_asset a /\ 0 <= a_w a) ->
  forall cash ps cash', floor_pass V cash l = (ps, cash') ->
  map p_asset ps = l /\ qsum (map pvalue ps) + cash' == cash /\
  cash - V * qsum (map a_w l) <= cash' /\
  (forall p, In p ps -> pos_lots p /\ p_unaff p = false /\ pvalue p <= a_w (p_asset p) * V).
Proof.
  intros HV. induction l as [|a l IH]; intros Hl cash ps cash'; cbn [floor_pass].
  - intros H. injection H as <- <-. simpl. repeat split; try lra; try easy.
  - set (lots := if Qlt_bool cash (lot_cost a) then 0%Z else _).
    destruct (floor_pass V (cash - inject_Z lots * lot_cost a) l) as [ps0 c0] eqn:E. intros H. injection H as <- <-.
    destruct (Hl a (or_introl eq_refl)) as [Ha Hw]. pose proof (lot_cost_pos a Ha) as Hc.
    destruct (IH (fun x Hx => Hl x (or_intror Hx)) _ _ _ E) as (I1 & I2 & I3 & I4).
    assert (HwV : 0 <= a_w a * V) by (apply Qmult_le_0_compat; lra).
    assert (Hlots : (0 <= lots)%Z /\ inject_Z lots * lot_cost a <= a_w a * V).
    { subst lots. cbv zeta. destruct (Qlt_bool cash (lot_cost a)); [split; [lia|]; setoid_replace (inject_Z 0 * lot_cost a) with 0 by ring; exact HwV|].
      match goal with |- context [(?z <=? 0)%Z] => destruct (Z.leb_spec z 0) as [Hz|Hz] end; [split; [apply Z.le_refl|]; setoid_replace (inject_Z 0 * lot_cost a) with 0 by ring; exact HwV|].
      split; [lia|]. apply floor_le; auto. }
    destruct Hlots as [L1 L2]. pose proof (lots_value lots a) as L3.
    simpl. repeat split.
    + f_equal. exact I1.
    + rewrite pvalue_mk. lra.
    + lra.
    + destruct H as [<-|H]; [exists lots; auto|apply I4; auto].
    + destruct H as [<-|H]; [reflexivity|apply I4; auto].
    + destruct H as [<-|H]; [rewrite pvalue_mk; unfold p_asset; cbn [fst snd]; lra|apply I4; auto].
Qed.

(** * Argmax *)
Lemma argmax_from_spec l best bi i : 
  let k := argmax_from best bi i l in
  (k = bi /\ forall x, In x l -> x <= best) \/
  ((i <= k < i + List.length l)%nat /\ best < nth (k - i)%nat l 0 /\ forall x, In x l -> x <= nth (k - i)%nat l 0).
Proof.
  revert best bi i. induction l as [|x l IH]; intros best bi i; simpl.
  - left. split; auto. easy.
  - destruct (Qlt_bool best x) eqn:E.
    + apply qltb_t in E. destruct (IH x i (S i)) as [[-> H]|(H1 & H2 & H3)]; right.
      * rewrite Nat.sub_diag. split; [lia|]. split; [exact E|]. intros y [<-|Hy]; [lra|auto].
      * set (k := argmax_from x i (S i) l) in *. replace (k - i)%nat with (S (k - S i)) by lia. simpl.
        split; [lia|]. split; [lra|]. intros y [<-|Hy]; [lra|auto].
    + apply qltb_f in E. destruct (IH best bi (S i)) as [[-> H]|(H1 & H2 & H3)].
      * left. split; auto. intros y [<-|Hy]; auto.
      * right. set (k := argmax_from best bi (S i) l) in *. replace (k - i)%nat with (S (k - S i)) by lia. simpl.
        split; [lia|]. split; [lra|]. intros y [<-|Hy]; [lra|auto].
Qed.

Lemma argmax_spec l : l <> [] -> (argmax l < List.length l)%nat /\ forall x, In x l -> x <= nth (argmax l) l 0.
Proof.
  destruct l as [|x l]; [congruence|]. intros _. unfold argmax.
  destruct (argmax_from_spec l x 0 1) as [[E H]|(H1 & H2 & H3)].
  - rewrite E. simpl. split; [lia|]. intros y [<-|Hy]; [lra|auto].
  - set (k := argmax_from x 0 1 l) in *. simpl List.length. split; [lia|].
    destruct k as [|k]; [lia|]. simpl. replace (S k - 1)%nat with k in * by lia. intros y [<-|Hy]; [lra|auto].
Qed.

(** * List update *)
Lemma upd_length {A} k (f : A -> A) l : List.length (upd k f l) = List.length l.
Proof. revert k. induction l as [|x l IH]; intros [|k]; simpl; auto. Qed.

Lemma upd_split {A} k (f : A -> A) l d : (k < List.length l)%nat ->
  exists l1 l2, l = l1 ++ nth k l d :: l2 /\ upd k f l = l1 ++ f (nth k l d) :: l2.
Proof.
  revert k. induction l as [|x l IH]; intros [|k] H; simpl in *; try lia.
  - exists [], l. auto.
  - destruct (IH k ltac:(lia)) as (l1 & l2 & E1 & E2). exists (x :: l1), l2. simpl. split; f_equal; auto.
Qed.

(** * Loop *)
Record inv (V : Q) (l : list asset) (s : gstate) : Prop := mkInv {
  inv_assets : map p_asset (g_pos s) = l;
  inv_sum : qsum (map pvalue (g_pos s)) + g_cash s == V;
  inv_cash : - tol <= g_cash s;
  inv_pos : forall p, In p (g_pos s) -> pos_lots p /\
      (p_unaff p = true -> g_cash s + tol < lot_cost (p_asset p)) /\
      pvalue p < a_w (p_asset p) * V + lot_cost (p_asset p) }.

Definition free (p : pos) : bool := negb (p_unaff p).
Definition count_free (ps : list pos) : nat := List.length (filter free ps).

Lemma deficit_pos V p : 0 < V -> 0 < deficit V p -> p_unaff p = false /\ deficit V p * V == a_w (p_asset p) * V - pvalue p.
Proof.
  unfold deficit. intros HV H. destruct (p_unaff p); [lra|]. split; [auto|].
  destruct (Qlt_bool _ 0) eqn:E; [lra|]. unfold pvalue, Qdiv. 
  assert (E2 : inject_Z (p_shares p) * a_price (p_asset p) * / V * V == inject_Z (p_shares p) * a_price (p_asset p)).
  { field. lra. }
  rewrite <- E2 at 2. ring.
Qed.

Lemma tol_pos : 0 < tol. Proof. unfold tol. lra. Qed.

Lemma step_inv V l s : 0 < V -> l <> [] -> (forall a, In a l -> ok_asset a) -> inv V l s ->
  match step V s with
  | inl s' => inv V l s' /\ g_break s' = false /\
      ((g_iter s' = (g_iter s + 1)%Z /\ count_free (g_pos s') = count_free (g_pos s)) \/
       (g_iter s' = g_iter s /\ S (count_free (g_pos s')) = count_free (g_pos s)))
  | inr s' => inv V l s' /\ g_iter s' = g_iter s /\ g_break s' = true /\
      forall p, In p (g_pos s') -> tol < a_w (p_asset p) - pvalue p / V -> p_unaff p = true
  end.
Proof.
  intros HV Hl Hok [I1 I2 I3 I4]. unfold step. cbn [g_pos g_cash g_iter g_break g_last].
  set (ds := map (deficit V) (g_pos s)).
  assert (Hne : ds <> []).
  { subst ds. intros E. apply map_eq_nil in E. rewrite E in I1. simpl in I1. congruence. }
  destruct (argmax_spec ds Hne) as [K1 K2]. set (k := argmax ds) in *.
  assert (Kl : (k < List.length (g_pos s))%nat) by (subst ds; rewrite map_length in K1; exact K1).
  unfold qmaximum. fold k.
  destruct (Qle_bool (nth k ds 0) tol) eqn:Em.
  - apply qleb_t in Em. split; [split; auto|]. split; [reflexivity|]. split; [reflexivity|].
    cbn [g_pos]. intros p Hp Ht. destruct (p_unaff p) eqn:Eu; [reflexivity|exfalso].
    assert (deficit V p <= tol).
    { eapply Qle_trans; [apply K2|exact Em]. unfold ds. apply in_map. exact Hp. }
    unfold deficit in H. rewrite Eu in H. fold (pvalue p) in H.
    destruct (Qlt_bool _ 0) eqn:E; [apply qltb_t in E; pose proof tol_pos|]; lra.
  - apply qleb_f in Em. pose proof tol_pos as Htol.
    set (p0 := nth k (g_pos s) dummy_pos).
    assert (Hdk : nth k ds 0 = deficit V p0).
    { unfold ds. rewrite (nth_indep _ 0 (deficit V dummy_pos)) by (rewrite map_length; exact Kl). apply map_nth. }
    assert (Hin : In p0 (g_pos s)) by (apply nth_In; exact Kl).
    destruct (deficit_pos V p0 HV) as [Hfree Hdef]; [rewrite <- Hdk; lra|].
    assert (Hoka : ok_asset (p_asset p0)).
    { apply Hok. rewrite <- I1. apply in_map. exact Hin. }
    pose proof (lot_cost_pos _ Hoka) as Hc.
    set (c := lot_cost (p_asset p0)) in *.
    assert (UN : g_cash s + tol < c ->
       match (if forallb p_unaff (mark k (g_pos s))
              then inr (mkG (mark k (g_pos s)) (g_cash s) (g_iter s) ds true)
              else inl (mkG (mark k (g_pos s)) (g_cash s) (g_iter s) ds false)) : gstate + gstate with
       | inl s' => inv V l s' /\ g_break s' = false /\
          ((g_iter s' = (g_iter s + 1)%Z /\ count_free (g_pos s') = count_free (g_pos s)) \/
           (g_iter s' = g_iter s /\ S (count_free (g_pos s')) = count_free (g_pos s)))
       | inr s' => inv V l s' /\ g_iter s' = g_iter s /\ g_break s' = true /\
          forall p, In p (g_pos s') -> tol < a_w (p_asset p) - pvalue p / V -> p_unaff p = true
       end).
    { intros Hun. unfold mark.
      destruct (upd_split k (fun p : pos => (fst p, true)) (g_pos s) dummy_pos Kl) as (l1 & l2 & E1 & E2).
      fold p0 in E1, E2.
      assert (II : forall it b, inv V l (mkG (upd k (fun p : pos => (fst p, true)) (g_pos s)) (g_cash s) it ds b)).
      { intros it b. split; cbn [g_pos g_cash].
        - rewrite E2, map_app. rewrite <- I1, E1, map_app. reflexivity.
        - rewrite E2, map_app. rewrite E1, map_app in I2. exact I2.
        - exact I3.
        - intros p Hp. rewrite E2 in Hp. apply in_app_iff in Hp as [Hp|[<-|Hp]].
          + apply I4. rewrite E1. apply in_app_iff. auto.
          + destruct (I4 p0 Hin) as (A & B & C). split; [exact A|]. split; [intros _; exact Hun|exact C].
          + apply I4. rewrite E1. apply in_app_iff. right. right. exact Hp. }
      destruct (forallb p_unaff _) eqn:Ef.
      - split; [apply II|]. split; [reflexivity|]. split; [reflexivity|]. cbn [g_pos]. intros p Hp _.
        rewrite forallb_forall in Ef. auto.
      - split; [apply II|]. split; [reflexivity|]. right. split; [reflexivity|]. cbn [g_pos].
        unfold count_free.
        match type of E2 with ?x = _ => change (S (List.length (filter free x)) = List.length (filter free (g_pos s))) end.
        rewrite E2, E1, !filter_app, !app_length. cbn [filter].
        replace (free p0) with true by (unfold free; rewrite Hfree; reflexivity).
        replace (free (fst p0, true)) with false by reflexivity. simpl. lia. }
    destruct (Qlt_bool (g_cash s + tol) c) eqn:Eaff; [apply UN, qltb_t; exact Eaff|].
    apply qltb_f in Eaff. replace (Qlt_bool 0 c) with true by (symmetry; apply Qlt_bool_iff; exact Hc).
    pose proof (floor_ge1 _ _ Hc Eaff) as Hpos.
    rewrite Hdk. set (target := Qfloor (deficit V p0 * V / c)).
    set (possible := Qfloor ((g_cash s + tol) / c)) in *.
    set (n := Z.min possible (Z.max target 1)).
    assert (Hn1 : (1 <= n)%Z) by lia.
    destruct (Z.leb_spec n 0); [lia|].
    assert (Hn2 : inject_Z n * c <= g_cash s + tol).
    { eapply Qle_trans; [|apply (floor_le (g_cash s + tol) c Hc)]. fold possible.
      apply Qmult_le_compat_r; [|lra]. rewrite <- Zle_Qle. lia. }
    assert (Hn0 : 0 <= inject_Z n * c) by (apply Qmult_le_0_compat; [apply inject_Z_nonneg; lia|lra]).
    unfold buy.
    destruct (upd_split k (fun p => (p_asset p, (p_shares p + n * a_lot (p_asset p))%Z, false)) (g_pos s) dummy_pos Kl)
      as (l1 & l2 & E1 & E2). fold p0 in E1, E2.
    assert (Ev : pvalue (p_asset p0, (p_shares p0 + n * a_lot (p_asset p0))%Z, false) == pvalue p0 + inject_Z n * c).
    { rewrite pvalue_mk, inject_Z_plus, Qmult_plus_distr_l, lots_value. reflexivity. }
    split; [|split; [reflexivity|left; split; [reflexivity|]]].
    + split; cbn [g_pos g_cash].
      * rewrite E2, map_app. rewrite <- I1, E1, map_app. reflexivity.
      * rewrite E2, map_app, qsum_app. simpl map. rewrite qsum_cons, Ev.
        rewrite E1, map_app, qsum_app in I2. simpl map in I2. rewrite qsum_cons in I2. lra.
      * lra.
      * intros p Hp. rewrite E2 in Hp. apply in_app_iff in Hp as [Hp|[<-|Hp]].
        -- destruct (I4 p) as (A & B & C); [rewrite E1; apply in_app_iff; auto|].
           split; [exact A|]. split; [|exact C]. intros Hu. specialize (B Hu). lra.
        -- destruct (I4 p0 Hin) as ((q & Q1 & Q2) & _ & _). split; [|split].
           ++ exists (q + n)%Z. split; [lia|]. unfold p_shares, p_asset; simpl. fold (p_shares p0) (p_asset p0). rewrite Q2. ring.
           ++ rewrite p_unaff_mk. discriminate.
           ++ rewrite Ev. change (pvalue p0 + inject_Z n * c < a_w (p_asset p0) * V + c).
              assert (pvalue p0 + inject_Z n * c <= a_w (p_asset p0) * V \/ n = 1%Z) as [Hc1|Hc1].
              { destruct (Z.le_gt_cases target 1).
                - right. lia.
                - left. assert (inject_Z n * c <= deficit V p0 * V); [|lra].
                  eapply Qle_trans; [|apply (floor_le (deficit V p0 * V) c Hc)]. fold target.
                  apply Qmult_le_compat_r; [|lra]. rewrite <- Zle_Qle. lia. }
              ** lra.
              ** rewrite Hc1. change (inject_Z 1) with 1.
                 assert (0 < deficit V p0 * V) by (apply Qmult_lt_0_compat; [rewrite <- Hdk; lra|exact HV]). lra.
        -- destruct (I4 p) as (A & B & C); [rewrite E1; apply in_app_iff; right; right; exact Hp|].
           split; [exact A|]. split; [|exact C]. intros Hu. specialize (B Hu). lra.
    + cbn [g_pos]. unfold count_free. rewrite E2, E1, !filter_app, !app_length. simpl.
      replace (free p0) with true by (unfold free; rewrite Hfree; reflexivity). reflexivity.
Qed.

Lemma loop_total V mc mi l : 0 < V -> l <> [] -> (forall a, In a l -> ok_asset a) ->
  forall fuel s, inv V l s -> g_break s = false ->
  (Z.to_nat (mi - g_iter s) + count_free (g_pos s) <= fuel)%nat ->
  exists s', loop fuel V mc mi s = Some s' /\ inv V l s' /\
    ((g_break s' = false /\ (mi <= g_iter s')%Z) \/ g_cash s' + tol < mc \/
     (g_break s' = true /\ forall p, In p (g_pos s') -> tol < a_w (p_asset p) - pvalue p / V -> p_unaff p = true)).
Proof.
  intros HV Hl Hok. induction fuel as [|f IH]; intros s Hi Hb Hf; simpl loop;
    destruct (Qle_bool mc (g_cash s + tol)) eqn:E1; cbn [andb].
  - destruct (Z.ltb_spec (g_iter s) mi); [lia|]. exists s. split; [reflexivity|]. split; [exact Hi|]. left. split; [exact Hb|lia].
  - apply qleb_f in E1. exists s. auto.
  - destruct (Z.ltb_spec (g_iter s) mi).
    + pose proof (step_inv V l s HV Hl Hok Hi) as HS. destruct (step V s) as [s'|s'].
      * destruct HS as (HS1 & HS2 & HS3). apply IH; auto. destruct HS3 as [[-> ->]|[-> HS3]]; lia.
      * destruct HS as (HS1 & _ & HS2 & HS3). exists s'. split; [reflexivity|]. split; [exact HS1|]. right. right. split; [exact HS2|exact HS3].
    + exists s. split; [reflexivity|]. split; [exact Hi|]. left. split; [exact Hb|lia].
  - apply qleb_f in E1. exists s. auto.
Qed.

Lemma qmin_list_le d l x : In x l \/ x = d -> qmin_list d l <= x.
Proof.
  induction l as [|y l IH]; simpl.
  - intros [H|H]; [destruct H|subst; lra].
  - intros H. destruct (Qle_bool y (qmin_list d l)) eqn:E.
    + apply qleb_t in E. destruct H as [[->|H]|H]; [lra| |]; [assert (qmin_list d l <= x) by auto|assert (qmin_list d l <= x) by auto]; lra.
    + apply qleb_f in E. destruct H as [[->|H]|H]; [lra| |]; auto.
Qed.

Lemma min_cost_le l a : In a l -> min_cost_of l <= lot_cost a.
Proof.
  destruct l as [|b l]; simpl; [easy|]. intros [->|H]; apply qmin_list_le; [now right|left; apply in_map; auto].
Qed.

(** The loop always returns, and what it returns. *)
Lemma greedy_loop_spec V l mi : 0 < V -> l <> [] -> (forall a, In a l -> ok_asset a /\ 0 <= a_w a) ->
  qsum (map a_w l) == 1 ->
  exists s, greedy_loop V l mi = Some s /\ inv V l s /\
    ((g_break s = false /\ (match mi with Some m => m | None => default_iterations (List.length l) end <= g_iter s)%Z) \/
     forall p, In p (g_pos s) -> tol < a_w (p_asset p) - pvalue p / V -> g_cash s + tol < lot_cost (p_asset p)).
Proof.
  intros HV Hl Hok Hw. unfold greedy_loop. destruct (floor_pass V V l) as [ps cash] eqn:E.
  destruct (floor_pass_spec V l HV Hok V ps cash E) as (F1 & F2 & F3 & F4).
  set (m := match mi with Some m => m | None => _ end).
  destruct (loop_total V (min_cost_of l) m l HV Hl (fun a Ha => proj1 (Hok a Ha))
     (fuel_for (List.length l) m) (mkG ps cash 0 (map a_w l) false)) as (s & S1 & S2 & S3).
  - split; cbn [g_pos g_cash]; auto; [rewrite Hw in F3; unfold tol; lra|].
    intros p Hp. destruct (F4 p Hp) as (A & B & C). split; [exact A|]. split; [congruence|].
    assert (0 < lot_cost (p_asset p)); [|lra]. apply lot_cost_pos, Hok. rewrite <- F1. apply in_map; auto.
  - reflexivity.
  - unfold fuel_for. cbn [g_iter g_pos]. rewrite Z.sub_0_r. unfold count_free.
    assert (List.length (filter free ps) <= List.length ps)%nat by (clear; induction ps; simpl; [lia|destruct free; simpl; lia]).
    assert (List.length ps = List.length l) by (rewrite <- F1, map_length; reflexivity). lia.
  - exists s. split; [exact S1|]. split; [exact S2|]. destruct S3 as [S3|[S3|[_ S3]]]; [left; exact S3| |].
    + right. intros p Hp _. eapply Qlt_le_trans; [exact S3|]. apply min_cost_le.
      rewrite <- (inv_assets _ _ _ S2). apply in_map; auto.
    + right. intros p Hp Ht. apply (inv_pos _ _ _ S2 p Hp). auto.
Qed.

(** * Labels *)
Lemma lookup_in {A} k (l : list (string * A)) v : lookup k l = Some v -> In (k, v) l.
Proof.
  induction l as [|[k' v'] l IH]; simpl; [discriminate|]. destruct (String.eqb_spec k k'); [|auto].
  intros H. injection H as ->. subst. auto.
Qed.

Lemma lookup_nodup {A} k (l : list (string * A)) v : NoDup (map fst l) -> In (k, v) l -> lookup k l = Some v.
Proof.
  induction l as [|[k' v'] l IH]; simpl; [easy|]. intros HN [H|H].
  - injection H as -> ->. rewrite String.eqb_refl. reflexivity.
  - inversion HN; subst. destruct (String.eqb_spec k k'); [|auto]. subst. exfalso. apply H2.
    apply in_map_iff. exists (k', v). auto.
Qed.

Lemma lookup_none {A} k (l : list (string * A)) : lookup k l = None <-> ~ In k (map fst l).
Proof.
  induction l as [|[k' v'] l IH]; simpl; [tauto|]. destruct (String.eqb_spec k k').
  - split; [discriminate|]. intros H. exfalso. apply H. auto.
  - rewrite IH. split; [intros H [H'|H']; congruence || auto|tauto].
Qed.

Lemma share_of_filter raw k : NoDup (map fst raw) ->
  share_of (filter (fun ks => negb (snd ks =? 0)%Z) raw) k = share_of raw k.
Proof.
  unfold share_of. induction raw as [|[k' z] raw IH]; simpl; [auto|]. intros HN. inversion HN; subst.
  destruct (Z.eqb_spec z 0) as [->|Hz]; simpl.
  - destruct (String.eqb_spec k k'); [|auto]. subst. rewrite IH by auto.
    apply (lookup_none k' raw) in H1. rewrite H1. reflexivity.
  - destruct (String.eqb_spec k k'); auto.
Qed.

(** * Accounting *)
Lemma build_result_l inp raw r : 0 < in_total inp -> NoDup (map fst raw) -> build_result inp raw = Ok r ->
  (forall a, held r a = share_of raw (a_name a)) /\
  r_shares r = filter (fun ks => negb (snd ks =? 0)%Z) raw /\
  r_achieved r = map (fun a => (a_name a, inject_Z (held r a) * a_price a / in_total inp)) (in_assets inp) /\
  r_tracking r = tracking inp (held r) /\
  0 <= r_leftover r /\
  (r_leftover r == in_total inp - cost inp (held r) \/
   (r_leftover r = 0 /\ in_total inp < cost inp (held r) < in_total inp + q_eps8)).
Proof.
  intros HV HN H. unfold build_result in H.
  set (value := fun a => inject_Z (share_of raw (a_name a)) * a_price a) in *.
  set (lo := in_total inp - qsum (map value (in_assets inp))) in *.
  assert (G : forall x, Ok (mkR (filter (fun ks => negb (snd ks =? 0)%Z) raw) x
     (map (fun a => (a_name a, value a / in_total inp)) (in_assets inp))
     (qsum (map (fun a => Qabs (a_w a - value a / in_total inp)) (in_assets inp)))) = Ok r ->
     r_leftover r = x /\ (forall a, held r a = share_of raw (a_name a)) /\
     r_shares r = filter (fun ks => negb (snd ks =? 0)%Z) raw /\
     r_achieved r = map (fun a => (a_name a, inject_Z (held r a) * a_price a / in_total inp)) (in_assets inp) /\
     r_tracking r = tracking inp (held r) /\ cost inp (held r) = qsum (map value (in_assets inp))).
  { intros x E. injection E as <-. cbn [r_leftover r_shares r_achieved r_tracking].
    assert (Hh : forall a, held (mkR (filter (fun ks => negb (snd ks =? 0)%Z) raw) x
     (map (fun a => (a_name a, value a / in_total inp)) (in_assets inp))
     (qsum (map (fun a => Qabs (a_w a - value a / in_total inp)) (in_assets inp)))) a = share_of raw (a_name a)).
    { intros a. unfold held. cbn [r_shares]. apply share_of_filter. exact HN. }
    split; [reflexivity|]. split; [exact Hh|]. split; [reflexivity|].
    unfold tracking, cost.
    split; [apply map_ext; intros a; rewrite Hh; reflexivity|].
    split; f_equal; apply map_ext; intros a; rewrite Hh; reflexivity. }
  destruct (Qlt_bool lo 0) eqn:E1.
  - destruct (Qlt_bool (Qabs lo) q_eps8) eqn:E2; [|discriminate].
    apply G in H as (H1 & H2 & H3 & H4 & H5 & H6). apply qltb_t in E1, E2.
    rewrite Qabs_neg in E2 by lra. repeat split; auto; [rewrite H1; lra|].
    right. split; [exact H1|]. rewrite H6. subst lo. split; lra.
  - apply G in H as (H1 & H2 & H3 & H4 & H5 & H6). apply qltb_f in E1. repeat split; auto; [rewrite H1; exact E1|].
    left. rewrite H1, H6. subst lo. reflexivity.
Qed.

Lemma build_result_ok inp raw :
  (exists r, build_result inp raw = Ok r) <->
  cost inp (fun a => share_of raw (a_name a)) < in_total inp + q_eps8.
Proof.
  unfold build_result, cost.
  set (v := qsum (map (fun a => inject_Z (share_of raw (a_name a)) * a_price a) (in_assets inp))).
  assert (0 < q_eps8) by (unfold q_eps8; lra).
  destruct (Qlt_bool (in_total inp - v) 0) eqn:E1.
  - apply qltb_t in E1. destruct (Qlt_bool (Qabs (in_total inp - v)) q_eps8) eqn:E2.
    + apply qltb_t in E2. rewrite Qabs_neg in E2 by lra. split; [intros _; lra|eauto].
    + apply qltb_f in E2. rewrite Qabs_neg in E2 by lra. split; [intros [? ?]; discriminate|intros; lra].
  - apply qltb_f in E1. split; [intros _; lra|eauto].
Qed.

(** * Greedy at the level of the call *)
Lemma pos_shares_fst ps : map fst (pos_shares ps) = map a_name (map p_asset ps).
Proof. unfold pos_shares. rewrite !map_map. reflexivity. Qed.

Lemma share_of_pos ps p : NoDup (map a_name (map p_asset ps)) -> In p ps ->
  share_of (pos_shares ps) (a_name (p_asset p)) = p_shares p.
Proof.
  intros HN Hp. unfold share_of. erewrite lookup_nodup; [reflexivity| |].
  - rewrite pos_shares_fst. exact HN.
  - unfold pos_shares. apply in_map_iff. exists p. auto.
Qed.

Lemma greedy_raw inp sort mi : good_inputs inp -> in_shorts inp = false -> sorts_desc sort ->
  exists s, greedy_loop (in_total inp) (sort (in_assets inp)) mi = Some s /\
    let raw := pos_shares (g_pos s) in
    let h := fun a => share_of raw (a_name a) in
    NoDup (map fst raw) /\
    whole_lots inp h /\ long_only inp h /\ cost inp h + g_cash s == in_total inp /\ - tol <= g_cash s /\
    (forall a, In a (in_assets inp) -> inject_Z (h a) * a_price a < a_w a * in_total inp + lot_cost a) /\
    ((g_break s = false /\ (match mi with Some m => m | None => default_iterations (List.length (sort (in_assets inp))) end <= g_iter s)%Z) \/
     forall a, In a (in_assets inp) -> tol < a_w a - inject_Z (h a) * a_price a / in_total inp -> g_cash s + tol < lot_cost a).
Proof.
  intros (HV & Hne & HN & Hw & Hok & Hsh) Hs Hsort.
  destruct (Hsort (in_assets inp)) as [HP _]. set (l := sort (in_assets inp)) in *.
  assert (Hok' : forall a, In a l -> ok_asset a /\ 0 <= a_w a).
  { intros a Ha. apply (Permutation_in _ HP) in Ha. split; [apply Hok; auto|].
    destruct (Qlt_le_dec (a_w a) 0) as [Hlt|]; [|auto]. exfalso.
    assert (in_shorts inp = true) by (apply Hsh; eauto). congruence. }
  destruct (greedy_loop_spec (in_total inp) l mi HV) as (s & S1 & S2 & S3).
  - intros E. apply Permutation_sym in HP. rewrite E in HP. apply Permutation_sym, Permutation_nil in HP. congruence.
  - exact Hok'.
  - rewrite <- Hw. apply qsum_perm, Permutation_map, HP.
  - exists s. split; [exact S1|]. intros raw h.
    pose proof (inv_assets _ _ _ S2) as A1.
    assert (HN' : NoDup (map a_name (map p_asset (g_pos s)))).
    { rewrite A1. eapply Permutation_NoDup; [|exact HN]. apply Permutation_map, Permutation_sym, HP. }
    assert (Hpos : forall a, In a (in_assets inp) -> exists p, In p (g_pos s) /\ p_asset p = a /\ h a = p_shares p).
    { intros a Ha. assert (In a l) by (eapply Permutation_in; [apply Permutation_sym, HP|exact Ha]).
      rewrite <- A1 in H. apply in_map_iff in H as (p & <- & Hp). exists p. split; [auto|]. split; [auto|].
      apply share_of_pos; auto. }
    split; [unfold raw; rewrite pos_shares_fst; exact HN'|].
    split; [|split; [|split; [|split; [|split]]]].
    + intros a Ha. destruct (Hpos a Ha) as (p & Hp & <- & ->). destruct (inv_pos _ _ _ S2 p Hp) as ((k & K1 & K2) & _). eauto.
    + intros a Ha. destruct (Hpos a Ha) as (p & Hp & <- & ->). destruct (inv_pos _ _ _ S2 p Hp) as ((k & K1 & K2) & _).
      rewrite K2. destruct (Hok _ Ha). nia.
    + rewrite <- (inv_sum _ _ _ S2). apply Qplus_inj_r. unfold cost.
      rewrite <- (qsum_perm _ _ (Permutation_map (fun a => inject_Z (h a) * a_price a) HP)).
      rewrite <- A1, map_map. apply qsum_ext. intros p Hp. unfold h, raw. rewrite share_of_pos by auto. reflexivity.
    + exact (inv_cash _ _ _ S2).
    + intros a Ha. destruct (Hpos a Ha) as (p & Hp & <- & ->). apply (inv_pos _ _ _ S2 p Hp).
    + destruct S3 as [S3|S3]; [left; exact S3|right]. intros a Ha. destruct (Hpos a Ha) as (p & Hp & <- & ->).
      apply S3. exact Hp.
Qed.
