(** C13, C14, C15, C16, C47: discrete allocation. *)
From Verif Require Import QBase SortLib ProbModel DiscModel DiscSpec DiscProofs DiscMilp DiscApi DiscCall DiscExit.
Open Scope Q_scope.
Open Scope list_scope.

(** A descending sort exists. *)
Definition desc_sort (l : list asset) : list asset :=
  take dasset l (argsort_by (fun a b => Qle_bool (a_w b) (a_w a)) dasset l).
Example desc_sort_sorts : sorts_desc desc_sort.
Proof.
  intros l. unfold desc_sort, argsort_by.
  assert (H : is_argsort (fun a b => a_w b <= a_w a) dasset l (isort (fun a b => Qle_bool (a_w b) (a_w a)) dasset l (seq 0 (List.length l)))).
  { apply isort_argsort.
    - intros a b. apply Qle_bool_iff.
    - intros a b H. apply Qle_bool_false in H. lra.
    - intros; lra. }
  destruct H as [H1 H2]. split; [apply take_perm; exact H1|exact H2].
Qed.

(** C47.  Validation accepts finite arguments exactly when there are weights and prices, every
    weighted label has a price, some weight is not negligible, the labels kept have positive
    prices and lot sizes, the portfolio value is positive and the kept weights sum to a positive
    number. *)
Theorem discrete_validation_iff : forall weights prices total lots,
  (exists v, make_inputs (fin weights) (fin prices) (Fin total) lots = Ok v) <->
  weights <> [] /\ prices <> [] /\
  (forall k w, In (k, w) weights -> lookup k prices <> None) /\
  kept weights <> [] /\
  (forall k w, In (k, w) (kept weights) -> 0 < price_in prices k /\ (0 < lot_in lots k)%Z) /\
  0 < total /\ 0 < qsum (map snd (kept weights)).
Proof. exact make_inputs_iff. Qed.
Print Assumptions discrete_validation_iff.

(** C47.  What is delivered: the kept labels in order, weights rescaled to sum to one, their prices
    and lot sizes. *)
Theorem discrete_validation_result : forall weights prices total lots v,
  NoDup (map fst weights) -> make_inputs (fin weights) (fin prices) (Fin total) lots = Ok v ->
  exists inp t, finite_inputs v = Some inp /\ good_inputs inp /\ in_total inp = total /\
    t == qsum (map snd (kept weights)) /\ 0 < t /\
    in_assets inp = map (fun kw => mkA (fst kw) (snd kw / t) (price_in prices (fst kw)) (lot_in lots (fst kw))) (kept weights) /\
    (in_shorts inp = true <-> exists k w, In (k, w) (kept weights) /\ w < 0).
Proof. exact validated. Qed.
Print Assumptions discrete_validation_result.

(** C47 fails for NaN: a NaN price, weight or portfolio value is accepted. *)
Theorem nan_rejected_refuted :
  ~ (forall weights prices total lots v, make_inputs weights prices total lots = Ok v ->
       fl_finite total = true) /\
  ~ (forall weights prices total lots v, make_inputs weights prices total lots = Ok v ->
       forall a, In a (v_assets v) -> fl_finite (v_price a) = true) /\
  ~ (forall weights prices total lots v, make_inputs weights prices total lots = Ok v ->
       forall a, In a (v_assets v) -> fl_finite (v_w a) = true).
Proof.
  split; [|split]; intros H.
  - specialize (H [("a"%string, Fin 1)] [("a"%string, Fin 1)] NaN None _ eq_refl). discriminate.
  - specialize (H [("a"%string, Fin 1)] [("a"%string, NaN)] (Fin 1) None _ eq_refl _ (or_introl eq_refl)). discriminate.
  - specialize (H [("b"%string, NaN); ("a"%string, Fin 1)] [("a"%string, Fin 1); ("b"%string, Fin 1)] (Fin 1) None _ eq_refl _ (or_introl eq_refl)). discriminate.
Qed.
Print Assumptions nan_rejected_refuted.

(** C13, C16.  Whatever the method, the options and even the solver (its answers need only have
    the right length), a successful call reports whole non-zero lots of distinct kept labels that
    cost at most [total + 1e-8], with the rest as leftover cash; achieved weights are value over
    total, the tracking error is their L1 distance to the rescaled targets, and achieved weights
    sum to spending over total. *)
Theorem discrete_call_accounting : forall weights prices total lots sort solver meth mi fm pen mc r,
  NoDup (map fst weights) -> sorts_desc sort -> solver_shape solver ->
  discretize_weights sort solver weights prices total meth lots mi fm pen mc = Some (Ok r) ->
  0 < total /\ leftover_ok prices total r /\ proper_shares weights lots r /\
  Forall2 (fun kw ka => fst ka = fst kw /\
      snd ka == inject_Z (shares_of r (fst kw)) * price_in prices (fst kw) / total) (kept weights) (r_achieved r) /\
  r_tracking r == qsum (map (fun kw => Qabs (snd kw / qsum (map snd (kept weights)) -
       inject_Z (shares_of r (fst kw)) * price_in prices (fst kw) / total)) (kept weights)) /\
  qsum (map snd (r_achieved r)) == spent prices r / total.
Proof. exact discretize_accounting. Qed.
Print Assumptions discrete_call_accounting.

(** C13.  Spending is bounded by the portfolio value up to [1e-8]. *)
Theorem discrete_never_overspends : forall weights prices total lots sort solver meth mi fm pen mc r,
  NoDup (map fst weights) -> sorts_desc sort -> solver_shape solver ->
  discretize_weights sort solver weights prices total meth lots mi fm pen mc = Some (Ok r) ->
  spent prices r <= total + (1 # 100000000) /\ 0 <= r_leftover r.
Proof.
  intros weights prices total lots sort solver meth mi fm pen mc r H1 H2 H3 H4.
  destruct (discretize_accounting _ _ _ _ _ _ _ _ _ _ _ _ H1 H2 H3 H4) as (_ & (A & B) & _). split; [|exact A].
  destruct B as [B|[_ [_ B]]]; lra.
Qed.
Print Assumptions discrete_never_overspends.

(** C16.  Achieved weights and the cash share add up to one (up to the forgiven overspend). *)
Theorem discrete_weights_and_cash_sum_to_one : forall weights prices total lots sort solver meth mi fm pen mc r,
  NoDup (map fst weights) -> sorts_desc sort -> solver_shape solver ->
  discretize_weights sort solver weights prices total meth lots mi fm pen mc = Some (Ok r) ->
  let s := qsum (map snd (r_achieved r)) + r_leftover r / total in
  1 <= s < 1 + (1 # 100000000) / total /\ (r_leftover r == total - spent prices r -> s == 1).
Proof.
  intros weights prices total lots sort solver meth mi fm pen mc r H1 H2 H3 H4 s.
  destruct (discretize_accounting _ _ _ _ _ _ _ _ _ _ _ _ H1 H2 H3 H4) as (HV & (A & B) & _ & _ & _ & E).
  assert (Es : s == (spent prices r + r_leftover r) / total) by (unfold s; rewrite E; field; lra).
  assert (HB : total <= spent prices r + r_leftover r < total + (1 # 100000000)).
  { destruct B as [B|[B1 B2]]; [rewrite B|rewrite B1]; lra. }
  split.
  - rewrite Es. split.
    + apply Qle_shift_div_l; lra.
    + setoid_replace (1 + (1 # 100000000) / total) with ((total + (1 # 100000000)) / total) by (field; lra).
      apply Qmult_lt_compat_r; [apply Qinv_lt_0_compat; exact HV|lra].
  - intros Hl. rewrite Es, Hl. field. lra.
Qed.
Print Assumptions discrete_weights_and_cash_sum_to_one.

(** C14.  The call always returns (a result or an error). *)
Theorem discrete_call_terminates : forall weights prices total lots sort solver meth mi fm pen mc,
  NoDup (map fst weights) -> sorts_desc sort ->
  exists o, discretize_weights sort solver weights prices total meth lots mi fm pen mc = Some o.
Proof. exact terminates. Qed.
Print Assumptions discrete_call_terminates.

(** C13, C14.  On validated long-only input, modes "auto" and "none" never raise, for any iteration
    cap and any behaviour of the MILP fallback. *)
Theorem greedy_never_raises : forall inp sort mip mi fm,
  good_inputs inp -> in_shorts inp = false -> sorts_desc sort ->
  In fm [None; Some "auto"; Some "none"; Some ""]%string ->
  exists r, allocate_greedy sort mip inp mi fm = Some (Ok r).
Proof. exact greedy_long_ok. Qed.
Print Assumptions greedy_never_raises.

(** C13, C14.  With the default iteration cap (or any cap above twice the number of assets), the
    greedy result is long-only, overshoots no target by a lot or more, and stops only when every
    asset still short of its target by more than 1e-12 costs more per lot than the cash left. *)
Theorem greedy_exit_condition : forall inp sort mip mi fm,
  good_inputs inp -> in_shorts inp = false -> sorts_desc sort ->
  (forall a, In a (in_assets inp) -> (1 # 1000000000000) < a_w a) ->
  match mi with None => True | Some m => (2 * Z.of_nat (List.length (in_assets inp)) < m)%Z end ->
  In fm [None; Some "auto"; Some "none"; Some ""; Some "milp"]%string ->
  exists r, allocate_greedy sort mip inp mi fm = Some (Ok r) /\
    long_only inp (held r) /\
    (forall a, In a (in_assets inp) -> inject_Z (held r a) * a_price a < a_w a * in_total inp + a_price a * inject_Z (a_lot a)) /\
    (forall a, In a (in_assets inp) -> (1 # 1000000000000) < a_w a - inject_Z (held r a) * a_price a / in_total inp ->
       r_leftover r < a_price a * inject_Z (a_lot a)).
Proof.
  intros inp sort mip mi fm HG Hs Hsort Hw Hm Hf. apply greedy_default; auto.
  destruct mi as [m|]; simpl; [exact Hm|]. apply default_cap_large. destruct HG as (_ & Hne & _).
  destruct (in_assets inp); [congruence|discriminate].
Qed.
Print Assumptions greedy_exit_condition.

(** C14.  Under the same conditions the fallback mode makes no difference: the MILP is never called. *)
Theorem greedy_default_never_uses_fallback : forall inp sort mip mip' mi fm fm',
  good_inputs inp -> in_shorts inp = false -> sorts_desc sort ->
  (forall a, In a (in_assets inp) -> (1 # 1000000000000) < a_w a) ->
  match mi with None => True | Some m => (2 * Z.of_nat (List.length (in_assets inp)) < m)%Z end ->
  In fm [None; Some "auto"; Some "none"; Some ""; Some "milp"]%string ->
  In fm' [None; Some "auto"; Some "none"; Some ""; Some "milp"]%string ->
  allocate_greedy sort mip inp mi fm = allocate_greedy sort mip' inp mi fm'.
Proof.
  intros inp sort mip mip' mi fm fm' HG Hs Hsort Hw Hm Hf Hf'. apply greedy_default_indep; auto.
  destruct mi as [m|]; simpl; [exact Hm|]. apply default_cap_large. destruct HG as (_ & Hne & _).
  destruct (in_assets inp); [congruence|discriminate].
Qed.
Print Assumptions greedy_default_never_uses_fallback.

(** C14, C16.  The modes differ only when the greedy result is judged unsatisfactory: then ["milp"]
    gives the outcome of the MILP, error included, and ["auto"] its result or, when it fails, the
    greedy one. *)
Theorem greedy_fallback_modes : forall inp sort mip mi,
  good_inputs inp -> in_shorts inp = false -> sorts_desc sort ->
  exists r0, (forall fm, In fm [None; Some "none"; Some ""]%string -> allocate_greedy sort mip inp mi fm = Some (Ok r0)) /\
    ((allocate_greedy sort mip inp mi (Some "auto"%string) = Some (Ok r0) /\ allocate_greedy sort mip inp mi (Some "milp"%string) = Some (Ok r0)) \/
     (allocate_greedy sort mip inp mi (Some "milp"%string) = Some (mip inp) /\
      allocate_greedy sort mip inp mi (Some "auto"%string) = Some (match mip inp with Ok r => Ok r | Err _ => Ok r0 end))).
Proof. exact greedy_modes. Qed.
Print Assumptions greedy_fallback_modes.

(** C15.  Long-only: from an optimum of the programme the MILP allocator returns an affordable
    whole-lot long-only holding that is at least as good as every other one (within [max_cash]),
    on money-scaled tracking error plus penalised leftover. *)
Theorem milp_allocation_optimal : forall inp solver pen mc x,
  good_inputs inp -> in_shorts inp = false ->
  solver (build_milp inp pen mc) = Some x -> milp_optimum (build_milp inp pen mc) x ->
  exists r, allocate_mip solver pen mc inp = Ok r /\
    whole_lots inp (held r) /\ long_only inp (held r) /\
    cost inp (held r) + r_leftover r == in_total inp /\ 0 <= r_leftover r /\
    (forall m, mc = Some m -> r_leftover r <= m) /\
    forall h, whole_lots inp h -> long_only inp h -> cost inp h <= in_total inp ->
      (forall m, mc = Some m -> in_total inp - cost inp h <= m) ->
      in_total inp * tracking inp (held r) + pen * r_leftover r <=
      in_total inp * tracking inp h + pen * (in_total inp - cost inp h).
Proof. exact milp_optimal. Qed.
Print Assumptions milp_allocation_optimal.

(** C15.  The programme is feasible exactly when some affordable whole-lot long-only holding
    respects [max_cash]; so a solver failure on feasible input is the solver's. *)
Theorem milp_feasible_if_affordable : forall inp pen mc h,
  good_inputs inp -> in_shorts inp = false ->
  whole_lots inp h -> long_only inp h -> cost inp h <= in_total inp ->
  in_total inp - cost inp h <= cash_ub (in_total inp) (in_assets inp) mc ->
  exists y, milp_feasible (build_milp inp pen mc) y /\
    qdot (p_c (build_milp inp pen mc)) y == in_total inp * tracking inp h + pen * (in_total inp - cost inp h).
Proof. exact milp_competitor. Qed.
Print Assumptions milp_feasible_if_affordable.

(** C15.  With shorts too, a feasible answer gives whole lots and exact accounting... *)
Theorem milp_allocation_sound : forall inp solver pen mc x,
  good_inputs inp ->
  solver (build_milp inp pen mc) = Some x -> milp_feasible (build_milp inp pen mc) x ->
  exists r, allocate_mip solver pen mc inp = Ok r /\ whole_lots inp (held r) /\
    cost inp (held r) + r_leftover r == in_total inp /\ 0 <= r_leftover r.
Proof.
  intros inp solver pen mc x HG Hx HF. destruct (milp_result inp solver pen mc x HG HF Hx) as (r & R1 & R2 & _ & R4 & R5 & _).
  exists r. intuition.
Qed.
Print Assumptions milp_allocation_sound.

(** C15 fails with shorts: lots are capped at [floor(V/cost)+1] and errors at V, so a leveraged
    long leg cannot reach its target although the holding is affordable. *)
Theorem milp_optimal_with_shorts_refuted :
  ~ (forall inp solver pen mc x, good_inputs inp ->
      solver (build_milp inp pen mc) = Some x -> milp_optimum (build_milp inp pen mc) x ->
      exists r, allocate_mip solver pen mc inp = Ok r /\
      forall h, whole_lots inp h -> cost inp h <= in_total inp -> 
        in_total inp * tracking inp (held r) + pen * r_leftover r <=
        in_total inp * tracking inp h + pen * (in_total inp - cost inp h)).
Proof.
  intros H. destruct (H sh_inp (fun _ => Some sh_x) 1 None sh_x sh_good eq_refl sh_opt) as (r & E & Hr).
  assert (Er : allocate_mip (fun _ => Some sh_x) 1 None sh_inp = Ok r) by exact E.
  vm_compute in Er. injection Er as <-.
  specialize (Hr (fun a => if String.eqb (a_name a) "a" then 20 else -10)%Z).
  assert (HW : whole_lots sh_inp (fun a => if String.eqb (a_name a) "a" then 20 else -10)%Z).
  { intros a [<-|[<-|[]]]; [exists 20%Z|exists (-10)%Z]; reflexivity. }
  specialize (Hr HW). assert (HC : cost sh_inp (fun a => if String.eqb (a_name a) "a" then 20 else -10)%Z <= in_total sh_inp) by (vm_compute; discriminate).
  specialize (Hr HC). vm_compute in Hr. apply Hr. reflexivity.
Qed.
Print Assumptions milp_optimal_with_shorts_refuted.

(** * Witnesses *)
Definition ex_w : list (string * Q) := [("a", 3 # 5); ("b", 2 # 5); ("c", 0)]%string.
Definition ex_p : list (string * Q) := [("c", 5); ("b", 7); ("a", 3)]%string.
Definition ex_lots : option (list (string * Z)) := Some [("b", 2%Z)]%string.
(** The call of [discrete_call_accounting] succeeds: 20 a and 2 lots of b, 12 left. *)
Example ex_greedy :
  NoDup (map fst ex_w) /\ solver_shape (fun _ => None) /\
  match discretize_weights desc_sort (fun _ => None) ex_w ex_p 100 "greedy" ex_lots None (Some "auto"%string) 1 None with
  | Some (Ok r) => r_shares r = [("a", 20%Z); ("b", 4%Z)]%string /\ r_leftover r == 12 /\ spent ex_p r == 88 /\ r_tracking r == 12 # 100
  | _ => False
  end.
Proof.
  split; [repeat constructor; simpl; intuition discriminate|]. split; [intros P x; discriminate|].
  vm_compute. repeat split; reflexivity.
Qed.

Definition ex_inp : inputs := mkI [mkA "a" (3 # 5) 3 1; mkA "b" (2 # 5) 7 2]%string 100 false.
Example ex_inp_good : good_inputs ex_inp /\ in_shorts ex_inp = false /\
  (forall a, In a (in_assets ex_inp) -> (1 # 1000000000000) < a_w a).
Proof.
  split; [|split; [reflexivity|intros a [<-|[<-|[]]]; reflexivity]].
  split; [reflexivity|]. split; [discriminate|]. split; [repeat constructor; simpl; intuition discriminate|].
  split; [reflexivity|]. split.
  - intros a [<-|[<-|[]]]; split; reflexivity.
  - split; [discriminate|]. intros (a & [<-|[<-|[]]] & H); discriminate.
Qed.

(** With no iteration allowed, ["auto"] keeps the greedy holding when the MILP fails and
    ["milp"] raises. *)
Example ex_fallback :
  match allocate_greedy desc_sort (fun _ => Err RuntimeError) ex_inp (Some 0%Z) (Some "auto"%string) with
  | Some (Ok r) => r_shares r = [("a", 20%Z); ("b", 4%Z)]%string
  | _ => False
  end /\
  allocate_greedy desc_sort (fun _ => Err RuntimeError) ex_inp (Some 0%Z) (Some "milp"%string) = Some (Err RuntimeError).
Proof. vm_compute. split; reflexivity. Qed.

(** A one-asset MILP with its optimum: 3 shares at 3 out of 10. *)
Definition ex_one : inputs := mkI [mkA "a" 1 3 1]%string 10 false.
Example ex_milp : good_inputs ex_one /\ milp_optimum (build_milp ex_one 1 None) [3; 1; 1] /\
  match allocate_mip (fun _ => Some [3; 1; 1]) 1 None ex_one with
  | Ok r => r_shares r = [("a", 3%Z)]%string /\ r_leftover r == 1
  | Err _ => False
  end.
Proof.
  split; [|split; [|vm_compute; split; reflexivity]].
  - split; [reflexivity|]. split; [discriminate|]. split; [repeat constructor; simpl; intuition discriminate|].
    split; [reflexivity|]. split; [intros a [<-|[]]; split; reflexivity|].
    split; [discriminate|]. intros (a & [<-|[]] & H); discriminate.
  - change [3; 1; 1] with ([3] ++ [1] ++ [1]). split.
    + apply milp_reading; [reflexivity|reflexivity|]. split.
      * intros [|i] Hi; cbn in Hi |- *; [|lia]; split; vm_compute; discriminate.
      * intros [|i] Hi; cbn in Hi |- *; [|lia]; split; vm_compute; discriminate.
      * split; vm_compute; discriminate.
      * intros [|i] Hi; cbn in Hi |- *; [exists 3%Z|lia]; reflexivity.
      * reflexivity.
      * intros [|i] Hi; cbn in Hi |- *; [|lia]; vm_compute; discriminate.
    + intros y Hy. assert (HLy : List.length y = (2 * 1 + 1)%nat) by (destruct Hy as [-> _]; reflexivity).
      destruct (split3 y 1 HLy) as (xs & us & r & -> & Hx & Hu).
      rewrite !obj_reading by auto. apply milp_reading in Hy; auto. destruct Hy as [D1 D2 D3 D4 D5 D6].
      destruct xs as [|x1 [|]]; try discriminate Hx. destruct us as [|u1 [|]]; try discriminate Hu.
      pose proof (D6 0%nat ltac:(cbn; lia)) as A1. destruct (D4 0%nat ltac:(cbn; lia)) as [z Hz].
      apply Qabs_le_iff in A1. cbn [nth in_assets ex_one a_w in_total] in *.
      unfold qdot in D5. simpl in D5. unfold lot_cost in *. cbn [a_price a_lot] in *. change (inject_Z 1) with 1 in *.
      rewrite Hz in *. assert (Hz3 : (z <= 3)%Z).
      { destruct (Z.le_gt_cases z 3) as [|Hgt]; [auto|]. exfalso. assert (4 <= inject_Z z) by (change 4 with (inject_Z 4); rewrite <- Zle_Qle; lia). lra. }
      assert (inject_Z z <= 3) by (change 3 with (inject_Z 3); rewrite <- Zle_Qle; lia). simpl. lra.
Qed.
