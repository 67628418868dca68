(** C98-C101: returns from price tables (pyvallocation/utils/data_helpers.py). *)
From Verif Require Import RBase ConsModel MomModel DistModel DistSpec DistProofs3 DistProperties DataModel DataSpec DataProofs DataProofs2.
From Coq Require Import Lra Lia Permutation.
Open Scope R_scope.
Open Scope list_scope.

(** C98: which requests are served, what the others raise. *)
Theorem data_accepts : forall f wanted date method fill,
  (exists M, returns_of_frame (DFrame f) wanted date method fill = Ok M) <-> servable f wanted date method fill.
Proof. exact returns_accept. Qed.
Print Assumptions data_accepts.

Theorem data_errors : forall arg wanted date method fill e, returns_of_frame arg wanted date method fill = Err e ->
  e = ValueError \/ (e = TypeError /\ exists f names c, arg = DFrame f /\ wanted = Some names /\
    In c (fr_cols f) /\ In (col_name c) names /\ col_numeric c = false).
Proof. exact returns_errors. Qed.
Print Assumptions data_errors.

(** Whatever the input, the array returned has no NaN, one width, and one row fewer than the table
    (at most that many under "drop"). *)
Theorem data_shape : forall f wanted date method fill M, returns_of_frame (DFrame f) wanted date method fill = Ok M ->
  exists w, Forall (fun r => List.length r = w /\ Forall (fun x => x <> NaN) r) M /\
    (List.length M <= fr_rows f - 1)%nat /\ (fill <> "drop"%string -> List.length M = fr_rows f - 1)%nat.
Proof. exact returns_shape. Qed.
Print Assumptions data_shape.

(** C99: the returns of a complete history of positive prices. *)
Theorem data_exact : forall f names T p q date k fk, holds_prices f names T p -> date_usable date f names ->
  (forall t j, (t < T)%nat -> (j < List.length names)%nat -> p t j = Some (q t j)) ->
  exists M, returns_of_frame (DFrame f) (Some names) date (calc_name k) (fill_name fk) = Ok M /\
    matrix_is M (T - 1) (List.length names) (fun t j => growth k (q t j) (q (S t) j)).
Proof. exact returns_complete. Qed.
Print Assumptions data_exact.

(** They carry the prices: compounding them from the first price gives every later price, and the
    simple returns are [exp] of the log returns minus one. *)
Theorem data_compounds : forall f names T p q date fk Ms Ml, holds_prices f names T p -> date_usable date f names ->
  (forall t j, (t < T)%nat -> (j < List.length names)%nat -> p t j = Some (q t j)) ->
  returns_of_frame (DFrame f) (Some names) date "simple" (fill_name fk) = Ok Ms ->
  returns_of_frame (DFrame f) (Some names) date "log" (fill_name fk) = Ok Ml ->
  exists s l, matrix_is Ms (T - 1) (List.length names) s /\ matrix_is Ml (T - 1) (List.length names) l /\
    (forall t j, (t < T - 1)%nat -> (j < List.length names)%nat -> -1 < s t j /\ exp (l t j) - 1 = s t j) /\
    (forall t j, (t < T)%nat -> (j < List.length names)%nat ->
       compound (q 0%nat j) (fun u => s u j) t = q t j /\ q 0%nat j * exp (sumn t (fun u => l u j)) = q t j).
Proof.
  intros f names T p q date fk Ms Ml H D Q E1 E2.
  destruct (returns_complete f names T p q date Simple fk H D Q) as (M1 & F1 & G1).
  destruct (returns_complete f names T p q date Log fk H D Q) as (M2 & F2 & G2).
  cbn [calc_name] in *. rewrite E1 in F1. rewrite E2 in F2. inversion F1; inversion F2; subst M1 M2.
  assert (PQ : forall t j, (t < T)%nat -> (j < List.length names)%nat -> 0 < q t j).
  { intros t j Ht Hj. destruct H as (_ & _ & _ & _ & HP). apply (HP t j). apply Q; assumption. }
  eexists. eexists. split; [exact G1|]. split; [exact G2|]. split.
  - intros t j Ht Hj. cbn [growth]. assert (A := PQ t j ltac:(lia) Hj). assert (B := PQ (S t) j ltac:(lia) Hj).
    assert (0 < q (S t) j / q t j) by (apply Rdiv_lt_0_compat; assumption). split; [lra|]. rewrite exp_ln by assumption. reflexivity.
  - intros t j Ht Hj. apply compound_growth. intros u Hu. apply PQ; [lia|assumption].
Qed.
Print Assumptions data_compounds.

(** The requested columns come in the requested order, whatever the order in the frame; a date column
    is only taken away. *)
Theorem data_column_order : forall f f' names date method fill, names <> [] -> NoDup (map col_name (fr_cols f)) ->
  fr_index f' = fr_index f -> fr_rows f' = fr_rows f -> Permutation (fr_cols f) (fr_cols f') ->
  returns_of_frame (DFrame f') (Some names) date method fill = returns_of_frame (DFrame f) (Some names) date method fill.
Proof. exact returns_order. Qed.
Print Assumptions data_column_order.

(** Without a selection, the numeric columns other than the date are used, in frame order. *)
Theorem data_default_columns : forall f date method fill, NoDup (map col_name (fr_cols f)) ->
  serves_date date f -> fr_rows f <> 0%nat ->
  let names := map col_name (filter col_numeric (left_columns date f)) in names <> [] ->
  returns_of_frame (DFrame f) None date method fill = returns_of_frame (DFrame f) (Some names) date method fill.
Proof.
  intros f date method fill ND SD NR names NN. cbn [returns_of_frame].
  rewrite (proj1 (set_date_iff date f) SD). cbn [bind].
  assert (NL : NoDup (map col_name (left_columns date f))).
  { clear -ND. unfold left_columns. induction (fr_cols f) as [|c l IH]; [constructor|]. inversion ND; subst. cbn [filter].
    destruct (negb _); [|auto]. cbn [map]. constructor; [|auto]. intros I. apply H1. rewrite in_map_iff in *. destruct I as (x & E & I). apply filter_In in I. exists x. tauto. }
  unfold pick_columns at 1. unfold names in *.
  destruct (filter col_numeric (left_columns date f)) as [|c0 l0] eqn:EF; [exfalso; apply NN; reflexivity|].
  destruct (fr_rows f) as [|n] eqn:ER; [contradiction|].
  assert (A : pick_columns (Some (map col_name (c0 :: l0))) (S n) (left_columns date f) = Ok (c0 :: l0)).
  { unfold pick_columns. cbn [map]. change (col_name c0 :: map col_name l0) with (map col_name (c0 :: l0)).
    assert (SUB : forall c, In c (c0 :: l0) -> In c (left_columns date f)) by (intros c I; rewrite <- EF in I; apply filter_In in I; tauto).
    rewrite (proj2 (forallb_forall _ _)).
    - f_equal. change (cols_named (col_name c0) (left_columns date f) :: map (fun n0 => cols_named n0 (left_columns date f)) (map col_name l0)) with (map (fun n0 => cols_named n0 (left_columns date f)) (map col_name (c0 :: l0))). rewrite map_map.
      assert (X : forall l, (forall c, In c l -> In c (left_columns date f)) -> List.concat (map (fun c => cols_named (col_name c) (left_columns date f)) l) = l).
      { induction l as [|c l IH]; intros HL; [reflexivity|]. cbn [map List.concat]. rewrite (nodup_named _ c NL) by (apply HL; left; reflexivity).
        cbn [app]. f_equal. apply IH. intros d I. apply HL. right. exact I. }
      apply X. exact SUB.
    - intros m I. apply in_map_iff in I. destruct I as (c & <- & I). apply existsb_exists. exists c. split; [apply SUB; exact I|apply String.eqb_refl]. }
  rewrite A. reflexivity.
Qed.
Print Assumptions data_default_columns.

(** The log-return default and [from_prices] see the same history: the simple returns are the
    scenarios stored by [PortfolioWrapper.from_prices]. *)
Theorem data_agrees_with_from_prices : forall f names T N a h date fk labels, N = List.length names ->
  price_history a T N h -> (forall l, labels = Some l -> List.length l = N) ->
  holds_prices f names (S T) (fun t j => if (t <? S T)%nat && (j <? N)%nat then Some (h (pos N t j)) else None) -> date_usable date f names ->
  exists d X r M, from_prices (match labels with Some l => PFrame l a | None => PArr a end) = Ok d /\
    d_scen d = Some X /\ real_array X [T; N] r /\
    returns_of_frame (DFrame f) (Some names) date "simple" (fill_name fk) = Ok M /\
    matrix_is M T N (fun t j => r (pos N t j)).
Proof.
  intros f names T N a h date fk labels EN HA HL HP HD.
  destruct (prices_accept labels a T N h _ HA HL eq_refl) as (d & X & pr & m & c & E & E1 & E2 & E3 & E4 & E5 & _).
  assert (Q : forall t j, (t < S T)%nat -> (j < List.length names)%nat ->
    (if (t <? S T)%nat && (j <? N)%nat then Some (h (pos N t j)) else None) = Some (h (pos N t j))).
  { intros t j Ht Hj. rewrite (proj2 (Nat.ltb_lt t (S T)) Ht), (proj2 (Nat.ltb_lt j N)) by lia. reflexivity. }
  destruct (returns_complete f names (S T) _ (fun t j => h (pos N t j)) date Simple fk HP HD Q) as (M & F & G).
  exists d, X, (ret_of N h), M. split; [exact E|]. split; [exact E4|]. split; [exact E5|]. split; [exact F|].
  replace (S T - 1)%nat with T in G by lia. rewrite <- EN in G. destruct G as (G1 & G2). split; [exact G1|]. intros t Ht. rewrite (G2 t Ht).
  apply map_ext. intros j. cbn [growth]. unfold ret_of, pos. replace (t * N + j + N)%nat with (S t * N + j)%nat by (simpl; lia). reflexivity.
Qed.
Print Assumptions data_agrees_with_from_prices.

(** A three-day table with a date column, an object column and two price columns in the other order. *)
Definition ex_frame : frame := mkFrame None 3 [
  mkCol "day" false true []; mkCol "B" true true [Fin 4; Fin 2; Fin 3]; mkCol "note" false false [];
  mkCol "A" true true [Fin 1; Fin 2; Fin 4]].
Definition ex_q (t j : nat) : R := nth t (nth j [[1; 2; 4]; [4; 2; 3]] []) 1.
Example data_case : holds_prices ex_frame ["A"; "B"]%string 3 (fun t j => Some (ex_q t j)) /\ date_usable (Some "day"%string) ex_frame ["A"; "B"]%string /\
  servable ex_frame None (Some "day"%string) "log" "ffill" /\ growth Simple (ex_q 0 0) (ex_q 1 0) = 1.
Proof.
  split; [|split; [|split]].
  - split; [reflexivity|]. split.
    + cbn. repeat constructor; cbn; intros H; repeat (destruct H as [H|H]; [discriminate|]); exact H.
    + split; [discriminate|]. split.
      * intros [|[|j]] n E; cbn in E; inversion E; subst.
        -- eexists. split; [right; right; right; left; reflexivity|]. repeat split; reflexivity.
        -- eexists. split; [right; left; reflexivity|]. repeat split; reflexivity.
        -- destruct j; discriminate.
      * intros t j x E. inversion E. unfold ex_q. destruct j as [|[|[|j]]]; cbn; destruct t as [|[|[|[|t]]]]; cbn; lra.
  - right. right. split; [intros [H|[H|[]]]; discriminate|]. eexists. split; [left; reflexivity|]. split; reflexivity.
  - split; [|split; [|split; [exists Log|exists Ffill]; reflexivity]].
    + right. right. eexists. split; reflexivity.
    + split; [discriminate|]. exists (mkCol "A" true true [Fin 1; Fin 2; Fin 4]). split; [cbn; auto|reflexivity].
  - unfold ex_q; cbn; lra.
Qed.

(** C100: gaps.  [period_return] is known when both prices are; each way of filling does what its name
    says to the *returns*. *)
Theorem data_gaps : forall f names T p date k fk, holds_prices f names T p -> date_usable date f names ->
  exists M, returns_of_frame (DFrame f) (Some names) date (calc_name k) (fill_name fk) = Ok M /\
    filled fk (period_return k p) T (List.length names) M.
Proof. exact returns_ok. Qed.
Print Assumptions data_gaps.

(** Refuted: filling does not preserve the growth over the whole history.  After 100, a gap, 200, no
    filling method yields returns that compound to 200. *)
Definition gap_frame : frame := mkFrame None 3 [mkCol "A" true true [Fin 100; NaN; Fin 200]].
Theorem data_gap_growth_refuted : forall fk, exists M, returns_of_frame (DFrame gap_frame) None None "simple" (fill_name fk) = Ok M /\
  fold_left (fun w r => w * (1 + val (nth 0 r NaN))) M 100 = 100.
Proof.
  intros fk. destruct fk; eexists; (split; [reflexivity|]); cbn; try lra.
Qed.
Print Assumptions data_gap_growth_refuted.

(** Refuted: finite prices give finite returns.  A zero price gives an infinite return. *)
Theorem data_finite_refuted :
  returns_of_frame (DFrame (mkFrame None 3 [mkCol "A" true true [Fin 1; Fin 0; Fin 2]])) None None "log" "ffill" = Ok [[NInf]; [PInf]].
Proof.
  cbn. unfold calc_log, cell; cbn. unfold Reqb, Rltb. destruct (Req_EM_T 1 0); [lra|]. destruct (Req_EM_T 0 0); [|lra]. destruct (Req_EM_T 2 0); [lra|].
  destruct (Rlt_dec 0 2); [|lra]. cbn. unfold Rltb, Reqb. destruct (Rlt_dec (0 / 1) 0); [lra|]. destruct (Req_EM_T (0 / 1) 0); [|lra]. reflexivity.
Qed.
Print Assumptions data_finite_refuted.

(** Refuted: prices that cannot have a log return are rejected.  A change of sign becomes a return of 0. *)
Theorem data_negative_price_refuted :
  returns_of_frame (DFrame (mkFrame None 2 [mkCol "A" true true [Fin 1; Fin (-2)]])) None None "log" "ffill" = Ok [[Fin 0]].
Proof.
  cbn. unfold calc_log, cell; cbn. unfold Reqb. destruct (Req_EM_T 1 0); [lra|]. cbn. unfold Rltb. destruct (Rlt_dec (-2 / 1) 0); [|lra]. reflexivity.
Qed.
Print Assumptions data_negative_price_refuted.

(** C101: weights become a series. *)
Theorem weights_series_iff : forall w names,
  ((exists s, weights_series w names = Ok s) <->
   exists n cells strs, w = WArray [n] cells /\ names = NList (map Some strs) /\ List.length strs = n) /\
  (forall e, weights_series w names = Err e -> e = ValueError).
Proof.
  intros w names.
  assert (MO : forall l strs, mapM (fun x => match x with Some s => Ok s | None => Err ValueError end) l = Ok strs -> l = map (@Some string) strs).
  { induction l as [|[x|] l IH]; intros strs E; cbn in E; [inversion E; reflexivity| |discriminate].
    destruct (mapM _ l) as [m|] eqn:F; cbn in E; [|discriminate]. inversion E. cbn. f_equal. apply IH. reflexivity. }
  assert (MO' : forall strs, mapM (fun x => match x with Some s => Ok s | None => Err ValueError end) (map (@Some string) strs) = Ok strs).
  { induction strs as [|x strs IH]; [reflexivity|]. cbn. rewrite IH. reflexivity. }
  assert (ME : forall l e, mapM (fun x : option string => match x with Some s => Ok s | None => Err ValueError end) l = Err e -> e = ValueError).
  { induction l as [|[x|] l IH]; intros e E; cbn in E; [discriminate| |inversion E; reflexivity].
    destruct (mapM _ l) as [m|] eqn:F; cbn in E; [discriminate|]. apply IH. congruence. }
  split; [split|].
  - intros (s & E). destruct w as [[|n [|]] cells|]; try discriminate. destruct names as [l|]; [|discriminate]. cbn [weights_series] in E.
    destruct (mapM _ l) as [strs|] eqn:F; [|discriminate]. cbn [bind] in E. destruct (Nat.eqb_spec n (List.length strs)) as [EN|]; [|discriminate].
    exists n, cells, strs. split; [reflexivity|]. split; [f_equal; apply MO; exact F|auto].
  - intros (n & cells & strs & -> & -> & <-). cbn [weights_series]. rewrite MO'. cbn [bind]. rewrite Nat.eqb_refl. eauto.
  - intros e E. destruct w as [[|n [|]] cells|]; try (inversion E; reflexivity). destruct names as [l|]; [|inversion E; reflexivity]. cbn [weights_series] in E.
    destruct (mapM _ l) as [strs|] eqn:F; cbn [bind] in E; [|apply (ME l); congruence].
    destruct (Nat.eqb _ _); inversion E; reflexivity.
Qed.
Print Assumptions weights_series_iff.

Theorem weights_series_values : forall n cells strs s, List.length cells = n ->
  weights_series (WArray [n] cells) (NList (map Some strs)) = Ok s ->
  map fst s = strs /\ map snd s = cells.
Proof.
  intros n cells strs s EC E. cbn [weights_series] in E.
  assert (MO' : mapM (fun x => match x with Some s => Ok s | None => Err ValueError end) (map (@Some string) strs) = Ok strs).
  { clear. induction strs as [|x strs IH]; [reflexivity|]. cbn. rewrite IH. reflexivity. }
  rewrite MO' in E. cbn [bind] in E. destruct (Nat.eqb_spec n (List.length strs)) as [EN|]; [|discriminate].
  assert (X : combine strs cells = s) by (inversion E; reflexivity). subst s. clear E MO'. rewrite EN in EC. clear EN.
  revert cells EC. induction strs as [|x strs IH]; intros [|c cells] EC; cbn in *; try discriminate; [auto|].
  destruct (IH cells ltac:(lia)) as (A & B). rewrite A, B. auto.
Qed.
Print Assumptions weights_series_values.

Example weights_series_case : weights_series (WArray [2%nat] [Fin (1/4); Fin (3/4)]) (NList [Some "A"; Some "B"]%string) = Ok [("A", Fin (1/4)); ("B", Fin (3/4))]%string /\
  weights_series (WArray [2%nat; 1%nat] [Fin 1; Fin 1]) (NList [Some "A"; Some "B"]%string) = Err ValueError.
Proof. split; reflexivity. Qed.
