(** C08, C09, C10: VaR and CVaR. *)
From Verif Require Import RBase SortLib RiskModel RiskSpec RiskProofs.
From Coq Require Import Permutation.
Open Scope R_scope.

(** A sorting function exists, so "[argsort] sorts" is a satisfiable hypothesis. *)
Definition sorter : list R -> list nat := argsort_by Rleb 0.
Example sorter_sorts : sorts Rle 0 sorter.
Proof.
  intros l. unfold sorter, argsort_by. apply isort_argsort.
  - intros a b. destruct (Rleb_spec a b); [auto|discriminate].
  - intros a b. destruct (Rleb_spec a b); [discriminate|intros; lra].
  - intros; lra.
Qed.

(** C08.  Every entry returned by [portfolio_var] is minus the (1-confidence)-quantile of that
    portfolio's scenario P&L, whichever permutation argsort picks among ties. *)
Theorem var_is_loss_quantile : forall argsort W Rm p conf dm out,
  sorts Rle 0 argsort -> p_ok p (length Rm) ->
  portfolio_var argsort W Rm p conf dm = Ok out ->
  Forall2 (fun w v => is_quantile (eff_p (length Rm) p)
      (risk_pnl dm (eff_p (length Rm) p) Rm w) (1 - eff_conf conf) (- v)) W out.
Proof. exact var_api_l. Qed.
Print Assumptions var_is_loss_quantile.

(** C08.  The quantile is unique, so that pins the result down. *)
Theorem loss_quantile_unique : forall p x alpha q q',
  prob_vector p (length x) -> is_quantile p x alpha q -> is_quantile p x alpha q' -> q = q'.
Proof. intros p x alpha q q' (_ & H & _). exact (quantile_unique p x alpha q q' H). Qed.
Print Assumptions loss_quantile_unique.

(** C08.  A call succeeds on well-formed input ... *)
Theorem var_cvar_accept : forall argsort W Rm p conf dm,
  0 < eff_conf conf < 1 -> dm <> DOther -> Rm <> [] -> p_ok p (length Rm) ->
  (forall row w, In row Rm -> In w W -> length row = length w) ->
  (exists out, portfolio_var argsort W Rm p conf dm = Ok out /\ length out = length W) /\
  (exists out, portfolio_cvar argsort W Rm p conf dm = Ok out /\ length out = length W).
Proof. intros. split; apply risk_accepts; auto. Qed.
Print Assumptions var_cvar_accept.

(** C08.  ... and fails on an out-of-range confidence (ValueError), a non-boolean demean flag or
    an empty scenario set. *)
Theorem var_cvar_reject : forall argsort W Rm p conf dm,
  (~ (0 < eff_conf conf < 1) ->
     portfolio_var argsort W Rm p conf dm = Err ValueError /\
     portfolio_cvar argsort W Rm p conf dm = Err ValueError) /\
  (dm = DOther \/ Rm = [] ->
     (exists e, portfolio_var argsort W Rm p conf dm = Err e) /\
     (exists e, portfolio_cvar argsort W Rm p conf dm = Err e)).
Proof.
  intros. split; intros H.
  - split; apply risk_conf_error; exact H.
  - split; apply risk_rejects; auto.
Qed.
Print Assumptions var_cvar_reject.

(** C09.  Every entry returned by [portfolio_cvar] is the minimum over [c] of
    [c + E[(loss - c)^+]/(1-confidence)]. *)
Theorem cvar_is_rockafellar_uryasev : forall argsort W Rm p conf dm out,
  sorts Rle 0 argsort -> p_ok p (length Rm) ->
  portfolio_cvar argsort W Rm p conf dm = Ok out ->
  Forall2 (fun w v => is_cvar (eff_p (length Rm) p)
      (risk_pnl dm (eff_p (length Rm) p) Rm w) (1 - eff_conf conf) v) W out.
Proof. exact cvar_api_l. Qed.
Print Assumptions cvar_is_rockafellar_uryasev.

(** C09.  CVaR is at least VaR, at least the expected loss, and at most the worst scenario loss. *)
Theorem cvar_between_var_and_worst : forall argsort w Rm p conf dm a b,
  sorts Rle 0 argsort -> p_ok p (length Rm) ->
  portfolio_var argsort [w] Rm p conf dm = Ok [a] ->
  portfolio_cvar argsort [w] Rm p conf dm = Ok [b] ->
  let q := eff_p (length Rm) p in let x := risk_pnl dm q Rm w in
  a <= b /\ - expect q x (fun y => y) <= b /\ exists y, In y x /\ b <= - y.
Proof. exact cvar_bounds_api. Qed.
Print Assumptions cvar_between_var_and_worst.

(** C09.  Subadditivity: combining two books never increases CVaR beyond the sum. *)
Theorem cvar_subadditive : forall argsort u w Rm p conf dm a b c,
  sorts Rle 0 argsort -> p_ok p (length Rm) -> length u = length w ->
  portfolio_cvar argsort [u] Rm p conf dm = Ok [a] ->
  portfolio_cvar argsort [w] Rm p conf dm = Ok [b] ->
  portfolio_cvar argsort [map2 Rplus u w] Rm p conf dm = Ok [c] -> c <= a + b.
Proof. exact subadditive_api. Qed.
Print Assumptions cvar_subadditive.

(** C09.  Monotonicity: a portfolio that does at least as well in every scenario has no larger CVaR. *)
Theorem cvar_monotone : forall argsort w w' Rm Rm' p conf v v',
  sorts Rle 0 argsort -> p_ok p (length Rm) -> length Rm' = length Rm ->
  (forall t, (t < length Rm)%nat -> nth t (scenario_pnl Rm w) 0 <= nth t (scenario_pnl Rm' w') 0) ->
  portfolio_cvar argsort [w] Rm p conf DNone = Ok [v] ->
  portfolio_cvar argsort [w'] Rm' p conf DNone = Ok [v'] -> v' <= v.
Proof. exact monotone_api. Qed.
Print Assumptions cvar_monotone.

(** C10.  The order in which scenarios (with their probabilities) are listed does not matter,
    nor does the tie-breaking of argsort. *)
Theorem var_cvar_scenario_order : forall argsort argsort' W Rm Rm' p p' conf dm out out',
  sorts Rle 0 argsort -> sorts Rle 0 argsort' ->
  p_ok p (length Rm) -> p_ok p' (length Rm') ->
  Permutation (combine (eff_p (length Rm) p) Rm) (combine (eff_p (length Rm') p') Rm') ->
  (portfolio_var argsort W Rm p conf dm = Ok out ->
   portfolio_var argsort' W Rm' p' conf dm = Ok out' -> out = out') /\
  (portfolio_cvar argsort W Rm p conf dm = Ok out ->
   portfolio_cvar argsort' W Rm' p' conf dm = Ok out' -> out = out').
Proof. exact scenario_order_l. Qed.
Print Assumptions var_cvar_scenario_order.

(** C10.  Positive homogeneity in the weights. *)
Theorem var_cvar_homogeneous : forall argsort w Rm p conf dm k v v',
  sorts Rle 0 argsort -> p_ok p (length Rm) -> 0 < k ->
  (portfolio_var argsort [w] Rm p conf dm = Ok [v] ->
   portfolio_var argsort [map (Rmult k) w] Rm p conf dm = Ok [v'] -> v' = k * v) /\
  (portfolio_cvar argsort [w] Rm p conf dm = Ok [v] ->
   portfolio_cvar argsort [map (Rmult k) w] Rm p conf dm = Ok [v'] -> v' = k * v).
Proof. exact homogeneous_l. Qed.
Print Assumptions var_cvar_homogeneous.

(** C10.  A sure gain of [k] lowers both by exactly [k]. *)
Theorem var_cvar_translate : forall argsort w w' Rm Rm' p conf k v v',
  sorts Rle 0 argsort -> p_ok p (length Rm) -> length Rm' = length Rm ->
  (forall t, (t < length Rm)%nat -> nth t (scenario_pnl Rm' w') 0 = nth t (scenario_pnl Rm w) 0 + k) ->
  (portfolio_var argsort [w] Rm p conf DNone = Ok [v] ->
   portfolio_var argsort [w'] Rm' p conf DNone = Ok [v'] -> v' = v - k) /\
  (portfolio_cvar argsort [w] Rm p conf DNone = Ok [v] ->
   portfolio_cvar argsort [w'] Rm' p conf DNone = Ok [v'] -> v' = v - k).
Proof. exact translate_l. Qed.
Print Assumptions var_cvar_translate.

(** Non-vacuity: two assets, three scenarios, one tie, two portfolios. *)
Example risk_call : exists out out',
  portfolio_var sorter [[1;0];[1/2;1/2]] [[1;2];[1;-1];[-3;0]] (Some [1/4;1/4;1/2]) (Some (9/10)) DNone = Ok out /\
  portfolio_cvar sorter [[1;0];[1/2;1/2]] [[1;2];[1;-1];[-3;0]] (Some [1/4;1/4;1/2]) (Some (9/10)) (DBool true) = Ok out' /\
  p_ok (Some [1/4;1/4;1/2]) 3 /\ length out = 2%nat.
Proof.
  assert (Hp : p_ok (Some [1/4;1/4;1/2]) 3).
  { split; [reflexivity|]. split; [|unfold rsum; simpl; lra]. simpl. intros q H.
    intuition (subst; lra). }
  assert (Hrow : forall row w, In row [[1;2];[1;-1];[-3;0]] -> In w [[1;0];[1/2;1/2]] -> length row = length w).
  { intros row w Hr Hw. simpl in Hr, Hw. intuition (subst; reflexivity). }
  destruct (proj1 (var_cvar_accept sorter [[1;0];[1/2;1/2]] [[1;2];[1;-1];[-3;0]] (Some [1/4;1/4;1/2]) (Some (9/10)) DNone
     ltac:(simpl; lra) ltac:(discriminate) ltac:(discriminate) Hp Hrow)) as (o & E & L).
  destruct (proj2 (var_cvar_accept sorter [[1;0];[1/2;1/2]] [[1;2];[1;-1];[-3;0]] (Some [1/4;1/4;1/2]) (Some (9/10)) (DBool true)
     ltac:(simpl; lra) ltac:(discriminate) ltac:(discriminate) Hp Hrow)) as (o' & E' & L').
  exists o, o'. auto.
Qed.

(** C08, finding: [p] is not validated; "probabilities" that do not even reach the tail level
    are accepted, and the reported VaR is then the worst loss. *)
Theorem var_rejects_bad_probabilities_refuted :
  ~ (forall argsort W Rm p conf dm out, sorts Rle 0 argsort ->
       portfolio_var argsort W Rm (Some p) conf dm = Ok out -> prob_vector p (length Rm)).
Proof.
  intros H.
  assert (E : portfolio_var sorter [[1]] [[1];[2]] (Some [1/100;1/100]) (Some (1/2)) DNone =
     Ok [- var_pnl sorter (1 - 1/2) (pnl [[1];[2]] [1]) [1/100;1/100]]).
  { unfold portfolio_var, portfolio_risk. destruct (Rltb_spec 0 (1/2)); [|lra].
    destruct (Rltb_spec (1/2) 1); [|lra]. reflexivity. }
  apply (H sorter) in E; [|exact sorter_sorts]. destruct E as (_ & _ & E). unfold rsum in E; simpl in E. lra.
Qed.
Print Assumptions var_rejects_bad_probabilities_refuted.
