(** Portfolio specs: options left out, and selectors the caller supplies (properties C102, C103). *)
From Coq Require Import String Ascii.
From Verif Require Import RBase QpBase ConsModel DistModel OptModel EnsModel AsmModel FrModel WrModel SpecModel SpecSpec.
Open Scope R_scope.
Open Scope list_scope.

(** ** Options left out take the documented defaults of the wrapper's methods *)
Definition chosen {A} (o : option A) (documented : A) : A := match o with Some x => x | None => documented end.

(** 10 portfolios unless [num_portfolios] is given. *)
Theorem mean_variance_optimiser_calls : forall W d w s num costs cons,
  In (lower s) ["mean_variance"; "mv"]%string -> spec_wrapper d cons = Ok w ->
  frontier_factory W (Ok d) (OptName s) (mkOK num None None None None None None None None None None None costs cons)
  = variance_frontier (wd_env W) w (chosen num 10%Z) CNone costs.
Proof.
  intros W d w s num costs cons I E. unfold frontier_factory. cbn [bind o_cons]. rewrite E. cbn [bind]. unfold resolve_optimiser.
  destruct I as [<- | [<- | []]]; reflexivity.
Qed.

(** 10 portfolios at level 5%, convexified, drawing with the seed given, unless the options say otherwise. *)
Theorem cvar_optimiser_calls : forall W d w s num alpha seed enforce costs cons,
  In (lower s) ["mean-cvar"; "cvar"]%string -> spec_wrapper d cons = Ok w ->
  frontier_factory W (Ok d) (OptName s) (mkOK num alpha seed enforce None None None None None None None None costs cons)
  = cvar_frontier_w (wd_env W) (wd_sim W seed) (wd_lab W) (wd_raw W) w (chosen num 10%Z) (chosen alpha (1 / 20)) (chosen enforce true) CNone costs.
Proof.
  intros W d w s num alpha seed enforce costs cons I E. unfold frontier_factory. cbn [bind o_cons]. rewrite E. cbn [bind]. unfold resolve_optimiser.
  replace (1 / 20) with (5 / 100) by field.
  destruct I as [<- | [<- | []]]; reflexivity.
Qed.

(** 10 penalties up to 2 unless given. *)
Theorem robust_optimiser_calls : forall W d w s num max_lambda lambdas return_cov costs cons,
  lower s = "robust"%string -> spec_wrapper d cons = Ok w ->
  frontier_factory W (Ok d) (OptName s) (mkOK num None None None max_lambda lambdas return_cov None None None None None costs cons)
  = (let* r := robust_lambda_frontier (wd_env W) w (chosen num 10%Z) (chosen max_lambda 2) lambdas return_cov CNone costs in Ok (fst r)).
Proof.
  intros W d w s num ml ls rc costs cons I E. unfold frontier_factory. cbn [bind o_cons]. rewrite E. cbn [bind]. unfold resolve_optimiser.
  rewrite I. reflexivity.
Qed.

(** 10 multipliers up to 1.6 with regulator 0.2 and the risk parity anchor unless given. *)
Theorem risk_parity_optimiser_calls : forall W d w s num max_mult lam mults include rb costs cons,
  In (lower s) ["rrp"; "relaxed_risk_parity"]%string -> spec_wrapper d cons = Ok w ->
  frontier_factory W (Ok d) (OptName s) (mkOK num None None None None None None max_mult lam mults include rb costs cons)
  = (let* r := relaxed_risk_parity_frontier (wd_env W) w (chosen num 10%Z) (chosen max_mult (8 / 5)) (chosen lam (1 / 5)) mults (chosen include true) rb CNone costs in Ok (fst r)).
Proof.
  intros W d w s num mm lam mults inc rb costs cons I E. unfold frontier_factory. cbn [bind o_cons]. rewrite E. cbn [bind]. unfold resolve_optimiser.
  replace (8 / 5) with (16 / 10) by field. replace (1 / 5) with (2 / 10) by field.
  destruct I as [<- | [<- | []]]; reflexivity.
Qed.

(** ** Selectors supplied by the caller *)
(** A spec whose frontier is [f] and whose selector answers [r]. *)
Definition answering (name : string) (f : frontier_t) (r : sel_result) cols : pspec := mkPS name (Ok f) (fun _ => Ok r) cols.

(** Of a tuple only the first entry counts; an empty tuple is an IndexError. *)
Theorem tuple_selection_first : forall rng name f cols,
  (forall o rest, run_spec rng (answering name f (Tup (o :: rest)) cols) = run_spec rng (answering name f (Plain o) cols)) /\
  run_spec rng (answering name f (Tup []) cols) = Err IndexError.
Proof. intros. split; reflexivity. Qed.

(** A Series is taken as it is, whatever its labels. *)
Theorem series_selection_kept : forall rng name f l cols,
  exists r, run_spec rng (answering name f (Plain (OSeries l)) cols) = Ok r /\ sp_selected (snd r) = l.
Proof. intros. eexists. split; reflexivity. Qed.

(** Auxiliary: splitting a zipped list. *)
Lemma labels_back : forall (l : list string) (w : list R), List.length l = List.length w -> map fst (combine l w) = l.
Proof. induction l as [|a l IH]; intros [|x w] E; try discriminate; [reflexivity|]. cbn [combine map fst]. f_equal. apply IH. injection E. auto. Qed.
Lemma values_back : forall (l : list string) (w : list R), List.length l = List.length w -> map snd (combine l w) = w.
Proof. induction l as [|a l IH]; intros [|x w] E; try discriminate; [reflexivity|]. cbn [combine map snd]. f_equal. apply IH. injection E. auto. Qed.

(** An array is labelled by position with the frontier's asset names, and refused unless it has one entry per name. *)
Theorem array_selection_labelled : forall rng name f w names cols, f_names f = Some names -> names <> [] ->
  let run := run_spec rng (answering name f (Plain (OArr w)) cols) in
  ((exists r, run = Ok r) <-> List.length w = List.length names) /\
  (forall r, run = Ok r -> map fst (sp_selected (snd r)) = names /\ map snd (sp_selected (snd r)) = w) /\
  (forall e, run = Err e -> e = ValueError).
Proof.
  intros rng name f w names cols N H run. subst run. unfold run_spec, answering, coerce. cbn [ps_frontier ps_selector bind]. rewrite N.
  destruct names as [|n ns]; [congruence|].
  destruct (Nat.eqb (List.length (n :: ns)) (List.length w)) eqn:E; cbn [bind].
  - apply Nat.eqb_eq in E. split; [|split].
    + split; [intros _; congruence|intros _; eexists; reflexivity].
    + intros r X. injection X as <-. cbn [snd sp_selected]. split.
      * exact (labels_back (n :: ns) w E).
      * exact (values_back (n :: ns) w E).
    + intros e X. discriminate.
  - apply Nat.eqb_neq in E. split; [|split].
    + split; [intros [r X]; discriminate|congruence].
    + intros r X. discriminate.
    + intros e X. injection X as <-. reflexivity.
Qed.

(** Cases that meet the hypotheses. *)
Example defaults_case : In (lower "CVaR") ["mean-cvar"; "cvar"]%string /\ In (lower "RRP") ["rrp"; "relaxed_risk_parity"]%string /\
  lower "Robust" = "robust"%string /\ In (lower "MV") ["mean_variance"; "mv"]%string.
Proof. repeat split; cbn; auto. Qed.

Print Assumptions mean_variance_optimiser_calls.
Print Assumptions cvar_optimiser_calls.
Print Assumptions robust_optimiser_calls.
Print Assumptions risk_parity_optimiser_calls.
Print Assumptions tuple_selection_first.
Print Assumptions series_selection_kept.
Print Assumptions array_selection_labelled.
