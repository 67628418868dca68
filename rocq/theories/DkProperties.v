(** C176: method names and keyword arguments of [discretize_weights]. *)
From Coq Require Import String.
From Verif Require Import QBase SortLib ProbModel DiscModel DiscSpec DiscProofs DiscMilp DiscApi DiscCall DiscExit DiscProperties DkModel.
Open Scope Q_scope.
Open Scope list_scope.

(** Arguments that pass validation. *)
Definition valid_arguments weights prices total lots : Prop :=
  exists v, make_inputs (fin weights) (fin prices) (Fin total) lots = Ok v.

Lemma call_inputs weights prices total lots : NoDup (map fst weights) -> valid_arguments weights prices total lots ->
  exists inp, good_inputs inp /\ (in_shorts inp = true <-> exists k w, In (k, w) (kept weights) /\ w < 0) /\
    forall sort solver m kw, discretize_call sort solver weights prices total m lots kw =
      if existsb (String.eqb (lowered m)) ["greedy"; "rounddown"]%string then greedy_call sort solver kw inp
      else if existsb (String.eqb (lowered m)) ["milp"; "mip"; "integer"; "lp"]%string then Some (mip_call solver kw inp)
      else Some (Err ValueError).
Proof.
  intros HN [v Ev]. destruct (validated weights prices total lots v HN Ev) as (inp & t & Ef & HG & _ & _ & _ & _ & Hs).
  exists inp. split; [exact HG|]. split; [exact Hs|]. intros. unfold discretize_call. unfold fin in Ev. rewrite Ev, Ef. reflexivity.
Qed.

Definition bad_names (names : list string) (kw : dkw) : Prop := exists k v, In (k, v) kw /\ ~ In k names.
Lemma accepts_false names kw : bad_names names kw -> accepts names kw = false.
Proof.
  intros (k & v & H1 & H2). destruct (accepts names kw) eqn:E; [|reflexivity]. exfalso. unfold accepts in E. rewrite forallb_forall in E.
  specialize (E _ H1). apply existsb_exists in E as (x & Hx & E). apply String.eqb_eq in E. cbn in E. subst x. auto.
Qed.

(** The method is matched without regard to case; "greedy" and "rounddown" are one method, "milp", "mip",
    "integer" and "lp" another, and no other name is accepted. *)
Theorem discrete_method_names : forall sort solver weights prices total lots kw,
  NoDup (map fst weights) -> valid_arguments weights prices total lots ->
  let call m := discretize_call sort solver weights prices total m lots kw in
  (forall m m', lowered m = lowered m' -> call m = call m') /\
  call "rounddown"%string = call "greedy"%string /\
  (forall m, In m ["mip"; "integer"; "lp"]%string -> call m = call "milp"%string) /\
  (forall m, ~ In (lowered m) ["greedy"; "rounddown"; "milp"; "mip"; "integer"; "lp"]%string -> call m = Some (Err ValueError)).
Proof.
  intros sort solver weights prices total lots kw HN HV call. destruct (call_inputs _ _ _ _ HN HV) as (inp & _ & _ & HC).
  unfold call. split; [intros m m' E; rewrite !HC, E; reflexivity|]. split; [rewrite !HC; reflexivity|].
  split; [intros m Hm; rewrite !HC; destruct Hm as [<-|[<-|[<-|[]]]]; reflexivity|].
  intros m Hm. rewrite HC.
  assert (HX : forall l, (forall x, In x l -> In x ["greedy"; "rounddown"; "milp"; "mip"; "integer"; "lp"]%string) -> existsb (String.eqb (lowered m)) l = false).
  { intros l Hl. destruct (existsb _ l) eqn:E; [|reflexivity]. apply existsb_exists in E as (x & Hx & E). apply String.eqb_eq in E. subst x. exfalso. auto. }
  rewrite !HX; [reflexivity| |]; intros x Hx; cbn in Hx |- *; tauto.
Qed.
Print Assumptions discrete_method_names.

(** Invalid data is a ValueError whatever the method and its options. *)
Theorem discrete_invalid_data_raises : forall sort solver weights prices total lots kw m,
  ~ valid_arguments weights prices total lots ->
  discretize_call sort solver weights prices total m lots kw = Some (Err ValueError).
Proof.
  intros sort solver weights prices total lots kw m H. unfold discretize_call. fold (fin weights) (fin prices).
  destruct (make_inputs (fin weights) (fin prices) (Fin total) lots) as [v|e] eqn:E; [exfalso; apply H; exists v; exact E|].
  f_equal. f_equal. revert E. unfold make_inputs. cbv zeta.
  repeat match goal with |- (if ?b then _ else _) = _ -> _ => destruct b; [intros E; injection E; auto|] end.
  destruct (pd_sum _); try (intros E; injection E; auto; fail). destruct (Qle_bool q 0); [intros E; injection E; auto|discriminate].
Qed.
Print Assumptions discrete_invalid_data_raises.

(** Each method takes its own options and no others: [max_iterations], [fallback_mode] and [fallback_kwargs] for the
    greedy one, [cash_penalty], [max_cash] and [solver_options] for the MILP; anything else raises. *)
Theorem discrete_unknown_option_raises : forall sort solver weights prices total lots kw,
  NoDup (map fst weights) -> valid_arguments weights prices total lots ->
  (bad_names ["max_iterations"; "fallback_mode"; "fallback_kwargs"]%string kw ->
     discretize_call sort solver weights prices total "greedy" lots kw = Some (Err TypeError)) /\
  (bad_names ["cash_penalty"; "max_cash"; "solver_options"]%string kw ->
     discretize_call sort solver weights prices total "milp" lots kw = Some (Err TypeError)).
Proof.
  intros sort solver weights prices total lots kw HN HV. destruct (call_inputs _ _ _ _ HN HV) as (inp & _ & _ & HC).
  split; intros HB; rewrite HC; cbn [lowered small_letter existsb].
  - change (Some (mip_call solver kw inp)) with (Some (mip_call solver kw inp)). cbn. unfold greedy_call, greedy_names. rewrite (accepts_false _ _ HB). reflexivity.
  - cbn. unfold mip_call, mip_names. rewrite (accepts_false _ _ HB). reflexivity.
Qed.
Print Assumptions discrete_unknown_option_raises.

(** ["milp"] with the options given, or with the defaults (penalty 1, no cash cap). *)
Theorem discrete_milp_options : forall sort solver weights prices total lots pen mc opts,
  NoDup (map fst weights) -> valid_arguments weights prices total lots ->
  let as_before := discretize_weights sort (solver opts) weights prices total "milp" lots None None in
  discretize_call sort solver weights prices total "milp" lots
    [("cash_penalty", DNum pen); ("max_cash", match mc with Some q => DNum q | None => DNone end); ("solver_options", DDict opts)]%string = as_before pen mc /\
  (opts = [] -> discretize_call sort solver weights prices total "milp" lots [] = as_before 1 None).
Proof.
  intros sort solver weights prices total lots pen mc opts HN [v Ev] as_before. unfold as_before, discretize_call, discretize_weights.
  unfold fin in Ev. cbv zeta. rewrite Ev. destruct (finite_inputs v) as [inp|]; [|split; reflexivity].
  split; [|intros ->; reflexivity]. destruct mc; reflexivity.
Qed.
Print Assumptions discrete_milp_options.

(** The fallback options reach the MILP unchanged: with a short position the greedy method is the MILP run with
    them; without, asking for the "milp" fallback gives either the greedy result, whatever those options, or again
    exactly the MILP run with them. *)
Theorem discrete_fallback_options_forwarded : forall sort solver weights prices total lots opts mode its,
  NoDup (map fst weights) -> valid_arguments weights prices total lots -> sorts_desc sort ->
  let milp_run := discretize_call sort solver weights prices total "milp" lots opts in
  let greedy_run o md := discretize_call sort solver weights prices total "greedy" lots
    [("max_iterations", match its with Some z => DInt z | None => DNone end); ("fallback_mode", DStr md); ("fallback_kwargs", DDict o)]%string in
  ((exists k w, In (k, w) (kept weights) /\ w < 0) -> In (lowered mode) ["auto"; "milp"; "none"]%string ->
     greedy_run opts mode = milp_run) /\
  (~ (exists k w, In (k, w) (kept weights) /\ w < 0) ->
     (forall o o', greedy_run o "milp"%string = greedy_run o' "none"%string) \/
     greedy_run opts "milp"%string = milp_run).
Proof.
  intros sort solver weights prices total lots opts mode its HN HV Hsort milp_run greedy_run.
  destruct (call_inputs _ _ _ _ HN HV) as (inp & HG & Hs & HC).
  assert (HM : milp_run = Some (mip_call solver opts inp)) by (unfold milp_run; rewrite HC; reflexivity).
  assert (HR : forall o md, greedy_run o md = allocate_greedy sort (mip_call solver o) inp its (Some (lowered md))).
  { intros o md. unfold greedy_run. rewrite HC. cbn. destruct its; reflexivity. }
  rewrite HM. split.
  - intros H Hmode. rewrite HR. apply Hs in H. unfold allocate_greedy. rewrite H.
    destruct Hmode as [<-|[<-|[<-|[]]]]; reflexivity.
  - intros H. assert (Hf : in_shorts inp = false) by (destruct (in_shorts inp); [exfalso; apply H, Hs; reflexivity|reflexivity]).
    unfold allocate_greedy in HR. rewrite Hf in HR. cbv zeta in HR.
    assert (HP : parse_mode (Some (lowered "milp"%string)) = Ok MMilp /\ parse_mode (Some (lowered "none"%string)) = Ok MNone) by (split; reflexivity).
    destruct HP as [P1 P2].
    destruct (greedy_loop (in_total inp) (sort (in_assets inp)) its) as [s|] eqn:EL.
    + destruct (should_try_fallback (in_total inp) (min_cost_of (sort (in_assets inp)))
         match its with Some k => k | None => default_iterations (List.length (sort (in_assets inp))) end s) eqn:ES.
      * right. rewrite HR, P1. destruct (mip_call solver opts inp); reflexivity.
      * left. intros o o'. rewrite !HR, P1, P2. reflexivity.
    + left. intros o o'. rewrite !HR, P1, P2. reflexivity.
Qed.
Print Assumptions discrete_fallback_options_forwarded.

(** Under "auto" a misspelled or ill-typed fallback option goes unnoticed: the TypeError is taken for a failed
    MILP and the greedy result is returned, where "milp" raises it (finding F103). *)
Theorem fallback_option_errors_reported_refuted :
  (forall sort solver weights prices total lots its o,
    NoDup (map fst weights) -> valid_arguments weights prices total lots -> sorts_desc sort ->
    ~ (exists k w, In (k, w) (kept weights) /\ w < 0) -> bad_names ["cash_penalty"; "max_cash"; "solver_options"]%string o ->
    let run md := discretize_call sort solver weights prices total "greedy" lots
      [("max_iterations", DInt its); ("fallback_mode", DStr md); ("fallback_kwargs", DDict o)]%string in
    run "auto"%string = run "none"%string) /\
  let run md := discretize_call desc_sort (fun _ _ => None) ex_w ex_p 100 "greedy" (Some [("b", 2%Z)]%string)
      [("max_iterations", DInt 0); ("fallback_mode", DStr md); ("fallback_kwargs", DDict [("cash_penality", DNum 5)])]%string in
  (exists r, run "auto"%string = Some (Ok r)) /\ run "milp"%string = Some (Err TypeError).
Proof.
  split.
  - intros sort solver weights prices total lots its o HN HV Hsort H HB run. destruct (call_inputs _ _ _ _ HN HV) as (inp & HG & Hs & HC).
    assert (Hf : in_shorts inp = false) by (destruct (in_shorts inp); [exfalso; apply H, Hs; reflexivity|reflexivity]).
    assert (HR : forall md, run md = allocate_greedy sort (mip_call solver o) inp (Some its) (Some (lowered md))) by (intros md; unfold run; rewrite HC; reflexivity).
    rewrite !HR. destruct (greedy_modes inp sort (mip_call solver o) (Some its) HG Hf Hsort) as (r0 & Hn & Hd).
    change (lowered "auto"%string) with "auto"%string. change (lowered "none"%string) with "none"%string.
    rewrite (Hn (Some "none"%string)) by (right; left; reflexivity).
    destruct Hd as [[-> _]|[_ ->]]; [reflexivity|]. unfold mip_call, mip_names. rewrite (accepts_false _ _ HB). reflexivity.
  - cbv zeta. split; [eexists; vm_compute; reflexivity|vm_compute; reflexivity].
Qed.
Print Assumptions fallback_option_errors_reported_refuted.

(** A call that returns accounts for every share and all the cash, whatever options it was given. *)
Lemma mip_call_ok solver kw inp r : mip_call solver kw inp = Ok r -> exists pen mc opts, allocate_mip (solver opts) pen mc inp = Ok r.
Proof.
  unfold mip_call. destruct (accepts mip_names kw); [|discriminate]. cbn [negb].
  intros H. apply bind_ok in H as (pen & _ & H). apply bind_ok in H as (mc & _ & H). apply bind_ok in H as (opts & _ & H). eauto.
Qed.
Lemma greedy_mip_swap sort mip mip' inp mi fm r : (forall r', mip inp = Ok r' -> mip' inp = Ok r') ->
  (forall e, mip inp = Err e -> exists e', mip' inp = Err e') ->
  allocate_greedy sort mip inp mi fm = Some (Ok r) -> allocate_greedy sort mip' inp mi fm = Some (Ok r).
Proof.
  intros H1 H2. unfold allocate_greedy. destruct (parse_mode fm) as [m|e]; [|discriminate].
  destruct (in_shorts inp); [intros E; injection E as E; rewrite (H1 _ E); reflexivity|].
  destruct (greedy_loop _ _ _) as [s|]; [|discriminate]. cbv zeta.
  destruct (match m with MNone => false | _ => _ end); [|auto].
  destruct (mip inp) as [r'|e] eqn:E.
  - rewrite (H1 r' eq_refl). auto.
  - destruct (H2 e eq_refl) as [e' ->]. destruct m; auto. discriminate.
Qed.
Theorem discrete_keyword_call_accounting : forall sort solver weights prices total lots kw m r,
  NoDup (map fst weights) -> sorts_desc sort -> (forall opts, solver_shape (solver opts)) ->
  discretize_call sort solver weights prices total m lots kw = Some (Ok r) ->
  0 < total /\ leftover_ok prices total r /\ proper_shares weights lots r /\
  qsum (map snd (r_achieved r)) == spent prices r / total.
Proof.
  intros sort solver weights prices total lots kw m r HN Hsort Hsol H.
  assert (HX : exists opts pen mc mi fm m' , exists s, (s = solver opts \/ s = fun _ => None) /\ discretize_weights sort s weights prices total m' lots mi fm pen mc = Some (Ok r)).
  { revert H. unfold discretize_call, discretize_weights. cbv zeta. destruct (make_inputs _ _ _ _) as [v|e]; [|discriminate].
    destruct (finite_inputs v) as [inp|]; [|discriminate].
    destruct (existsb _ ["greedy"; "rounddown"]%string).
    - unfold greedy_call. destruct (accepts greedy_names kw); [|discriminate]. cbn [negb].
      destruct (match lookup "max_iterations" kw with None | Some DNone => Ok None | Some (DInt z) => Ok (Some z) | _ => Err TypeError end) as [mi|e1]; [|discriminate].
      destruct (match lookup "fallback_mode" kw with None => Ok (Some "auto"%string) | Some DNone => Ok None | Some (DStr s) => Ok (Some (lowered s)) | _ => Err TypeError end) as [fm|e2]; [|discriminate].
      set (mip := fun i : inputs => let* o := dict_of (lookup "fallback_kwargs" kw) in mip_call solver o i). intros H.
      destruct (mip inp) as [r'|e] eqn:E.
      + pose proof E as E'. unfold mip in E'. apply bind_ok in E' as (o & _ & E'). destruct (mip_call_ok _ _ _ _ E') as (pen & mc & opts & Er).
        exists opts, pen, mc, mi, fm, "greedy"%string, (solver opts). split; [left; reflexivity|]. cbn [String.eqb Ascii.eqb Bool.eqb orb].
        eapply greedy_mip_swap; [| |exact H]; [intros r2 E2; rewrite E in E2; injection E2 as <-; exact Er|intros e2 E2; rewrite E in E2; discriminate].
      + exists [], 1, None, mi, fm, "greedy"%string, (fun _ => None). split; [right; reflexivity|]. cbn [String.eqb Ascii.eqb Bool.eqb orb].
        eapply greedy_mip_swap; [| |exact H]; [intros r2 E2; rewrite E in E2; discriminate|].
        intros e2 _. unfold allocate_mip. destruct (Nat.eqb _ 0); eexists; reflexivity.
    - destruct (existsb _ _); [|discriminate]. intros H. injection H as H. destruct (mip_call_ok _ _ _ _ H) as (pen & mc & opts & Er).
      exists opts, pen, mc, None, None, "milp"%string, (solver opts). split; [left; reflexivity|]. cbn [String.eqb Ascii.eqb Bool.eqb orb]. rewrite Er. reflexivity. }
  destruct HX as (opts & pen & mc & mi & fm & m' & s & Hs & H').
  assert (Hs' : solver_shape s) by (destruct Hs as [->| ->]; [apply Hsol|intros P x E; discriminate]).
  destruct (discrete_call_accounting weights prices total lots sort s m' mi fm pen mc r HN Hsort Hs' H') as (A1 & A2 & A3 & _ & _ & A4). auto.
Qed.
Print Assumptions discrete_keyword_call_accounting.

(** The hypotheses are met: a long-only call, and one with a short position whose greedy run is the MILP's. *)
Example keyword_call_case :
  valid_arguments ex_w ex_p 100 (Some [("b", 2%Z)]%string) /\ NoDup (map fst ex_w) /\
  discretize_call desc_sort (fun _ _ => None) ex_w ex_p 100 "Greedy" (Some [("b", 2%Z)]%string) [] =
  discretize_call desc_sort (fun _ _ => None) ex_w ex_p 100 "ROUNDDOWN" (Some [("b", 2%Z)]%string) [] /\
  (exists r, discretize_call desc_sort (fun _ _ => None) ex_w ex_p 100 "Greedy" (Some [("b", 2%Z)]%string) [] = Some (Ok r)) /\
  discretize_call desc_sort (fun _ _ => None) ex_w ex_p 100 "nearest" (Some [("b", 2%Z)]%string) [] = Some (Err ValueError) /\
  discretize_call desc_sort (fun _ _ => None) ex_w ex_p 100 "greedy" (Some [("b", 2%Z)]%string) [("cash_penalty", DNum 5)]%string = Some (Err TypeError).
Proof.
  split; [eexists; vm_compute; reflexivity|]. split; [repeat constructor; simpl; intuition discriminate|].
  split; [reflexivity|]. split; [eexists; vm_compute; reflexivity|]. split; vm_compute; reflexivity.
Qed.
