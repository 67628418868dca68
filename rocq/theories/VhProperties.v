(** View helpers: [at_least], [at_most], [between], [above], [below] (views.py:26-76; property C175). *)
From Coq Require Import String.
From Verif Require Import RBase QpBase SortLib OptModel MomSpec BlModel EpModel EpSpec EpProofs EpProofs4 EpProofs5 FvSpec FvProofs FvProofs4 FvProofs7 FvProperties.
Open Scope R_scope.
Open Scope list_scope.

(** A number meets the target iff it is on the right side of the bound, the bound included; a crossed range is refused. *)
Theorem view_helpers_mean : forall x,
  (forall v, meets v (at_least x) <-> x <= v) /\ (forall v, meets v (at_most x) <-> v <= x) /\
  (forall lo hi s, between lo hi = Ok s -> forall v, meets v s <-> lo <= v <= hi) /\
  (forall lo hi, ((exists s, between lo hi = Ok s) <-> lo <= hi) /\ (hi < lo -> between lo hi = Err ValueError)).
Proof.
  intros x. split; [reflexivity|]. split; [reflexivity|]. split.
  - intros lo hi s E v. unfold between in E. apply guard_ok in E as [_ E]. injection E as <-. reflexivity.
  - intros lo hi. unfold between. destruct (Rleb_spec lo hi); cbn [guard].
    + split; [|intros; lra]. split; [auto|eauto].
    + split; [|reflexivity]. split; [intros (s & E); discriminate|intros; lra].
Qed.
Print Assumptions view_helpers_mean.

(** The same views with every strict bound replaced by the weak one. *)
Definition weakened (v : vspec) : vspec := match v with SOp Gt x => at_least x | SOp Lt x => at_most x | _ => v end.
Definition weak_views (d : list (vkey * vspec)) : list (vkey * vspec) := map (fun kv => (fst kv, weakened (snd kv))) d.
Definition weak_quantiles (d : list (vkey * option (R * vspec))) := map (fun kv : vkey * option (R * vspec) => (fst kv, option_map (fun lv => (fst lv, weakened (snd lv))) (snd kv))) d.

Lemma add_weak (g : rows * rows -> res (rows * rows)) acc row ok rhs v :
  (let* l := parse_specs (weakened v) in let* acc' := add_specs acc row ok rhs l in g acc') = (let* l := parse_specs v in let* acc' := add_specs acc row ok rhs l in g acc').
Proof. destruct v as [x|[] x|lo hi|]; reflexivity. Qed.
Lemma build_weak assets Rm mu va mt : forall d acc, build_constraints assets Rm mu va mt (weak_views d) acc = build_constraints assets Rm mu va mt d acc.
Proof.
  induction d as [|[k v] d IH]; intros acc; [reflexivity|]. cbn [weak_views map fst snd build_constraints]. destruct (view_row assets Rm mu va mt k) as [[[row ok] rhs]|e]; [|reflexivity]. cbn [bind].
  rewrite (add_weak (build_constraints assets Rm mu va mt (map (fun kv => (fst kv, weakened (snd kv))) d))).
  destruct (parse_specs v); [|reflexivity]. cbn [bind]. destruct (add_specs _ _ _ _ _); [|reflexivity]. cbn [bind]. apply IH.
Qed.
Lemma nonempty_weak d : nonempty (weak_views d) = nonempty d.
Proof. destruct d; reflexivity. Qed.
Lemma quantile_weak assets Rm : forall d acc, quantile_rows assets Rm (weak_quantiles d) acc = quantile_rows assets Rm d acc.
Proof.
  induction d as [|[k [[level v]|]] d IH]; intros acc; [reflexivity| |].
  - cbn [weak_quantiles map fst snd option_map quantile_rows]. destruct (key_idx assets k); [|reflexivity]. cbn [bind].
    rewrite (add_weak (quantile_rows assets Rm _)). destruct (parse_specs v); [|reflexivity]. cbn [bind].
    destruct (add_specs _ _ _ _ _); [|reflexivity]. cbn [bind]. apply IH.
  - cbn. destruct (key_idx assets k); reflexivity.
Qed.
Lemma posterior_weak minimize argsort assets T X p0 mean vol var skew corr cvar quant b :
  posterior minimize argsort assets T X p0 (weak_views mean) (weak_views vol) (weak_views var) (weak_views skew) (weak_views corr) cvar (weak_quantiles quant) b =
  posterior minimize argsort assets T X p0 mean vol var skew corr cvar quant b.
Proof.
  unfold posterior. replace (nonempty (weak_quantiles quant)) with (nonempty quant) by (destruct quant; reflexivity). rewrite quantile_weak.
  rewrite !nonempty_weak, build_weak.
  assert (E : forall bs mu va acc, all_blocks assets X (map (fun b => (fst b, weak_views (snd b))) bs) mu va acc = all_blocks assets X bs mu va acc).
  { induction bs as [|[mt d] bs IH]; intros mu va acc; [reflexivity|]. cbn [map fst snd all_blocks]. rewrite build_weak. destruct (build_constraints _ _ _ _ _ _ _); [|reflexivity]. cbn [bind]. apply IH. }
  assert (F : forall bs q mu va, sequential_blocks minimize assets T X (map (fun b => (fst b, weak_views (snd b))) bs) q mu va = sequential_blocks minimize assets T X bs q mu va).
  { induction bs as [|[mt d] bs IH]; intros q mu va; [reflexivity|]. cbn [map fst snd sequential_blocks]. rewrite nonempty_weak, build_weak. destruct (nonempty d); [|apply IH].
    destruct (build_constraints _ _ _ _ _ _ _) as [c|]; [|reflexivity]. cbn [bind]. destruct (do_ep _ _ _ _) as [q'|]; [|reflexivity]. cbn [bind]. apply IH. }
  pose proof (fun mu va acc => E [(MMean, mean); (MVol, vol); (MVar, var); (MSkew, skew); (MCorr, corr)] mu va acc) as E'.
  pose proof (fun q mu va => F [(MMean, mean); (MVol, vol); (MVar, var); (MSkew, skew); (MCorr, corr)] q mu va) as F'. cbn [map fst snd] in E', F'.
  destruct b; [rewrite F'; reflexivity|]. cbv zeta. 
  match goal with |- bind (bind ?a ?f) ?g = bind (bind ?a ?f') ?g => assert (H : forall x, f x = f' x); [|destruct a; [cbn [bind]; rewrite H; reflexivity|reflexivity]] end.
  intros [mu va]. rewrite E'. reflexivity.
Qed.

(** [above] and [below] (and the operators ">" and "<") are read as [at_least] and [at_most]: the posterior is the same. *)
Theorem strict_views_are_weak : forall minimize argsort chol normals pr mean vol var skew corr cvar quant b,
  let strict := flexible_views minimize argsort chol normals pr (dicts mean vol var skew corr cvar quant b) in
  let weak := flexible_views minimize argsort chol normals pr (dicts (weak_views mean) (weak_views vol) (weak_views var) (weak_views skew) (weak_views corr) cvar (weak_quantiles quant) b) in
  (forall e, strict = Err e <-> weak = Err e) /\
  forall r, strict = Ok r -> exists r', weak = Ok r' /\ f_q r' = f_q r /\ f_mean r' = f_mean r /\ f_cov r' = f_cov r.
Proof.
  intros minimize argsort chol normals pr mean vol var skew corr cvar quant b. cbv zeta. unfold flexible_views, dicts.
  destruct (fv_setup chol normals pr) as [[[[[[pa as_] T] N] X] p0]|e0]; cbn [bind]; [|split; [intros; reflexivity|discriminate]].
  destruct (negb (N =? 1)%nat); cbn [guard]; [|split; [intros; reflexivity|discriminate]].
  cbn [vs_mean vs_vol vs_var vs_skew vs_corr vs_cvar vs_quantile vs_rank vs_sequential to_dict bind apply_rank]. rewrite posterior_weak.
  destruct (posterior _ _ _ _ _ _ _ _ _ _ _ _ _ _) as [q|e1]; cbn [bind].
  - split; [intros e; split; discriminate|]. intros r E. injection E as <-. eexists. split; [reflexivity|]. auto.
  - split; [intros; reflexivity|discriminate].
Qed.
Print Assumptions strict_views_are_weak.

Lemma uniform_stays p0 : p0 0%nat = 1 / 2 -> p0 1%nat = 1 / 2 ->
  exists q, do_ep best_minimize 2 p0 ([], [(fun s => - X2 s 0%nat, - (1 / 2))]) = Ok q /\ q 0%nat = 1 / 2 /\ q 1%nat = 1 / 2.
Proof.
  intros P0 P1. unfold do_ep. cbn [fst snd app seq map]. rewrite P0, P1.
  assert (SU : sumn 2 (of_list [1 / 2; 1 / 2]) = 1) by (cbn; unfold of_list; cbn; lra).
  destruct (ep_finds_l best_minimize [1 / 2; 1 / 2] [ones_row] (Some [(fun s => - X2 s 0%nat, - (1 / 2))]) None (of_list [1 / 2; 1 / 2]) best_minimize_sound best_minimize_finds (or_introl eq_refl)) as [q [F Q]].
  - discriminate.
  - simpl. intros x [<- |[<- |[]]]; lra.
  - exists (fun _ => 1). split; [left; reflexivity|auto].
  - cbn [List.length opt_rows]. split.
    + split; [split|split].
      * intros [|[|t]] Ht; cbn in *; try lia; unfold of_list; cbn; lra.
      * exact SU.
      * intros r c [H|[]]. unfold ones_row in H. injection H as <- <-. unfold expectation. cbn. unfold of_list; cbn. lra.
      * intros r h [H|[]]. injection H as <- <-. unfold expectation, X2. cbn. unfold of_list; cbn. lra.
    + intros q' [[S1 S2] _]. assert (KZ : kl 2 (of_list [1 / 2; 1 / 2]) (of_list [1 / 2; 1 / 2]) = 0).
      { unfold kl. cbn. unfold of_list; cbn. replace (1 / 2 / (1 / 2)) with 1 by field. rewrite ln_1. ring. }
      rewrite KZ. apply gibbs; [exact S1| |].
      * intros [|[|t]] Ht; cbn in *; try lia; unfold of_list; cbn; lra.
      * rewrite S2. symmetry. exact SU.
  - intros [|[|t]] Ht; cbn in *; try lia; unfold of_list; cbn; apply exp_700_small; lra.
  - exists q. split; [exact F|]. rewrite (Q 0%nat), (Q 1%nat) by (cbn; lia). unfold of_list; cbn. split; reflexivity.
Qed.

(** Refuted: "[above x]: strictly greater than x".  Two equally likely scenarios, 0 and 1 for asset A: with the mean view
    [above 0.5] the posterior mean of A is 0.5. *)
Theorem above_is_strict_refuted : exists r, sound best_minimize /\
  flexible_views best_minimize (argsort_by Rleb 0) ExistProperties.best_chol (fun _ _ _ _ => 0) prior2 (dicts [(keyA, above (1 / 2))] [] [] [] [] [] [] false) = Ok r /\
  column (f_assets r) (LStr "A"%string) 0 /\ f_mean r 0%nat = 1 / 2.
Proof.
  destruct (setup2 ExistProperties.best_chol (fun _ _ _ _ => 0)) as [p0 [E [P0 P1]]].
  destruct (uniform_stays p0 P0 P1) as (q & Eq & Q0 & Q1).
  assert (P : posterior best_minimize (argsort_by Rleb 0) lab2 2 X2 p0 [(keyA, above (1 / 2))] [] [] [] [] [] [] false = Ok q).
  { unfold posterior. cbn [nonempty andb orb]. cbn [bind all_blocks]. cbv zeta. cbn [bind].
    change (build_constraints lab2 X2 (q_mean 2 X2 p0) (fun i => np_cov 2 X2 p0 i i) MMean [(keyA, above (1 / 2))] ([], [])) with (Ok ([], [(fun s => - X2 s 0%nat, - (1 / 2))]) : res (rows * rows)).
    cbn [bind build_constraints fst snd nonempty orb]. rewrite Eq. reflexivity. }
  pose proof (fv_build _ _ _ _ _ _ _ _ _ _ _ _ _ _ _ _ _ _ _ _ E ltac:(discriminate) P) as R.
  eexists. split; [exact best_minimize_sound|]. split; [exact R|]. split; [exact col_A|]. cbn [f_mean]. unfold q_mean, X2. cbn. rewrite Q0, Q1. lra.
Qed.
Print Assumptions above_is_strict_refuted.

Example helpers_case : between 1 2 = Ok (SBetween 1 2) /\ between 2 1 = Err ValueError /\ weak_views [(keyA, above (1 / 2))] = [(keyA, at_least (1 / 2))].
Proof.
  split; [|split; [|reflexivity]]; unfold between.
  - destruct (Rleb_spec 1 2); [reflexivity|lra].
  - destruct (Rleb_spec 2 1); [lra|reflexivity].
Qed.
