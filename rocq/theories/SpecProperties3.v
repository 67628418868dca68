(** Portfolio specs: what an ensemble of specs is made of (property C174). *)
From Coq Require Import String Ascii.
From Verif Require Import RBase QpBase ConsModel DistModel OptModel EnsModel EnsSpec EnsProofs AsmModel AsmProofs AsmProperties FrModel FrSpec WrModel SpecModel SpecSpec SpecProofs7.
Open Scope R_scope.
Open Scope list_scope.

(** ** Reading a spec *)
(** The weights a selector's answer stands for: a Series as it is; an array labelled with the frontier's assets, or with
    default labels if it has none; of a tuple, its first entry. *)
Definition stands_for (rng : nat -> string) (f : frontier_t) (r : sel_result) (l : list (string * R)) : Prop :=
  exists o, (r = Plain o \/ exists rest, r = Tup (o :: rest)) /\
    (o = OSeries l \/ exists w, o = OArr w /\
       ((exists names, f_names f = Some names /\ names <> [] /\ List.length names = List.length w /\ l = combine names w) \/
        ((f_names f = None \/ f_names f = Some []) /\ l = combine (map rng (seq 0 (List.length w))) w))).
Definition yields (rng : nat -> string) (s : pspec) (f : frontier_t) (l : list (string * R)) : Prop :=
  ps_frontier s = Ok f /\ exists r, ps_selector s f = Ok r /\ stands_for rng f r l.
(** The last binding of a name. *)
Definition last_bound {A} (n : string) (v : A) (l : list (string * A)) : Prop :=
  exists pre post, l = pre ++ (n, v) :: post /\ ~ In n (map fst post).
(** Spec [j]'s share of a blend: its ensemble weight over the total. *)
Definition share (w : warg) (names : list string) (j : nat) : R :=
  supplied w (List.length names) (Some names) j / sumn (List.length names) (supplied w (List.length names) (Some names)).

Lemma coerce_stands rng f r l : coerce rng f r = Ok l -> stands_for rng f r l.
Proof.
  unfold coerce. intros H. apply bind_ok in H as (o & Eo & H). exists o. split.
  - destruct r as [o'|[|o' rest]]; [injection Eo as ->; auto|discriminate|injection Eo as ->; right; eauto].
  - destruct o as [l'|w]; [injection H as ->; left; reflexivity|]. right. exists w. split; [reflexivity|].
    destruct (f_names f) as [[|n ns]|].
    + injection H as <-. right. split; [auto|reflexivity].
    + destruct (Nat.eqb_spec (List.length (n :: ns)) (List.length w)) as [E|]; [|discriminate]. injection H as <-. left. exists (n :: ns). repeat split; auto. discriminate.
    + injection H as <-. right. split; [auto|reflexivity].
Qed.
Lemma run_yields rng : forall specs rs, mapM (run_spec rng) specs = Ok rs ->
  map (fun r => sp_name (snd r)) rs = map ps_name specs /\
  Forall2 (fun s r => yields rng s (fst r) (sp_selected (snd r)) /\ sp_frontier (snd r) = to_ens (fst r) /\ sp_selection (snd r) = ps_selection s) specs rs.
Proof.
  induction specs as [|s specs IH]; cbn [mapM]; intros rs H; [injection H as <-; split; [reflexivity|constructor]|].
  apply bind_ok in H as (r & E1 & H). apply bind_ok in H as (rs' & E2 & H). injection H as <-. destruct (IH _ E2) as [A B].
  unfold run_spec in E1. apply bind_ok in E1 as (f & Ef & E1). apply bind_ok in E1 as (x & Ex & E1). apply bind_ok in E1 as (l & El & E1). injection E1 as <-.
  cbn [map fst snd sp_name sp_selected]. split; [f_equal; exact A|]. constructor; [|exact B]. cbn [fst snd sp_selected sp_frontier sp_selection].
  split; [|auto]. split; [exact Ef|]. exists x. split; [exact Ex|]. apply coerce_stands, El.
Qed.
Lemma lookup_dict_set {A} (d : list (string * A)) k v x : lookup x (dict_set d k v) = if String.eqb x k then Some v else lookup x d.
Proof.
  induction d as [|[a b] d IH]; cbn [dict_set lookup]; [destruct (String.eqb x k); reflexivity|].
  destruct (String.eqb_spec k a) as [->|N]; cbn [lookup]; [destruct (String.eqb x a); reflexivity|]. rewrite IH.
  destruct (String.eqb_spec x a) as [->|]; [|reflexivity]. destruct (String.eqb_spec a k); [congruence|reflexivity].
Qed.
Lemma to_dict_snoc {A} (l : list (string * A)) k v : to_dict (l ++ [(k, v)]) = dict_set (to_dict l) k v.
Proof. unfold to_dict. rewrite fold_left_app. reflexivity. Qed.
Lemma lookup_to_dict {A} (l : list (string * A)) n v : lookup n (to_dict l) = Some v <-> last_bound n v l.
Proof.
  revert v. induction l as [|[k x] l IH] using rev_ind; intros v.
  - split; [discriminate|]. intros (pre & post & E & _). destruct pre; discriminate.
  - rewrite to_dict_snoc, lookup_dict_set. destruct (String.eqb_spec n k) as [->|N].
    + split.
      * intros E. injection E as ->. exists l, []. split; [reflexivity|intros []].
      * intros (pre & post & E & Hp). destruct post as [|y post] using rev_ind.
        { apply app_inj_tail in E as [_ E]. injection E as ->. reflexivity. }
        exfalso. rewrite app_comm_cons, app_assoc in E. apply app_inj_tail in E as [_ E]. subst y. apply Hp. rewrite map_app. apply in_or_app. right. left. reflexivity.
    + rewrite IH. split.
      * intros (pre & post & -> & Hp). exists pre, (post ++ [(k, x)]). split; [rewrite <- app_assoc; reflexivity|]. rewrite map_app. intros I. apply in_app_or in I as [I|[I|[]]]; [exact (Hp I)|]. cbn in I. congruence.
      * intros (pre & post & E & Hp). destruct post as [|y post _] using rev_ind.
        { apply app_inj_tail in E as [_ E]. injection E as E _. congruence. }
        rewrite app_comm_cons, app_assoc in E. apply app_inj_tail in E as [E _]. exists pre, post. split; [exact E|]. intros I. apply Hp. rewrite map_app. apply in_or_app. left. exact I.
Qed.

(** No spec at all is a ValueError, whatever else is asked. *)
Theorem no_specs_raises : forall solver rng a comb folds w, assemble_portfolio_ensemble solver rng [] a comb folds w = Err ValueError.
Proof. reflexivity. Qed.
Print Assumptions no_specs_raises.

(** The result has the specs' selected portfolios in order, each under its spec's name, and under every name the frontier
    of the last spec so named. *)
Theorem ensemble_collects : forall solver rng specs a comb folds w r, assemble_portfolio_ensemble solver rng specs a comb folds w = Ok r ->
  exists fs, Forall2 (fun s f => ps_frontier s = Ok f) specs fs /\
    Forall2 (fun sf nl => fst nl = ps_name (fst sf) /\ yields rng (fst sf) (snd sf) (snd nl)) (combine specs fs) (er_selections r) /\
    (forall n f, lookup n (er_frontiers r) = Some f <-> last_bound n f (combine (map ps_name specs) fs)).
Proof.
  intros solver rng specs a comb folds w r H. unfold assemble_portfolio_ensemble in H. destruct (Nat.eqb _ 0); [discriminate|].
  apply bind_ok in H as (rs & Er & H). apply bind_ok in H as (es & _ & H). injection H as <-. cbn [er_selections er_frontiers].
  apply run_yields in Er as [N F]. exists (map fst rs). split; [|split].
  - clear N. induction F as [|s x specs rs ((K & _) & _) F IH]; constructor; [exact K|exact IH].
  - revert N. induction F as [|s x specs rs (K & _) F IH]; cbn [map combine]; intros N; constructor.
    + cbn [fst snd]. injection N as N _. split; [exact N|exact K].
    + apply IH. injection N as _ N. exact N.
  - intros n f. rewrite lookup_to_dict. replace (combine (map ps_name specs) (map fst rs)) with (map (fun x : frontier_t * AsmModel.spec => (sp_name (snd x), fst x)) rs); [reflexivity|].
    rewrite <- N. clear. induction rs as [|x rs IH]; [reflexivity|]. cbn [map combine]. f_equal. exact IH.
Qed.
Print Assumptions ensemble_collects.

Lemma dict_lookup_in {A} (l : list (string * A)) n v : lookup n (to_dict l) = Some v -> In (n, v) l.
Proof. rewrite lookup_to_dict. intros (pre & post & -> & _). apply in_or_app. right. left. reflexivity. Qed.

(** An average over the selected portfolios is, asset by asset, the sum of their weights by their specs' shares. *)
Theorem selected_average_weights : forall solver rng specs a comb folds w r b, assemble_portfolio_ensemble solver rng specs a comb folds w = Ok r ->
  lower comb = "selected"%string -> er_average r = Some b ->
  let sels := map snd (er_selections r) in
  exists t, b = BTable t /\ NoDup (map fst t) /\
    (forall k, In k (map fst t) <-> exists l, In l sels /\ In k (map fst l)) /\
    (forall k x, In (k, Some x) t -> (forall l, In l sels -> In k (map fst l)) /\
       x = sumn (List.length specs) (fun j => share w (map ps_name specs) j * match lookup k (nth j sels []) with Some y => y | None => 0 end)) /\
    (forall k, In (k, None) t -> exists l, In l sels /\ ~ In k (map fst l)).
Proof.
  intros solver rng specs a comb folds w r b H M Hb sels. unfold assemble_portfolio_ensemble in H. destruct (Nat.eqb _ 0); [discriminate|].
  apply bind_ok in H as (rs & Er & H). apply bind_ok in H as (es & Ee & H). injection H as <-. cbn [er_selections] in sels. unfold er_average in Hb. cbn [er_ensembles] in Hb.
  apply dict_lookup_in in Hb. unfold assemble in Ee. destruct (Nat.eqb _ 0); [discriminate|]. unfold mode_of in Ee. rewrite M in Ee. cbn [String.eqb Ascii.eqb Bool.eqb] in Ee.
  destruct (Nat.eqb _ 0); [injection Ee as <-; destruct Hb|]. apply bind_ok in Ee as (fo & _ & Ee). apply run_ensembles_lookup in Ee as [_ L].
  destruct (L _ _ Hb) as [[_ E]|[E _]]; [|discriminate]. apply bind_ok in E as (t & Et & E). injection E as <-. exists t. split; [reflexivity|].
  apply run_yields in Er as [N F]. assert (LN : List.length rs = List.length specs) by (rewrite <- (map_length (fun r : frontier_t * AsmModel.spec => sp_name (snd r)) rs), N; apply map_length).
  assert (ES : sels = map sp_selected (map snd rs)) by (unfold sels; rewrite !map_map; reflexivity).
  destruct (selected_average_follows_labels _ _ _ Et) as (ws & Ew & _ & ND & K1 & K2 & K3). rewrite map_length in *. rewrite map_map in Ew.
  assert (E1 : map (fun x : frontier_t * AsmModel.spec => sp_name (snd x)) rs = map ps_name specs) by exact N. rewrite E1, LN in Ew.
  apply normalize_weights_ok in Ew as (_ & _ & _ & _ & EW); [|intros l ks _ E; injection E as <-; apply map_length].
  split; [exact ND|]. split; [|split].
  - intros k. rewrite K1, ES. split.
    + intros (s & Is & Ik). exists (sp_selected s). split; [apply in_map, Is|exact Ik].
    + intros (l & Il & Ik). apply in_map_iff in Il as (s & <- & Is). eauto.
  - intros k x I. destruct (K2 k x I) as [A ->]. split.
    + intros l Il. rewrite ES in Il. apply in_map_iff in Il as (s & <- & Is). auto.
    + rewrite LN. apply sumn_ext. intros j Hj. rewrite EW by exact Hj. unfold share. rewrite map_length. rewrite ES.
      rewrite (nth_map_lt sp_selected (map snd rs) j (mkSpec EmptyString (mkF 0 [] [] None) [] None) []) by (rewrite map_length; lia). apply Rmult_comm.
  - intros k I. destruct (K3 k I) as (s & Is & Hn). exists (sp_selected s). split; [rewrite ES; apply in_map, Is|exact Hn].
Qed.
Print Assumptions selected_average_weights.

(** With [combine="frontier"] and distinct names: spec [j] contributes one column of its own frontier, the requested one
    (counted from the end if negative) or the first of least risk. *)
Definition contributed (s : pspec) (f : frontier_t) (k : nat) : Prop :=
  (k < List.length (f_cols f))%nat /\
  match ps_selection s with
  | Some l => exists z, l = [z] /\ (z = Z.of_nat k \/ z = Z.of_nat k - Z.of_nat (List.length (f_cols f)))%Z
  | None => (forall i, (i < List.length (f_risk f))%nat -> nth k (f_risk f) 0 <= nth i (f_risk f) 0) /\ (forall i, (i < k)%nat -> nth k (f_risk f) 0 < nth i (f_risk f) 0)
  end.
Lemma forall2_nth {A B} (P : A -> B -> Prop) l l' : Forall2 P l l' -> forall i a b, (i < List.length l)%nat -> P (nth i l a) (nth i l' b).
Proof. induction 1 as [|x y l l' H F IH]; intros i a b Hi; [inversion Hi|]. destruct i; [exact H|]. cbn. apply IH. cbn in Hi. lia. Qed.
Lemma forall2_length {A B} (P : A -> B -> Prop) l l' : Forall2 P l l' -> List.length l = List.length l'.
Proof. induction 1; cbn; congruence. Qed.
Lemma concat_singletons {A} (ps : list (list A)) (P : nat -> A -> Prop) (d : A) :
  (forall i, (i < List.length ps)%nat -> exists x, nth i ps [] = [x] /\ P i x) ->
  List.length (List.concat ps) = List.length ps /\ forall i, (i < List.length ps)%nat -> P i (nth i (List.concat ps) d).
Proof.
  revert P. induction ps as [|p ps IH]; intros P H; [split; [reflexivity|intros i Hi; inversion Hi]|].
  destruct (H 0%nat) as (x & E & Px); [cbn; lia|]. cbn in E. subst p. destruct (IH (fun i => P (S i))) as [L Q].
  - intros i Hi. apply (H (S i)). cbn. lia.
  - cbn [List.concat app List.length]. split; [f_equal; exact L|]. intros [|i] Hi; [exact Px|]. cbn [nth]. apply Q. cbn in Hi. lia.
Qed.

Theorem frontier_average_weights : forall solver rng specs a comb folds w r b fs, assemble_portfolio_ensemble solver rng specs a comb folds w = Ok r ->
  lower comb = "frontier"%string -> er_average r = Some b -> NoDup (map ps_name specs) -> w = WNone \/ (exists l, w = WSeq l) ->
  Forall2 (fun s f => ps_frontier s = Ok f) specs fs -> (forall f, In f fs -> List.length (f_risk f) = List.length (f_cols f)) ->
  exists ks v labs, b = BVec v labs /\ List.length ks = List.length specs /\
    (forall j s f, nth_error specs j = Some s -> nth_error fs j = Some f -> contributed s f (nth j ks 0%nat)) /\
    (forall f names, In f fs -> f_names f = Some names -> names <> [] -> labs = Some names) /\
    (forall i, v i = sumn (List.length specs) (fun j => share w (map ps_name specs) j *
       match nth_error fs j with Some f => nth i (nth (nth j ks 0%nat) (f_cols f) []) 0 | None => 0 end)).
Proof.
  intros solver rng specs a comb folds w r b fs H M Hb ND HW HF HL. unfold assemble_portfolio_ensemble in H. destruct (Nat.eqb _ 0); [discriminate|].
  apply bind_ok in H as (rs & Er & H). apply bind_ok in H as (es & Ee & H). injection H as <-. unfold er_average in Hb. cbn [er_ensembles] in Hb.
  apply dict_lookup_in in Hb. apply run_yields in Er as [N F].
  assert (EM : mode_of comb = FrontierMode) by (unfold mode_of; rewrite M; reflexivity). rewrite EM in Ee.
  assert (NN : ensemble_names a <> []).
  { intros E. rewrite E in Ee. unfold assemble in Ee. destruct (Nat.eqb _ 0); [discriminate|]. injection Ee as <-. destruct Hb. }
  assert (ND' : NoDup (map sp_name (map snd rs))) by (rewrite map_map, N; exact ND).
  assert (LN : List.length rs = List.length specs) by (symmetry; eapply forall2_length; exact F).
  assert (LF : List.length fs = List.length specs) by (symmetry; eapply forall2_length; exact HF).
  assert (EF : map fst rs = fs).
  { clear -F HF. revert fs HF. induction F as [|s x specs rs ((K & _) & _) F IH]; intros fs HF; inversion HF; subst; [reflexivity|]. cbn [map]. f_equal; [congruence|apply IH; assumption]. }
  destruct (ensemble_uses_each_specs_frontier _ _ _ _ _ _ ND' NN Ee) as (sels & fo & LS & _ & HS & _ & HA & _).
  destruct (HA _ Hb) as (v & labs & -> & Ev). clear HA Ee Hb.
  assert (EE : map (fun s => EFrontier (sp_frontier s)) (map snd rs) = map (fun f => EFrontier (to_ens f)) fs).
  { rewrite <- EF. rewrite !map_map. clear -F. induction F as [|s x specs rs (_ & K & _) F IH]; [reflexivity|]. cbn [map]. f_equal; [f_equal; exact K|exact IH]. }
  rewrite EE in Ev. unfold average_frontiers in Ev. apply bind_ok in Ev as (p & Ep & Ev). apply bind_ok in Ev as ([v' nm] & Ev & E). injection E as <- <-.
  assert (WS : Forall well_shaped (map (fun f => EFrontier (to_ens f)) fs)).
  { apply Forall_forall. intros e If. apply in_map_iff in If as (f & <- & If). exact (eq_trans (HL f If) (eq_sym (map_length _ _))). }
  destruct (collect_samples_ok _ _ _ WS Ep)
    as (sels' & ps & -> & LS' & F2 & Ec & Hnn & D & A & _).
  rewrite map_length in LS'.
  assert (LP : List.length ps = List.length specs).
  { rewrite <- (forall2_length _ _ _ F2), combine_length, map_length. lia. }
  (* the column contributed by each spec *)
  assert (G : forall j, (j < List.length specs)%nat -> exists k, nth j ps [] = [of_list (nth k (f_cols (nth j fs (mkFr 0 [] [] [] EmptyString None []))) [])] /\
    contributed (nth j specs (mkPS EmptyString (Err ValueError) (fun _ => Err ValueError) None)) (nth j fs (mkFr 0 [] [] [] EmptyString None [])) k).
  { intros j Hj. pose proof (forall2_nth _ _ _ F2 j (EFrontier (to_ens (mkFr 0 [] [] [] EmptyString None [])), None) [] ltac:(rewrite combine_length, map_length; lia)) as C.
    rewrite combine_nth in C by (rewrite map_length; exact (eq_sym LS')). cbn [fst snd] in C.
    rewrite (map_nth (fun f => EFrontier (to_ens f)) fs) in C.
    destruct C as (k & Hk & Ek & Cs). exists k. cbn [to_ens EnsModel.f_cols] in Hk, Ek, Cs. rewrite map_length in Hk, Cs. split.
    - rewrite Ek. f_equal. rewrite (nth_map_lt (fun c => of_list c) _ k []) by exact Hk. reflexivity.
    - split; [exact Hk|]. pose proof (HS j ltac:(rewrite map_length; lia)) as (z & Ez & Cz). rewrite Ez in Cs. destruct Cs as (z' & Ezz & Cs). injection Ezz as <-.
      set (dm := mkSpec EmptyString (mkF 0 [] [] None) [] None) in Cz.
      pose proof (forall2_nth _ _ _ F j (mkPS EmptyString (Err ValueError) (fun _ => Err ValueError) None) (mkFr 0 [] [] [] EmptyString None [], dm) Hj) as (_ & K1 & K2).
      assert (Es : nth j (map snd rs) dm = snd (nth j rs (mkFr 0 [] [] [] EmptyString None [], dm))) by (rewrite <- (map_nth snd rs); reflexivity).
      assert (Eg : fst (nth j rs (mkFr 0 [] [] [] EmptyString None [], dm)) = nth j fs (mkFr 0 [] [] [] EmptyString None [])) by (rewrite <- EF, <- (map_nth fst rs); reflexivity).
      rewrite Es, K2, K1, Eg in Cz. destruct (ps_selection (nth j specs _)) as [l|].
      + exists z. split; [exact Cz|exact Cs].
      + destruct Cz as (q & -> & (B1 & B2 & B3)). cbn [to_ens EnsModel.f_risks] in B1, B2, B3.
        assert (k = q) as ->; [|split; assumption].
        rewrite HL in B1 by (apply nth_In; lia). destruct Cs as [Cs|Cs]; lia. }
  assert (G2 : exists ks, List.length ks = List.length specs /\ forall j, (j < List.length specs)%nat ->
    nth j ps [] = [of_list (nth (nth j ks 0%nat) (f_cols (nth j fs (mkFr 0 [] [] [] EmptyString None []))) [])] /\
    contributed (nth j specs (mkPS EmptyString (Err ValueError) (fun _ => Err ValueError) None)) (nth j fs (mkFr 0 [] [] [] EmptyString None [])) (nth j ks 0%nat)).
  { revert G. generalize (List.length specs). intros n G. induction n as [|n IH]; [exists []; split; [reflexivity|intros j Hj; inversion Hj]|].
    destruct IH as (ks & Lk & Hk); [intros j Hj; apply G; lia|]. destruct (G n) as (k & Ek); [lia|]. exists (ks ++ [k]). split; [rewrite app_length; cbn; lia|].
    intros j Hj. destruct (Nat.eq_dec j n) as [->|].
    - rewrite app_nth2 by lia. rewrite Lk, Nat.sub_diag. exact Ek.
    - rewrite app_nth1 by lia. apply Hk. lia. }
  destruct G2 as (ks & Lk & Hk).
  exists ks, v', (pn_assets p). split; [reflexivity|]. split; [exact Lk|]. split; [|split].
  - intros j s f Es Ef. assert (Hj : (j < List.length specs)%nat) by (apply nth_error_Some; congruence). destruct (Hk j Hj) as [_ C].
    apply (nth_error_nth _ _ (mkPS EmptyString (Err ValueError) (fun _ => Err ValueError) None)) in Es. apply (nth_error_nth _ _ (mkFr 0 [] [] [] EmptyString None [])) in Ef. rewrite Es, Ef in C. exact C.
  - intros f names If En Hne. apply (A (EFrontier (to_ens f))); [apply in_map_iff; eauto|]. cbn [entry_labels to_ens EnsModel.f_assets]. rewrite En. destruct names; [congruence|reflexivity].
  - destruct (concat_singletons ps (fun j x => x = of_list (nth (nth j ks 0%nat) (f_cols (nth j fs (mkFr 0 [] [] [] EmptyString None []))) [])) (fun _ => 0)) as [LC HC].
    { intros j Hj. rewrite LP in Hj. destruct (Hk j Hj) as [E _]. eexists. split; [exact E|reflexivity]. }
    destruct (average_ok (mkPanel (pn_n p) (pn_cols p) None None) w v' nm Logic.I Ev) as (_ & ws & Ew & Lw & _ & HC2). cbn [pn_cols pn_samples] in Ew, Lw, HC2.
    assert (LL : List.length (pn_cols p) = List.length specs) by (rewrite Ec, LC; exact LP).
    apply normalize_weights_ok in Ew as (_ & _ & _ & _ & EW); [|intros l ks' _ E; discriminate].
    intros i. rewrite HC2, LL. apply sumn_ext. intros j Hj. rewrite EW by lia. rewrite LL. unfold share. rewrite map_length.
    assert (SS : forall q, supplied w (List.length specs) None q = supplied w (List.length specs) (Some (map ps_name specs)) q) by (intros q; destruct HW as [-> | (l & ->)]; reflexivity).
    rewrite SS. rewrite (sumn_ext _ _ _ (fun q _ => SS q)). f_equal. rewrite Ec, (HC j) by lia.
    rewrite (nth_error_nth' fs (mkFr 0 [] [] [] EmptyString None [])) by lia. reflexivity.
Qed.
Print Assumptions frontier_average_weights.

(** Two specs over assets A and B, the second listing its selection the other way round. *)
Definition fr_one : frontier_t := mkFr 2 [[1; 0]; [0; 1]] [1; 2] [2; 1] "vol" (Some ["A"; "B"]%string) [].
Definition fr_two : frontier_t := mkFr 2 [[1/4; 3/4]; [1/2; 1/2]] [1; 2] [1; 2] "vol" (Some ["A"; "B"]%string) [].
Definition spec_one : pspec := mkPS "one" (Ok fr_one) (fun _ => Ok (Plain (OArr [1; 0]))) (Some [0%Z]).
Definition spec_two : pspec := mkPS "two" (Ok fr_two) (fun _ => Ok (Tup [OSeries [("B"%string, 1); ("A"%string, 0)]; OArr []])) None.
Example ensemble_case : exists r r' v,
  assemble_portfolio_ensemble (fun _ => None) (fun _ => EmptyString) [spec_one; spec_two] (EStr " Average") "selected" None (WSeq [Fin 3; Fin 1]) = Ok r /\
  er_average r = Some (BTable [("A"%string, Some (3/4)); ("B"%string, Some (1/4))]) /\
  assemble_portfolio_ensemble (fun _ => None) (fun _ => EmptyString) [spec_one; spec_two] (ESeq ["average"%string]) "Frontier" None WNone = Ok r' /\
  er_average r' = Some (BVec v (Some ["A"; "B"]%string)) /\ v 0%nat = 5/8 /\ v 1%nat = 3/8.
Proof.
  assert (A1 : exists r, assemble_portfolio_ensemble (fun _ => None) (fun _ => EmptyString) [spec_one; spec_two] (EStr " Average") "selected" None (WSeq [Fin 3; Fin 1]) = Ok r /\
    er_average r = Some (BTable [("A"%string, Some (3/4)); ("B"%string, Some (1/4))])).
  { unfold assemble_portfolio_ensemble. replace (ensemble_names (EStr " Average")) with ["average"%string] by reflexivity. replace (mode_of "selected") with Selected by reflexivity.
    cbn. unfold average_selected, normalize_weights. cbn. repeat match goal with |- context [Rleb ?x ?y] => destruct (Rleb_spec x y); [exfalso; lra|]; cbn end.
    eexists. split; [reflexivity|]. cbn. unfold row_average. cbn. do 2 f_equal. repeat (f_equal; try field). }
  assert (A2 : exists r' v, assemble_portfolio_ensemble (fun _ => None) (fun _ => EmptyString) [spec_one; spec_two] (ESeq ["average"%string]) "Frontier" None WNone = Ok r' /\
    er_average r' = Some (BVec v (Some ["A"; "B"]%string)) /\ v 0%nat = 5/8 /\ v 1%nat = 3/8).
  { unfold assemble_portfolio_ensemble. replace (ensemble_names (ESeq ["average"%string])) with ["average"%string] by reflexivity. replace (mode_of "Frontier") with FrontierMode by reflexivity.
    cbn. repeat match goal with |- context [Rltb ?x ?y] => destruct (Rltb_spec x y); [exfalso; lra|]; cbn end.
    unfold average_frontiers. cbn. do 2 eexists. split; [reflexivity|]. split; [reflexivity|].
    unfold combine_cols. cbn. split; field. }
  destruct A1 as (r & R1 & R2), A2 as (r' & v & R3 & R4). exists r, r', v. tauto.
Qed.

(** ** stack_portfolios *)
(** The blend carries the labels of the labelled entries (which all agree), and none if no entry has labels. *)
Theorem stack_portfolios_labels : forall solver entries sel L v labs,
  (forall f, In (EFrontier f) entries -> List.length (f_risks f) = List.length (EnsModel.f_cols f)) ->
  stack_portfolios solver entries sel L = Ok (v, labs) ->
  (forall e names, In e entries -> entry_labels e = Some names -> names <> [] -> labs = Some names) /\
  ((forall e, In e entries -> entry_labels e = None \/ entry_labels e = Some []) -> labs = None).
Proof.
  intros solver entries sel L v labs HL H. unfold stack_portfolios in H. apply bind_ok in H as (p & Ep & H).
  assert (WS : Forall well_shaped entries). { apply Forall_forall. intros e I. destruct e; cbn [well_shaped]; auto. }
  destruct (collect_samples_ok _ _ _ WS Ep) as (sels & ps & _ & _ & _ & _ & _ & _ & A & B).
  assert (E : labs = match pn_assets p with Some [] => None | a => a end).
  { unfold exposure_stacking in H. apply bind_ok in H as (p' & E & H). unfold ensure_samples in E. cbn [pn_cols] in E.
    destruct (Nat.eqb _ 0); [discriminate|]. injection E as <-. destruct (L <? 2)%Z; [discriminate|]. destruct (_ <? L)%Z; [discriminate|].
    destruct (solver _) as [w|]; [|discriminate]. injection H as _ <-. reflexivity. }
  split.
  - intros e names I En Hne. assert (Lb : EnsProofs.labelled (entry_labels e) = Some names) by (rewrite En; destruct names; [congruence|reflexivity]).
    rewrite E, (A e names I Lb). destruct names; [congruence|reflexivity].
  - intros N. rewrite E. destruct (pn_assets p) as [l|] eqn:Ea; [|reflexivity]. destruct (B l eq_refl) as (e & I & Lb).
    destruct (N e I) as [X|X]; rewrite X in Lb; discriminate.
Qed.
Print Assumptions stack_portfolios_labels.
