(** Sessions: callers that go on using the arrays they passed to a wrapper (properties C164, C165). *)
From Coq Require Import ZArith String Lia Psatz.
From Verif Require Import RBase QpBase ConsModel ConsSpec MomModel DistModel DistSpec OptSpec DistProofs DistProofs2 DistProofs3 OptModel OptProofs6 ExistSpec ExistProperties FrModel WrModel WrSpec WrProofs WrProofs7 WrProperties MemModel MemSpec MemProofs.
Open Scope R_scope.
Open Scope list_scope.

(** ** Repeatable answers *)
(** If the session writes to none of the arrays given as mean, covariance, scenarios, initial weights or costs, every
    question gets the answer it would have got right after construction, whatever was asked or written in between. *)
Theorem untouched_arrays_repeatable : forall E s i arg k lo tot bds w h, new_wrapper s i arg k lo tot bds = Ok w ->
  leaves_alone (fun l => watched i k l \/ exists q, In q (questions h) /\ cost_array (asked_with q) l) h ->
  snd (session E w s h) = map (ask E s w) (questions h).
Proof.
  intros E s i arg k lo tot bds w h H. 
  enough (G : forall (P : nat -> Prop) s', (forall l, watched i k l -> P l) -> (forall q, In q (questions h) -> forall l, cost_array (asked_with q) l -> P l) ->
    leaves_alone P h -> (forall l, P l -> s' l = s l) -> snd (session E w s' h) = map (ask E s w) (questions h)).
  { intros L. apply (G (fun l => watched i k l \/ exists q, In q (questions h) /\ cost_array (asked_with q) l) s); auto. intros q I l A. right. exists q. auto. }
  induction h as [|[l kk x|q] t IH]; intros P s' PW PQ L HS; cbn [session questions flat_map map app snd]; [reflexivity| |].
  - apply (IH P); auto.
    + intros a b c I. apply (L a b c). right. exact I.
    + intros l' Hl'. unfold write. destruct (Nat.eqb_spec l' l) as [->|]; [|apply HS; exact Hl'].
      exfalso. apply (L l kk x); [left; reflexivity|exact Hl'].
  - fold (questions t). f_equal.
    + apply (ask_same E s s s' _ _ _ _ _ _ _ _ H). intros l [A|A]; apply HS; [apply PW; exact A|]. apply (PQ q); [left; reflexivity|exact A].
    + apply (IH P); auto.
      * intros q' I. apply PQ. right. exact I.
      * intros a b c I. apply (L a b c). right. exact I.
Qed.
Print Assumptions untouched_arrays_repeatable.

(** The answers right after construction are those of the wrapper built from the contents of the arguments. *)
Theorem first_answers : forall s i arg k lo tot bds w, new_wrapper s i arg k lo tot bds = Ok w ->
  exists d, make_dist (read_in s i) = Ok d /\ make_wrapper d arg (option_map (read_costs s) k) lo tot bds = Ok (current s w).
Proof.
  intros s i arg k lo tot bds w H. destruct (new_wrapper_inv _ _ _ _ _ _ _ _ H) as (_ & Hd & _ & Hw). eauto.
Qed.
Print Assumptions first_answers.

(** What a wrapper holds: the caller's mean, covariance and scenarios as they are now, and the probabilities of the
    construction -- those given then, rescaled to one, or uniform. *)
Theorem arrays_now_probabilities_then : forall E s i arg k lo tot bds w h, new_wrapper s i arg k lo tot bds = Ok w ->
  let s' := fst (session E w s h) in
  let d := view s' (sw_dist w) in
  (forall a, contents s' (r_mu i) = Some a -> d_mu d = Some (flat a)) /\
  (forall a, contents s' (r_cov i) = Some a -> d_cov d = Some a) /\
  d_scen d = contents s' (r_scen i) /\
  (forall X, contents s (r_scen i) = Some X -> exists T p q, d_T d = Some T /\ nd_shape X = [T; d_N d] /\ d_probs d = Some p /\
     real_array p [T] q /\ normalised T (option_map (fetch s) (r_probs i)) q).
Proof.
  intros E s i arg k lo tot bds w h H s' d. subst s' d. rewrite session_store.
  destruct (new_wrapper_inv _ _ _ _ _ _ _ _ H) as (Hd & Hv & _). 
  destruct (make_dist_values _ _ Hv) as (V1 & _ & _ & _ & V5). unfold read_in in V1, V5. cbn [i_scen i_mu i_cov i_probs] in V1, V5.
  unfold new_dist in Hd. rewrite Hv in Hd. cbn [bind] in Hd.
  pose proof (f_equal (fun r => match r with Ok d => sd_mu d | Err _ => None end) Hd) as Em.
  pose proof (f_equal (fun r => match r with Ok d => sd_cov d | Err _ => None end) Hd) as Ec.
  pose proof (f_equal (fun r => match r with Ok d => sd_scen d | Err _ => None end) Hd) as Es. cbn [sd_mu sd_cov sd_scen] in Em, Ec, Es.
  unfold view at 1 2 3. cbn [d_mu d_cov d_scen]. rewrite <- Em, <- Ec, <- Es.
  split; [|split; [|split]].
  - intros a Ha. destruct (r_mu i) as [[l x]|]; [|discriminate]. cbn in Ha |- *. injection Ha as <-. reflexivity.
  - intros a Ha. destruct (r_cov i) as [[l x]|]; [|discriminate]. cbn in Ha |- *. injection Ha as <-. reflexivity.
  - destruct (r_scen i) as [[l x]|]; [reflexivity|]. cbn in V1 |- *. unfold view in V1 |- *. cbn [d_scen] in V1 |- *. rewrite V1. reflexivity.
  - intros X HX. destruct (r_scen i) as [[l x]|]; [|discriminate]. cbn in HX. injection HX as <-.
    destruct (V5 l (fetch s x) eq_refl) as (T & p & q & A & B & C & D & F & _). exists T, p, q. auto.
Qed.
Print Assumptions arrays_now_probabilities_then.

(** Lists, integer arrays and probabilities are never looked at again. *)
Theorem copied_arguments_repeatable : forall E s i arg lo tot bds w h, new_wrapper s i arg None lo tot bds = Ok w ->
  (forall lx, r_mu i = Some lx -> exists a, snd lx = Copied a) -> (forall lx, r_cov i = Some lx -> exists a, snd lx = Copied a) ->
  (forall lx, r_scen i = Some lx -> exists a, snd lx = Copied a) -> (forall q, In q (questions h) -> asked_with q = None) ->
  snd (session E w s h) = map (ask E s w) (questions h).
Proof.
  intros E s i arg lo tot bds w h H M C X Q. apply (untouched_arrays_repeatable E s i arg None lo tot bds w h H).
  intros l k x _ [[W|[W|[W|W]]]|W].
  - destruct W as (y & Ey & Ay). destruct (r_mu i) as [lx|]; [|discriminate]. destruct (M lx eq_refl) as [a Ea]. cbn in Ey. rewrite Ea in Ey. injection Ey as <-. discriminate Ay.
  - destruct W as (y & Ey & Ay). destruct (r_cov i) as [lx|]; [|discriminate]. destruct (C lx eq_refl) as [a Ea]. cbn in Ey. rewrite Ea in Ey. injection Ey as <-. discriminate Ay.
  - destruct W as (y & Ey & Ay). destruct (r_scen i) as [lx|]; [|discriminate]. destruct (X lx eq_refl) as [a Ea]. cbn in Ey. rewrite Ea in Ey. injection Ey as <-. discriminate Ay.
  - destruct W as (c & Ec & _). discriminate.
  - destruct W as (q & I & c & Ec & _). rewrite (Q q I) in Ec. discriminate.
Qed.
Print Assumptions copied_arguments_repeatable.

(** ** After writes *)
(** As long as the arrays hold finite numbers, the wrapper behaves after any session like a new one built from what the
    caller's arrays hold now, the moments and probabilities computed at construction, and the constraints compiled then. *)
Theorem session_like_new : forall E s i arg k lo tot bds w h d0, new_wrapper s i arg k lo tot bds = Ok w -> make_dist (read_in s i) = Ok d0 ->
  let s' := fst (session E w s h) in
  finite_inputs s' i ->
  exists d, make_dist (renewed s' i d0) = Ok d /\ make_wrapper d arg (option_map (read_costs s') k) lo tot bds = Ok (current s' w).
Proof.
  intros E s i arg k lo tot bds w h d0 H H0 s' F. subst s'. rewrite session_store in *.
  destruct (new_wrapper_inv _ _ _ _ _ _ _ _ H) as (Hd & Hv & _). rewrite Hv in H0. injection H0 as <-.
  exists (view (after s h) (sw_dist w)). split; [apply renew_dist; auto using after_shapes|]. apply (renew_wrapper s _ i); auto using after_shapes.
Qed.
Print Assumptions session_like_new.

(** Every portfolio answered in a session satisfies the constraints asked for, whatever was written before. *)
Theorem session_respects_constraints : forall E s i arg k lo tot bds w h, exact_env E -> new_wrapper s i arg k lo tot bds = Ok w ->
  finite_when_asked s i h ->
  Forall2 (fun q r => forall a, r = Ok a -> answer_allowed (effective (asked arg lo tot bds) (asked_under q)) (sd_N (sw_dist w)) a)
    (questions h) (snd (session E w s h)).
Proof.
  intros E s i arg k lo tot bds w h HE H.
  enough (G : forall s', same_shapes s s' -> finite_when_asked s' i h ->
    Forall2 (fun q r => forall a, r = Ok a -> answer_allowed (effective (asked arg lo tot bds) (asked_under q)) (sd_N (sw_dist w)) a)
    (questions h) (snd (session E w s' h))).
  { apply G. intros l. reflexivity. }
  induction h as [|[l kk x|q] t IH]; intros s' Hsh F; cbn [session questions flat_map app snd]; [constructor| |].
  - apply IH.
    + intros l'. rewrite write_shapes. apply Hsh.
    + intros h1 q h2 ->. exact (F (Put l kk x :: h1) q h2 eq_refl).
  - fold (questions t). constructor.
    + assert (HC : constructed (current s' w) (asked arg lo tot bds)).
      { apply (current_constructed s s' i arg k lo tot bds w H Hsh). exact (F [] q t eq_refl). }
      intros a Ha. unfold ask in Ha.
      destruct q; cbn [asked_under]; apply bind_ok in Ha as (r & Hr & Ha); injection Ha as <-;
        match goal with |- answer_allowed (effective _ ?a) _ _ =>
          match type of Hr with context [option_map (read_costs s') ?kq] =>
            pose proof (every_result_satisfies_constraints E _ _ a (option_map (read_costs s') kq) HE HC) as (A1 & A2 & A3 & A4 & A5 & A6 & A7 & A8) end end;
        cbn [answer_allowed]; unfold assets in *; cbn [current w_dist view d_N] in *.
      * exact (A1 _ _ Hr).
      * exact (A2 _ _ _ _ Hr).
      * exact (A3 _ _ _ Hr).
      * destruct r as [p g]. exact (A4 _ _ _ _ _ _ Hr).
      * exact (A5 _ _ Hr).
      * exact (A6 _ _ _ _ _ _ _ Hr).
      * destruct r as [f pen]. exact (A7 _ _ _ _ _ _ Hr).
      * destruct r as [f meta]. exact (A8 _ _ _ _ _ _ _ _ Hr).
    + apply IH; [exact Hsh|]. intros h1 q' h2 ->. exact (F (Ask q :: h1) q' h2 eq_refl).
Qed.
Print Assumptions session_respects_constraints.

(** With scenarios alone, moments are those at construction for ever: mean-variance answers do not notice writes to the
    scenario array (CVaR answers do, see below). *)
Theorem estimated_moments_stay : forall E s i arg k lo tot bds w h d0, new_wrapper s i arg k lo tot bds = Ok w -> make_dist (read_in s i) = Ok d0 ->
  r_mu i = None -> r_cov i = None ->
  let s' := fst (session E w s h) in
  d_mu (view s' (sw_dist w)) = d_mu d0 /\ d_cov (view s' (sw_dist w)) = d_cov d0 /\ d_probs (view s' (sw_dist w)) = d_probs d0 /\
  (forall target a, leaves_alone (cost_array k) h -> ask E s' w (MinVariance target a None) = ask E s w (MinVariance target a None)).
Proof.
  intros E s i arg k lo tot bds w h d0 H H0 M C s'. subst s'. rewrite session_store.
  destruct (new_wrapper_inv _ _ _ _ _ _ _ _ H) as (Hd & Hv & Hk & _). rewrite Hv in H0. injection H0 as <-.
  unfold new_dist in Hd. rewrite Hv in Hd. cbn [bind] in Hd. 
  pose proof (f_equal (fun r => match r with Ok d => sd_mu d | Err _ => None end) Hd) as Em.
  pose proof (f_equal (fun r => match r with Ok d => sd_cov d | Err _ => None end) Hd) as Ec. cbn [sd_mu sd_cov] in Em, Ec.
  rewrite M in Em. rewrite C in Ec. cbn [keep] in Em, Ec.
  assert (E1 : d_mu (view (after s h) (sw_dist w)) = d_mu (view s (sw_dist w))).
  { unfold view. cbn [d_mu]. destruct (sd_mu (sw_dist w)) as [x|]; [|reflexivity]. unfold view in Em. cbn [d_mu option_map] in Em.
    destruct (sd_mu (sw_dist w)) as [y|] eqn:Ey; cbn [option_map] in Em; [injection Em as <-; reflexivity|discriminate]. }
  assert (E2 : d_cov (view (after s h) (sw_dist w)) = d_cov (view s (sw_dist w))).
  { unfold view. cbn [d_cov]. destruct (sd_cov (sw_dist w)) as [x|]; [|reflexivity]. unfold view in Ec. cbn [d_cov option_map] in Ec.
    destruct (sd_cov (sw_dist w)) as [y|] eqn:Ey; cbn [option_map] in Ec; [injection Ec as <-; reflexivity|discriminate]. }
  split; [exact E1|]. split; [exact E2|]. split; [reflexivity|].
  intros target a L. unfold ask. f_equal. cbn [option_map].
  assert (K : option_map (read_costs (after s h)) k = option_map (read_costs s) k).
  { apply read_costs_same. intros l A. apply (after_same (cost_array k)); assumption. }
  unfold current. rewrite Hk, K. destruct (view (after s h) (sw_dist w)) as [N1 T1 m1 c1 s1 p1 n1] eqn:V1. destruct (view s (sw_dist w)) as [N2 T2 m2 c2 s2 p2 n2] eqn:V2.
  cbn [d_mu d_cov] in E1, E2. subst m1 c1. unfold view in V1, V2. injection V1 as <- <- _ _ _ <- <-. injection V2 as <- <- _ _ _ <- <-.
  reflexivity.
Qed.
Print Assumptions estimated_moments_stay.

(** ** What does not hold *)
(** One asset whose expected return is entry 0 of the caller's array 0. *)
Definition one_mean : in_ref := mkInRef (Some (None, Shared 0)) (Some (None, Copied (nd_mat 1 (fun _ _ => 1)))) None None None.
Definition cell (v : R) : store := fun _ => nd_vec 1 (fun _ => v).
Lemma one_mean_new v : exists w, new_wrapper (cell v) one_mean CNone None true (Some (Num (Fin 1))) None = Ok w /\ sd_N (sw_dist w) = 1%nat /\ sd_mu (sw_dist w) = Some (Shared 0).
Proof.
  assert (D : make_dist (read_in (cell v) one_mean) = Ok (mkDist 1 None (Some (flat (nd_vec 1 (fun _ => v)))) (Some (nd_mat 1 (fun _ _ => 1))) None None None)).
  { apply (make_dist_explicit 1 None (Some (nd_vec 1 (fun _ => v))) (Some (nd_mat 1 (fun _ _ => 1))) None None None); try (intros; discriminate); try lia; auto.
    - intros m E. injection E as <-. split; [reflexivity|]. exists (fun _ => v). apply real_vec.
    - intros m E. injection E as <-. split; [reflexivity|]. apply real_mat.
    - left. discriminate. }
  assert (N : exists sd, new_dist (cell v) one_mean = Ok sd /\ sd_N sd = 1%nat /\ sd_mu sd = Some (Shared 0)).
  { unfold new_dist. rewrite D. cbn [bind]. eexists. split; [reflexivity|]. split; reflexivity. }
  destruct N as (sd & N & HN & HM). unfold new_wrapper. rewrite N. cbn [bind].
  destruct (build_wrapper (view (cell v) sd) CNone (option_map (read_costs (cell v)) None) true (Some (Num (Fin 1))) None) as [w Ew].
  { intros kk E. discriminate. }
  { unfold view. cbn [d_N]. rewrite HN. apply (default_well_formed 1). lia. }
  rewrite Ew. cbn [bind]. eexists. split; [reflexivity|]. cbn [sw_dist]. auto.
Qed.
Lemma one_mean_answer v w s' : new_wrapper (cell v) one_mean CNone None true (Some (Num (Fin 1))) None = Ok w -> sd_N (sw_dist w) = 1%nat ->
  same_shapes (cell v) s' -> forall u, 0 <= u -> nd_at (s' 0%nat) 0 = Fin u -> 
  exists p, ask best_env s' w (MinVariance 0 CNone None) = Ok (APortfolio p) /\ p_return p = u.
Proof.
  intros H HN Hsh u Hu Hat.
  assert (F : finite_inputs s' one_mean).
  { assert (Z : nd_size (s' 0%nat) = 1%nat) by (unfold nd_size; rewrite (Hsh 0%nat); reflexivity).
    split; [|split]; intros a E; cbn in E; try discriminate; injection E as <-.
    - exists (fun _ => u). split; [reflexivity|]. intros k Hk. cbn in Z. rewrite Z in Hk. destruct k; [exact Hat|lia].
    - apply real_mat. }
  pose proof (current_constructed _ _ _ _ _ _ _ _ _ H Hsh F) as HC. change (asked CNone true (Some (Num (Fin 1))) None) with default_constraints in HC.
  destruct (new_wrapper_inv _ _ _ _ _ _ _ _ H) as (Hd & _ & Hk & _).
  assert (Sm : sd_mu (sw_dist w) = Some (Shared 0) /\ sd_cov (sw_dist w) = Some (Copied (nd_mat 1 (fun _ _ => 1)))).
  { unfold new_dist in Hd. apply bind_ok in Hd as (d & _ & Hd). injection Hd as <-. split; reflexivity. }
  destruct Sm as [Sm Sc].
  set (c := current s' w) in *. assert (AN : assets c = 1%nat) by (unfold assets, c, current, view; cbn; exact HN).
  set (mu := as_vec (flat (s' 0%nat))). set (cov := as_mat (assets c) (nd_mat 1 (fun _ _ => 1))).
  assert (Hm : moments c mu cov).
  { exists (flat (s' 0%nat)), (nd_mat 1 (fun _ _ => 1)). unfold c, current, view. cbn [w_dist d_mu d_cov]. rewrite Sm, Sc. cbn. repeat split. }
  assert (HF : in_force default_constraints CNone (assets c)) by (apply default_in_force; lia).
  assert (Hwf : ConsSpec.well_formed (effective default_constraints CNone) (Z.of_nat (assets c))) by (rewrite AN; apply (default_well_formed 1); lia).
  assert (Hkf : costs_fit (assets c) None) by (intros kk E; discriminate).
  assert (Hb : bounded (assets c) (allowed (effective default_constraints CNone) (assets c))) by apply default_bounded.
  assert (Mu0 : mu 0%nat = u). { unfold mu, as_vec. cbn. rewrite Hat. reflexivity. }
  assert (Hdot : forall y, dot (assets c) mu y = u * y 0%nat) by (intros y; rewrite AN; unfold dot; cbn [sumn]; rewrite Mu0; ring).
  destruct (min_variance_at_return_answers best_env c _ CNone None 0 mu cov best_env_exact best_qp_complete HC HF Hkf Hwf Hm Hb) as [[p Ep] _].
  { exists (fun _ => 1). split; [|rewrite Hdot; lra]. cbn [effective]. apply allowed_default. rewrite AN. split; [intros; lra|cbn; lra]. }
  exists p. unfold ask. fold c. cbn [option_map]. rewrite Ep. split; [reflexivity|].
  destruct (min_variance_at_return_optimal best_env c _ CNone None 0 p mu cov best_env_exact HC HF Hm) as (_ & _ & Hr & _ & r & _ & HO & _); [discriminate|exact Ep|].
  rewrite Hr. assert (WL : w_log c = false) by reflexivity. unfold in_reports. rewrite WL. cbn [fst]. rewrite Hdot.
  destruct HO as [[HA _] _]. cbn [effective] in HA. apply allowed_default in HA as [_ HA]. rewrite AN in HA. cbn [sumn] in HA.
  replace (wts (p_weights p) 0%nat) with 1 by lra. lra.
Qed.

(** Answers do change when the caller reuses a float array it passed as expected returns. *)
Theorem wrapper_isolated_from_writes_refuted :
  ~ (forall E s i arg k lo tot bds w h, exact_env E -> new_wrapper s i arg k lo tot bds = Ok w ->
       snd (session E w s h) = map (ask E s w) (questions h)).
Proof.
  intros G. destruct (one_mean_new 1) as (w & H & HN & _).
  specialize (G best_env _ _ _ _ _ _ _ w [Put 0 0 (Fin 2); Ask (MinVariance 0 CNone None)] best_env_exact H). cbn [session questions flat_map app map snd fst] in G.
  apply (f_equal (hd (Err ValueError))) in G. cbn [hd] in G.
  destruct (one_mean_answer 1 w (cell 1) H HN (fun l => eq_refl) 1 ltac:(lra) eq_refl) as (p & Ep & Hp).
  destruct (one_mean_answer 1 w (write (cell 1) 0 0 (Fin 2)) H HN (write_shapes _ _ _ _) 2 ltac:(lra) eq_refl) as (p' & Ep' & Hp').
  rewrite Ep, Ep' in G. injection G as G. subst p'. lra.
Qed.
Print Assumptions wrapper_isolated_from_writes_refuted.

(** A distribution checked at construction can hold NaN later. *)
Theorem distribution_stays_valid_refuted :
  ~ (forall E s i arg k lo tot bds w h, new_wrapper s i arg k lo tot bds = Ok w -> valid_dist (view (fst (session E w s h)) (sw_dist w))).
Proof.
  intros G. destruct (one_mean_new 1) as (w & H & HN & HM). specialize (G best_env _ _ _ _ _ _ _ w [Put 0 0 NaN] H). cbn [session fst] in G.
  pose proof (vd_mu _ G) as V. unfold view in V. cbn [d_mu] in V. rewrite HM in V. cbn [option_map] in V. destruct (V _ eq_refl) as (f & _ & Hf).
  specialize (Hf 0%nat ltac:(unfold nd_size; cbn; lia)). cbn in Hf. discriminate.
Qed.
Print Assumptions distribution_stays_valid_refuted.

(** One asset with two scenarios in the caller's array 0, equally likely: the stored mean is then not the mean of the stored scenarios. *)
Definition stored_mean_is_sample_mean (d : dist) : Prop :=
  forall X p m T, d_scen d = Some X -> d_probs d = Some p -> d_mu d = Some m -> d_T d = Some T ->
    forall j, (j < d_N d)%nat -> as_vec m j = mean_of T (as_vec p) (as_mat (d_N d) X) j.
Theorem moments_follow_scenarios_refuted :
  ~ (forall E s i arg k lo tot bds w h, new_wrapper s i arg k lo tot bds = Ok w -> r_mu i = None ->
       stored_mean_is_sample_mean (view (fst (session E w s h)) (sw_dist w))).
Proof.
  intros G. set (s := (fun _ => mkND [2; 1]%nat (fun _ => Fin 1)) : store).
  set (i := mkInRef None None (Some (None, Shared 0)) None None).
  assert (HX : has_shape (s 0%nat) [2; 1]%nat) by (exists (fun _ => 1); split; [reflexivity|intros; reflexivity]).
  assert (Hc : consistent 1 (read_in s i)).
  { split; [lia|]. split; [exists (repeat EmptyString 1); split; [reflexivity|intros l []]|]. split; [|split]; cbn; auto.
    exists 2%nat. split; [lia|]. split; [exact HX|exact I]. }
  destruct (consistent_make_dist _ 1 Hc) as (d & Ed & EN).
  assert (N : exists sd, new_dist s i = Ok sd /\ sd_N sd = 1%nat) by (unfold new_dist; rewrite Ed; cbn [bind]; eexists; split; [reflexivity|exact EN]).
  destruct N as (sd & Nd & HN).
  assert (W : exists w, new_wrapper s i CNone None true (Some (Num (Fin 1))) None = Ok w).
  { unfold new_wrapper. rewrite Nd. cbn [bind].
    destruct (build_wrapper (view s sd) CNone (option_map (read_costs s) None) true (Some (Num (Fin 1))) None) as [w Ew].
    { intros kk E. discriminate. }
    { unfold view. cbn [d_N]. rewrite HN. apply (default_well_formed 1). lia. }
    rewrite Ew. cbn [bind]. eauto. }
  destruct W as [w W]. pose proof (G best_env _ _ _ _ _ _ _ w [] W eq_refl) as G0. pose proof (G best_env _ _ _ _ _ _ _ w [Put 0 0 (Fin 3)] W eq_refl) as G1. clear G.
  destruct (estimated_moments_stay best_env s i CNone None true (Some (Num (Fin 1))) None w [Put 0 0 (Fin 3)] d W Ed eq_refl eq_refl) as (M1 & _ & P1 & _).
  destruct (make_dist_values _ _ Ed) as (V1 & _ & _ & _ & V2). destruct (V2 _ _ eq_refl) as (T & p & q & HT & Hsh & Hp & Hq & Hnorm & Hm & _).
  destruct (Hm eq_refl) as (m & Em & _). cbn in Hsh. injection Hsh as <- _.
  cbn [session fst] in G0, G1, M1, P1. set (s1 := write s 0 0 (Fin 3)) in *. 
  assert (Sc : forall s2, d_scen (view s2 (sw_dist w)) = Some (s2 0%nat)).
  { intros s2. destruct (new_wrapper_inv _ _ _ _ _ _ _ _ W) as (Nd' & _). unfold new_dist in Nd'. apply bind_ok in Nd' as (d' & _ & Nd'). injection Nd' as <-. reflexivity. }
  destruct (new_wrapper_inv _ _ _ _ _ _ _ _ W) as (Nd' & Hv' & _). rewrite Ed in Hv'. injection Hv' as Hv'.
  assert (T0 : forall s2, d_T (view s2 (sw_dist w)) = Some 2%nat) by (intros s2; change (d_T (view s2 (sw_dist w))) with (d_T (view s (sw_dist w))); rewrite <- Hv'; exact HT).
  assert (N0 : forall s2, d_N (view s2 (sw_dist w)) = 1%nat) by (intros s2; change (d_N (view s2 (sw_dist w))) with (d_N (view s (sw_dist w))); rewrite <- Hv'; exact EN).
  pose proof (G0 _ p m _ (Sc s) ltac:(rewrite <- Hv'; exact Hp) ltac:(rewrite <- Hv'; exact Em) (T0 s) 0%nat ltac:(rewrite N0; lia)) as A0.
  pose proof (G1 _ p m _ (Sc s1) ltac:(rewrite P1; exact Hp) ltac:(rewrite M1; exact Em) (T0 s1) 0%nat ltac:(rewrite N0; lia)) as A1.
  rewrite N0 in A0, A1. rewrite A0 in A1. unfold mean_of, as_mat in A1. cbn in A1.
  cbn in Hnorm. destruct Hq as [Hps Hq]. assert (PZ : nd_size p = 2%nat) by (apply size1; exact Hps).
  assert (Q0 : as_vec p 0%nat = 1 / 2) by (unfold as_vec; rewrite Hq by lia; cbn; rewrite Hnorm by lia; cbn; lra).
  assert (Q1 : as_vec p 1%nat = 1 / 2) by (unfold as_vec; rewrite Hq by lia; cbn; rewrite Hnorm by lia; cbn; lra).
  rewrite Q0, Q1 in A1. lra.
Qed.
Print Assumptions moments_follow_scenarios_refuted.

(** A case that meets the hypotheses: a wrapper on a shared mean answers before and after a write, within its constraints. *)
Example session_case : exists w p p', new_wrapper (cell 1) one_mean CNone None true (Some (Num (Fin 1))) None = Ok w /\
  finite_when_asked (cell 1) one_mean [Ask (MinVariance 0 CNone None); Put 0 0 (Fin 2); Ask (MinVariance 0 CNone None)] /\
  snd (session best_env w (cell 1) [Ask (MinVariance 0 CNone None); Put 0 0 (Fin 2); Ask (MinVariance 0 CNone None)]) =
    [Ok (APortfolio p); Ok (APortfolio p')] /\ p_return p = 1 /\ p_return p' = 2.
Proof.
  destruct (one_mean_new 1) as (w & H & HN & _).
  destruct (one_mean_answer 1 w (cell 1) H HN (fun l => eq_refl) 1 ltac:(lra) eq_refl) as (p & Ep & Hp).
  destruct (one_mean_answer 1 w (write (cell 1) 0 0 (Fin 2)) H HN (write_shapes _ _ _ _) 2 ltac:(lra) eq_refl) as (p' & Ep' & Hp').
  exists w, p, p'. split; [exact H|]. split; [|split; [|auto]].
  - assert (Z : forall u, finite_inputs (cell u) one_mean /\ finite_inputs (write (cell u) 0 0 (Fin 2)) one_mean).
    { intros u. split; (split; [|split]; intros a E; cbn in E; try discriminate; injection E as <-; [|apply real_mat]).
      - exists (fun _ => u). apply real_vec.
      - exists (fun _ => 2). split; [reflexivity|]. intros k Hk. unfold nd_size in Hk. cbn in Hk. destruct k; [reflexivity|lia]. }
    intros h1 q h2 E. destruct h1 as [|e1 [|e2 h1]].
    + exact (proj1 (Z 1)).
    + cbn in E. injection E as <- E. discriminate E.
    + cbn in E. injection E as <- <- E. destruct h1 as [|e3 h1]; [exact (proj2 (Z 1))|]. exfalso. injection E as _ E. destruct h1; discriminate.
  - cbn [session snd fst]. rewrite Ep, Ep'. reflexivity.
Qed.
