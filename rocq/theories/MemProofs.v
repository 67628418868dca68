From Coq Require Import ZArith String Lia Psatz FunctionalExtensionality.
From Verif Require Import RBase QpBase ConsModel ConsSpec MomModel DistModel DistSpec OptSpec DistProofs DistProofs2 DistProofs3 OptModel FrModel WrModel WrSpec WrProofs MemModel MemSpec.
Open Scope R_scope.
Open Scope list_scope.

Lemma flat_flat m : flat (flat m) = flat m.
Proof. unfold flat. cbn [nd_at]. f_equal. f_equal. unfold nd_size. cbn [nd_shape fold_right]. apply Nat.mul_1_r. Qed.

(** *** Construction *)
Lemma view_new s i sd : new_dist s i = Ok sd -> make_dist (read_in s i) = Ok (view s sd).
Proof.
  unfold new_dist. intros H. apply bind_ok in H as (d & Hd & H). injection H as <-. rewrite Hd. f_equal.
  destruct (make_dist_inv _ _ Hd) as (mu & cov & F). pose proof (from_scen_inv _ _ _ _ _ _ (df_from _ _ _ _ F)) as HF.
  destruct d as [N T dm dc ds dp dn]. unfold view. cbn [sd_N sd_T sd_mu sd_cov sd_scen sd_probs sd_names d_N d_T d_mu d_cov d_scen d_probs d_names] in *.
  pose proof (df_mu _ _ _ _ F) as Hm. pose proof (df_cov _ _ _ _ F) as Hc. pose proof (df_scen _ _ _ _ F) as Hs. cbn in Hm, Hc, Hs.
  pose proof (df_from _ _ _ _ F) as G. unfold from_scen in G. cbn [read_in i_mu i_cov i_scen i_probs] in G.
  assert (M : forall lx, r_mu i = Some lx -> mu = Some (fetch s (snd lx))).
  { intros [l x] E. rewrite E in G. cbn [read_lab option_map fst snd] in G. destruct (r_scen i) as [[l2 x2]|]; cbn [read_lab option_map fst snd] in G.
    - destruct (nd_shape (fetch s x2)) as [|t [|n [|]]]; try discriminate. apply bind_ok in G as (pr & _ & G).
      destruct (option_map snd (read_lab s (r_cov i))) as [c|].
      + injection G. intros; subst; auto.
      + apply bind_ok in G as (e & _ & G). injection G. intros; subst; auto.
    - injection G. intros; subst; auto. }
  assert (C : forall lx, r_cov i = Some lx -> cov = Some (fetch s (snd lx))).
  { intros [l x] E. rewrite E in G. cbn [read_lab option_map fst snd] in G. destruct (r_scen i) as [[l2 x2]|]; cbn [read_lab option_map fst snd] in G.
    - destruct (nd_shape (fetch s x2)) as [|t [|n [|]]]; try discriminate. apply bind_ok in G as (pr & _ & G).
      destruct (option_map snd (read_lab s (r_mu i))) as [c|].
      + injection G. intros; subst; auto.
      + apply bind_ok in G as (e & _ & G). injection G. intros; subst; auto.
    - injection G. intros; subst; auto. }
  f_equal.
  - destruct (r_mu i) as [lx|]; unfold keep; cbn.
    + rewrite Hm, (M lx eq_refl). destruct lx. reflexivity.
    + rewrite Hm. destruct mu; cbn; [rewrite flat_flat; reflexivity|reflexivity].
  - destruct (r_cov i) as [lx|]; unfold keep; cbn.
    + rewrite Hc, (C lx eq_refl). destruct lx. reflexivity.
    + destruct dc; reflexivity.
  - destruct (r_scen i) as [[l x]|]; unfold keep; cbn in *; [exact Hs|]. rewrite Hs. reflexivity.
Qed.

Lemma new_wrapper_inv s i arg k lo tot bds w : new_wrapper s i arg k lo tot bds = Ok w ->
  new_dist s i = Ok (sw_dist w) /\ make_dist (read_in s i) = Ok (view s (sw_dist w)) /\ sw_costs w = k /\
  make_wrapper (view s (sw_dist w)) arg (option_map (read_costs s) k) lo tot bds = Ok (current s w).
Proof.
  unfold new_wrapper. intros H. apply bind_ok in H as (d & Hd & H). apply bind_ok in H as (w' & Hw & H). injection H as <-.
  cbn [sw_dist sw_costs]. split; [exact Hd|]. split; [exact (view_new _ _ _ Hd)|]. split; [reflexivity|].
  rewrite Hw. f_equal. unfold make_wrapper in Hw. apply bind_ok in Hw as ([m ws] & _ & Hw). apply bind_ok in Hw as ([[iw mic] pc] & Hk & Hw).
  injection Hw as <-. unfold current. cbn [sw_dist sw_mats sw_costs w_mats]. unfold apply_costs in Hk.
  destruct k as [k|]; cbn in *.
  - match type of Hk with (if ?b then _ else _) = _ => destruct b; [|discriminate] end. injection Hk as <- <- <-. reflexivity.
  - injection Hk as <- <- <-. reflexivity.
Qed.

(** *** Writes *)
Definition same_shapes (s s' : store) : Prop := forall l, nd_shape (s' l) = nd_shape (s l).
Lemma write_shapes s l k x : same_shapes s (write s l k x).
Proof. intros l'. unfold write. destruct (Nat.eqb_spec l' l) as [->|]; reflexivity. Qed.
Lemma after_shapes h : forall s, same_shapes s (after s h).
Proof.
  induction h as [|[l k x|q] t IH]; intros s l'; cbn [after]; [reflexivity| |apply IH].
  rewrite IH. apply write_shapes.
Qed.
Lemma fetch_shape s s' x : same_shapes s s' -> nd_shape (fetch s' x) = nd_shape (fetch s x).
Proof. intros H. destruct x; cbn; [reflexivity|apply H]. Qed.
Lemma fetch_size s s' x : same_shapes s s' -> nd_size (fetch s' x) = nd_size (fetch s x).
Proof. intros H. unfold nd_size. rewrite (fetch_shape s s' x H). reflexivity. Qed.
Lemma session_store E w h : forall s, fst (session E w s h) = after s h.
Proof. induction h as [|[l k x|q] t IH]; intros s; cbn [session after fst]; auto. Qed.
Lemma after_app h1 : forall s h2, after s (h1 ++ h2) = after (after s h1) h2.
Proof. induction h1 as [|[l k x|q] t IH]; intros s h2; cbn [after app]; auto. Qed.
Lemma after_same (P : nat -> Prop) h : forall s, leaves_alone P h -> forall l, P l -> after s h l = s l.
Proof.
  induction h as [|[l' k x|q] t IH]; intros s H l Hl; cbn [after]; [reflexivity| |].
  - rewrite IH; [|intros a b c I; apply (H a b c); right; exact I|exact Hl].
    unfold write. destruct (Nat.eqb_spec l l') as [->|]; [|reflexivity]. exfalso. apply (H l' k x); [left; reflexivity|exact Hl].
  - apply IH; [|exact Hl]. intros a b c I. apply (H a b c). right. exact I.
Qed.

(** *** A distribution from explicit arguments *)
Lemma renorm t p q : real_array p [t] q -> prob_vec t q -> (0 < t)%nat -> scen_probs t (Some p) = Ok (mkND [t] (fun k => p_scale (nd_at p k) 1)).
Proof.
  intros [Hs Hq] [H0 H1] Ht. assert (Hsz : nd_size p = t) by (apply size1; exact Hs).
  unfold scen_probs. rewrite Hsz, Nat.eqb_refl. cbn [bind].
  assert (Hz : nd_size (mkND [t] (nd_at p)) = t) by (apply size1; reflexivity).
  assert (A : nd_any p_lt0 (mkND [t] (nd_at p)) = false).
  { apply nd_any_iff. rewrite Hz. intros k Hk. cbn [nd_at]. rewrite Hq by lia. cbn. apply Rltb_false. apply H0. exact Hk. }
  rewrite A. unfold nd_sum. rewrite Hz. cbn [nd_at].
  rewrite fold_p_add by (intros k Hk; apply in_seq in Hk; exists (q k); apply Hq; lia).
  replace (rsum (map (fun k => val (nd_at p k)) (seq 0 t))) with 1.
  2:{ rewrite <- H1, rsum_seq. apply sumn_ext. intros k Hk. rewrite Hq by lia. reflexivity. }
  destruct (Rleb_spec 1 0); [lra|reflexivity].
Qed.
Lemma scale_one p : p_scale p 1 = p.
Proof. destruct p; cbn; try reflexivity. f_equal. field. Qed.

Lemma finite_all a : finite_array a -> nd_all p_fin a = true.
Proof. intros H. exact (proj2 (proj1 (has_shape_fin _ _) H)). Qed.

(** Explicit, unlabelled arguments with the right shapes give back themselves. *)
Lemma make_dist_explicit N T mu cov scen probs names :
  (0 < N)%nat -> (forall l, names = Some l -> List.length l = N) ->
  (forall m, mu = Some m -> nd_size m = N /\ finite_array m) ->
  (forall c, cov = Some c -> nd_shape c = [N; N] /\ finite_array c) ->
  mu <> None \/ cov <> None ->
  match scen, probs, T with
  | None, None, None => True
  | Some X, Some p, Some t => (0 < t)%nat /\ nd_shape X = [t; N] /\ finite_array X /\ mu <> None /\ cov <> None /\ exists q, real_array p [t] q /\ prob_vec t q
  | _, _, _ => False
  end ->
  let un {L} (o : option nd) : option (option L * nd) := option_map (fun a => (None, a)) o in
  make_dist (mkIn (un mu) (un cov) (un scen) probs names) = Ok (mkDist N T (option_map flat mu) cov scen probs names).
Proof.
  intros HN Hnm Hmu Hcov Hsome Hsc un. unfold un, make_dist, names_mu, names_cov, names_scen, from_scen.
  cbn [i_mu i_cov i_scen i_probs i_names].
  assert (NM : (match names with Some l => negb (Nat.eqb (List.length l) N) | None => false end) = false).
  { destruct names as [l|]; [|reflexivity]. rewrite (Hnm l eq_refl), Nat.eqb_refl. reflexivity. }
  assert (FM : opt_all mu = true) by (destruct mu as [m|]; [cbn; apply finite_all; apply (Hmu m eq_refl)|reflexivity]).
  assert (FC : opt_all cov = true) by (destruct cov as [m|]; [cbn; apply finite_all; apply (Hcov m eq_refl)|reflexivity]).
  destruct scen as [X|].
  - destruct probs as [p|]; [|destruct T; contradiction]. destruct T as [t|]; [|contradiction].
    destruct Hsc as (Ht & HX & FX & M0 & C0 & q & Hp & Hq).
    destruct mu as [m|]; [|congruence]. destruct cov as [c|]; [|congruence]. cbn [option_map bind fst snd]. rewrite HX.
    rewrite (renorm t p q Hp Hq Ht). cbn [bind]. unfold check_mu, check_cov.
    rewrite (proj1 (Hmu m eq_refl)), Nat.eqb_refl. cbn [bind]. rewrite (proj1 (Hcov c eq_refl)), ?Nat.eqb_refl. cbn [negb bind].
    destruct N as [|N']; [lia|]. rewrite NM, FM, FC. cbn [opt_all]. rewrite (finite_all X FX). cbn [andb].
    f_equal. f_equal. f_equal. destruct Hp as [Hp _]. destruct p as [sh at_]. cbn in *. subst sh. f_equal. apply functional_extensionality. intros k. apply scale_one.
  - destruct probs; [destruct T; contradiction|]. destruct T; [contradiction|]. cbn [option_map bind snd].
    destruct mu as [m|]; destruct cov as [c|]; cbn [option_map bind snd check_mu check_cov]; try (destruct Hsome; congruence).
    + rewrite (proj1 (Hmu m eq_refl)), (proj1 (Hcov c eq_refl)), ?Nat.eqb_refl. cbn [negb bind].
      destruct N as [|N']; [lia|]. rewrite NM, FM, FC. reflexivity.
    + rewrite (proj1 (Hmu m eq_refl)). destruct N as [|N']; [lia|]. rewrite NM, FM. reflexivity.
    + rewrite (proj1 (Hcov c eq_refl)), Nat.eqb_refl. cbn [negb bind]. destruct N as [|N']; [lia|]. rewrite NM, FC. reflexivity.
Qed.

(** *** After writes *)
Lemma renew_dist s s' i sd : new_dist s i = Ok sd -> same_shapes s s' -> finite_inputs s' i ->
  make_dist (renewed s' i (view s sd)) = Ok (view s' sd).
Proof.
  intros H Hsh (F1 & F2 & F3). pose proof (view_new _ _ _ H) as Hd. pose proof (make_dist_valid _ _ Hd) as V.
  unfold new_dist in H. apply bind_ok in H as (d & Hd' & H). rewrite Hd in Hd'. injection Hd' as <-.
  destruct sd as [N T dm dc ds dp dn]. unfold renewed.
  assert (X : sd_mu (mkSD N T dm dc ds dp dn) = keep (r_mu i) (d_mu (view s (mkSD N T dm dc ds dp dn))) /\
              sd_cov (mkSD N T dm dc ds dp dn) = keep (r_cov i) (d_cov (view s (mkSD N T dm dc ds dp dn))) /\
              sd_scen (mkSD N T dm dc ds dp dn) = keep (r_scen i) (d_scen (view s (mkSD N T dm dc ds dp dn)))).
  { pose proof (f_equal (fun r => match r with Ok d => sd_mu d | Err _ => None end) H) as E1.
    pose proof (f_equal (fun r => match r with Ok d => sd_cov d | Err _ => None end) H) as E2.
    pose proof (f_equal (fun r => match r with Ok d => sd_scen d | Err _ => None end) H) as E3.
    repeat split; symmetry; assumption. }
  clear H. destruct X as (Xm & Xc & Xs). destruct V as [VN Vn Vm Vc Vo Vs].
  unfold view in *. cbn [sd_N sd_T sd_mu sd_cov sd_scen sd_probs sd_names d_N d_T d_mu d_cov d_scen d_probs d_names] in *.
  set (mu' := or_else (contents s' (r_mu i)) (option_map (fun x => flat (fetch s x)) dm)).
  set (cov' := or_else (contents s' (r_cov i)) (option_map (fetch s) dc)).
  assert (Emu : option_map (fun x => flat (fetch s' x)) dm = option_map flat mu').
  { subst mu'. rewrite Xm. destruct (r_mu i) as [[l x]|]; unfold keep; cbn; [reflexivity|].
    destruct dm as [y|]; cbn; [|reflexivity]. rewrite !flat_flat. reflexivity. }
  assert (Ecov : option_map (fetch s') dc = cov').
  { subst cov'. rewrite Xc. destruct (r_cov i) as [[l x]|]; unfold keep; cbn; [reflexivity|].
    destruct dc as [y|]; reflexivity. }
  assert (Esc : option_map (fetch s') ds = contents s' (r_scen i)).
  { rewrite Xs. destruct (r_scen i) as [[l x]|] eqn:E; unfold keep; cbn; [reflexivity|].
    destruct (make_dist_inv _ _ Hd) as (m0 & c0 & F). pose proof (df_scen _ _ _ _ F) as Z. cbn in Z. rewrite E in Z. cbn in Z. rewrite Z. reflexivity. }
  rewrite Emu, Ecov, Esc.
  assert (Nm : mu' <> None <-> dm <> None).
  { subst mu'. rewrite Xm. destruct (r_mu i) as [[l x]|]; cbn; [split; discriminate|]. destruct dm; cbn; split; congruence. }
  assert (Nc : cov' <> None <-> dc <> None).
  { subst cov'. rewrite Xc. destruct (r_cov i) as [[l x]|]; cbn; [split; discriminate|]. destruct dc; cbn; split; congruence. }
  apply make_dist_explicit; auto.
  - intros m Em. subst mu'. destruct (r_mu i) as [[l x]|]; cbn in Em.
    + injection Em as <-. split; [|apply (F1 _ eq_refl)]. rewrite (fetch_size s s' x Hsh). rewrite Xm in Vm. cbn in Vm.
      destruct (Vm _ eq_refl) as (f & Hf & _). cbn in Hf. injection Hf. auto.
    + destruct dm as [y|]; [|discriminate]. cbn in Em. injection Em as <-. destruct (Vm _ eq_refl) as (f & Hf & Hf'). split.
      * rewrite (size1 _ N Hf). reflexivity.
      * exists f. split; [reflexivity|exact Hf'].
  - intros c Ec. subst cov'. destruct (r_cov i) as [[l x]|]; cbn in Ec.
    + injection Ec as <-. split; [|apply (F2 _ eq_refl)]. rewrite (fetch_shape s s' x Hsh). rewrite Xc in Vc. cbn in Vc.
      destruct (Vc _ eq_refl) as (f & Hf & _). exact Hf.
    + destruct dc as [y|]; [|discriminate]. cbn in Ec. injection Ec as <-. destruct (Vc _ eq_refl) as (f & Hf & Hf'). split; [exact Hf|].
      exists f. split; [reflexivity|exact Hf'].
  - rewrite Nm, Nc. destruct Vo as [Vo|Vo]; [left|right]; intros E; apply Vo; rewrite E; reflexivity.
  - destruct (r_scen i) as [[l x]|]; cbn [contents option_map snd].
    + rewrite Xs in Vs. cbn in Vs. destruct dp as [p|]; [|destruct T; contradiction]. destruct T as [t|]; [|contradiction].
      destruct Vs as (V1 & V2 & V3 & V4 & V5). split; [exact V1|]. split; [rewrite (fetch_shape s s' x Hsh); destruct V2 as (f & Hf & _); exact Hf|].
      split; [apply (F3 _ eq_refl)|]. split; [apply Nm; intros E; apply V3; rewrite E; reflexivity|].
      split; [apply Nc; intros E; apply V4; rewrite E; reflexivity|exact V5].
    + cbn in Esc. destruct ds as [y|]; [discriminate|]. cbn in Vs. exact Vs.
Qed.

Lemma reals_length s s' x : same_shapes s s' -> List.length (reals (fetch s' x)) = List.length (reals (fetch s x)).
Proof. intros H. unfold reals. rewrite !map_length, !seq_length. apply fetch_size. exact H. Qed.

Lemma renew_wrapper s s' i arg k lo tot bds w : new_wrapper s i arg k lo tot bds = Ok w -> same_shapes s s' ->
  make_wrapper (view s' (sw_dist w)) arg (option_map (read_costs s') k) lo tot bds = Ok (current s' w).
Proof.
  intros H Hsh. destruct (new_wrapper_inv _ _ _ _ _ _ _ _ H) as (Hd & Hv & Hk & Hw).
  unfold make_wrapper in *. apply bind_ok in Hw as ([m ws] & Hm & Hw). apply bind_ok in Hw as ([[iw mic] pc] & Hc & Hw).
  unfold view at 1. cbn [d_N]. unfold view in Hm. cbn [d_N] in Hm. rewrite Hm. cbn [bind].
  injection Hw as Em _ _ _. unfold current at 1. rewrite Hk. rewrite Em.
  assert (X : apply_costs (sd_N (sw_dist w)) (option_map (read_costs s') k) =
    Ok (option_map k_iw (option_map (read_costs s') k), match option_map (read_costs s') k with Some k => k_mic k | None => None end,
        match option_map (read_costs s') k with Some k => k_pc k | None => None end)).
  { unfold apply_costs in *. unfold view in Hc. cbn [d_N] in Hc. destruct k as [k|]; cbn [option_map] in *; [|reflexivity].
    match type of Hc with (if ?b then _ else _) = _ => destruct b eqn:B; [|discriminate] end.
    assert (B' : (Nat.eqb (List.length (k_iw (read_costs s' k))) (sd_N (sw_dist w)) && has_len (sd_N (sw_dist w)) (k_mic (read_costs s' k)) && has_len (sd_N (sw_dist w)) (k_pc (read_costs s' k)))%bool = true).
    { rewrite <- B. unfold read_costs. cbn [k_iw k_mic k_pc]. rewrite (reals_length s s' _ Hsh). f_equal; [f_equal|].
      - destruct (kr_mic k); cbn; [rewrite (reals_length s s' _ Hsh); reflexivity|reflexivity].
      - destruct (kr_pc k); cbn; [rewrite (reals_length s s' _ Hsh); reflexivity|reflexivity]. }
    rewrite B'. reflexivity. }
  unfold view. cbn [d_N]. rewrite X. cbn [bind]. reflexivity.
Qed.

Lemma current_constructed s s' i arg k lo tot bds w : new_wrapper s i arg k lo tot bds = Ok w -> same_shapes s s' -> finite_inputs s' i ->
  constructed (current s' w) (asked arg lo tot bds).
Proof.
  intros H Hsh HF. destruct (new_wrapper_inv _ _ _ _ _ _ _ _ H) as (Hd & _). 
  exact (by_init _ _ _ _ _ _ _ _ (renew_dist _ _ _ _ Hd Hsh HF) (renew_wrapper _ _ _ _ _ _ _ _ _ H Hsh)).
Qed.

(** *** Reading unchanged arrays *)
Lemma fetch_same s s' x : (forall l, at_address l x -> s' l = s l) -> fetch s' x = fetch s x.
Proof. intros H. destruct x; cbn; [reflexivity|apply H; reflexivity]. Qed.
Lemma holds_some l x : at_address l x -> holds_at l (Some x).
Proof. intros H. exists x. auto. Qed.
Lemma fetch_opt_same s s' o : (forall l, holds_at l o -> s' l = s l) -> option_map (fetch s') o = option_map (fetch s) o.
Proof. intros H. destruct o as [x|]; cbn; [|reflexivity]. f_equal. apply fetch_same. intros l A. apply H. apply holds_some. exact A. Qed.
Lemma read_costs_same s s' k : (forall l, cost_array k l -> s' l = s l) -> option_map (read_costs s') k = option_map (read_costs s) k.
Proof.
  intros H. destruct k as [k|]; cbn; [|reflexivity]. f_equal. unfold read_costs.
  rewrite (fetch_same s s' (kr_iw k)) by (intros l A; apply H; exists k; auto). f_equal.
  - destruct (kr_mic k) as [x|] eqn:E; cbn; [|reflexivity]. f_equal. f_equal. apply fetch_same. intros l A. apply H. exists k. rewrite E. split; [reflexivity|]. right. left. apply holds_some. exact A.
  - destruct (kr_pc k) as [x|] eqn:E; cbn; [|reflexivity]. f_equal. f_equal. apply fetch_same. intros l A. apply H. exists k. rewrite E. split; [reflexivity|]. right. right. apply holds_some. exact A.
Qed.
Lemma keep_same {L} s s' (g : option (L * arr)) m : (forall l, holds_at l (option_map snd g) -> s' l = s l) ->
  option_map (fetch s') (keep g m) = option_map (fetch s) (keep g m).
Proof.
  intros H. apply fetch_opt_same. intros l (x & E & A). destruct g as [[a y]|]; cbn in *.
  - apply H. exists y. injection E as <-. auto.
  - destruct m; cbn in E; [|discriminate]. injection E as <-. discriminate A.
Qed.
Lemma current_same s s0 s' i arg k lo tot bds w : new_wrapper s0 i arg k lo tot bds = Ok w -> (forall l, watched i k l -> s' l = s l) -> current s' w = current s w.
Proof.
  intros H W. destruct (new_wrapper_inv _ _ _ _ _ _ _ _ H) as (Hd & _ & Hk & _).
  unfold new_dist in Hd. apply bind_ok in Hd as (d & _ & Hd). injection Hd as E.
  unfold current. rewrite Hk. rewrite (read_costs_same s s' k) by (intros l A; apply W; unfold watched; auto).
  f_equal. rewrite <- E. unfold view. cbn [sd_N sd_T sd_mu sd_cov sd_scen sd_probs sd_names]. f_equal.
  - pose proof (keep_same s s' (r_mu i) (d_mu d) ltac:(intros l A; apply W; unfold watched; auto)) as Z.
    destruct (keep (r_mu i) (d_mu d)); cbn in *; [|reflexivity]. injection Z as ->. reflexivity.
  - apply keep_same. intros l A. apply W. unfold watched. auto.
  - apply keep_same. intros l A. apply W. unfold watched. auto.
Qed.
Lemma ask_same E s s0 s' i arg k lo tot bds w q : new_wrapper s0 i arg k lo tot bds = Ok w ->
  (forall l, watched i k l \/ cost_array (asked_with q) l -> s' l = s l) -> ask E s' w q = ask E s w q.
Proof.
  intros H W. unfold ask. rewrite (current_same s s0 s' _ _ _ _ _ _ _ H) by (intros l A; apply W; auto).
  assert (Z := fun k0 (e : asked_with q = k0) => read_costs_same s s' k0 ltac:(intros l A; apply W; right; rewrite e; exact A)).
  destruct q; cbn [asked_with] in Z; rewrite (Z _ eq_refl); reflexivity.
Qed.
