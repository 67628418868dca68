From Coq Require Import Lia Lra ZArith String.
From Verif Require Import RBase QpBase ConsModel DistModel OptSpec DistSpec DistProofs ProjModel ProjSpec.
Open Scope R_scope.
Open Scope list_scope.

Lemma count_prefix (P : nat -> bool) T : (forall i j, (i <= j < T)%nat -> P j = true -> P i = true) ->
  let c := List.length (filter P (seq 0 T)) in
  (c <= T)%nat /\ (forall k, (k < c)%nat -> P k = true) /\ (forall k, (c <= k < T)%nat -> P k = false).
Proof.
  induction T as [|T IH]; intros HP; [simpl; repeat split; intros; lia|].
  destruct IH as (H1 & H2 & H3). { intros i j Hij. apply HP. lia. }
  cbv zeta. rewrite seq_S, filter_app, app_length. simpl. set (c := List.length (filter P (seq 0 T))) in *.
  destruct (P T) eqn:E; simpl.
  - assert (c = T). { destruct (Nat.eq_dec c T) as [|N]; [assumption|]. exfalso.
      pose proof (H3 (T - 1)%nat ltac:(lia)) as F. rewrite (HP (T - 1)%nat T) in F; [discriminate|lia|exact E]. }
    split; [lia|]. split; [|intros; lia]. intros k Hk. apply (HP k T); [lia|exact E].
  - split; [lia|]. split; [intros; apply H2; lia|]. intros k Hk. destruct (Nat.eq_dec k T) as [->|]; [exact E|apply H3; lia].
Qed.

Lemma sumn_mono_idx w a b : (a <= b)%nat -> (forall k, (k < b)%nat -> 0 <= w k) -> sumn a w <= sumn b w.
Proof.
  intros Hab Hw. induction Hab as [|b Hab IH]; [lra|]. simpl. pose proof (Hw b ltac:(lia)). specialize (IH ltac:(intros; apply Hw; lia)). lra.
Qed.

Lemma div_le_iff a b c : 0 < c -> (a / c <= b <-> a <= b * c).
Proof.
  intros Hc. split; intros H.
  - apply (Rmult_le_compat_r c) in H; [|lra]. replace (a / c * c) with a in H by (field; lra). exact H.
  - apply Rmult_le_reg_r with c; [exact Hc|]. replace (a / c * c) with a by (field; lra). exact H.
Qed.

Lemma choice_index_draws T w u : (0 < T)%nat -> (forall k, (k < T)%nat -> 0 <= w k) -> 0 < sumn T w -> 0 <= u < 1 ->
  draws T w u (choice_index T w u).
Proof.
  intros HT Hw HW Hu. unfold choice_index.
  set (P := fun k => Rleb (cdf T w k) u).
  assert (HP : forall k, P k = true <-> sumn (S k) w <= u * sumn T w).
  { intros k. unfold P. rewrite Rleb_true. unfold cdf. apply div_le_iff. exact HW. }
  destruct (count_prefix P T) as (H1 & H2 & H3).
  { intros i j Hij Hj. apply HP. apply HP in Hj. eapply Rle_trans; [|exact Hj]. apply sumn_mono_idx; [lia|]. intros; apply Hw; lia. }
  set (c := List.length (filter P (seq 0 T))) in *.
  assert (HL : P (T - 1)%nat = false).
  { destruct (P (T - 1)%nat) eqn:E; [|reflexivity]. apply HP in E. replace (S (T - 1)) with T in E by lia. exfalso. nra. }
  assert (Hc : (c < T)%nat).
  { destruct (Nat.eq_dec c T) as [E|]; [|lia]. rewrite (H2 (T - 1)%nat) in HL by lia. discriminate. }
  split; [exact Hc|]. split.
  - destruct c as [|c']; [simpl; apply Rmult_le_pos; lra|]. apply HP. apply H2. lia.
  - pose proof (H3 c ltac:(lia)) as E. apply Rnot_le_lt. intros F. assert (P c = true) by (apply HP; exact F). congruence.
Qed.

Lemma draws_unique T w u k k' : (forall i, (i < T)%nat -> 0 <= w i) -> draws T w u k -> draws T w u k' -> k = k'.
Proof.
  intros Hw [Hk [H1 H2]] [Hk' [H1' H2']].
  destruct (Nat.lt_trichotomy k k') as [L|[E|L]]; [exfalso|exact E|exfalso].
  - pose proof (sumn_mono_idx w (S k) k' L ltac:(intros; apply Hw; lia)) as M. simpl in M. lra.
  - pose proof (sumn_mono_idx w (S k') k L ltac:(intros; apply Hw; lia)) as M. simpl in M. lra.
Qed.

Lemma draws_pos T w u k : draws T w u k -> 0 < w k.
Proof. intros [_ H]. lra. Qed.

Lemma draws_scale T w s u k : 0 < s -> (draws T (fun i => w i / s) u k <-> draws T w u k).
Proof.
  intros Hs. unfold draws. rewrite !sumn_div.
  assert (E : forall a b, a / s <= b / s <-> a <= b).
  { intros a b. rewrite (div_le_iff a (b / s) s Hs). replace (b / s * s) with b by (field; lra). tauto. }
  assert (E2 : forall a b, a / s < b / s <-> a < b).
  { intros a b. split; intros H; apply Rnot_le_lt; intros F; [apply (proj2 (E _ _)) in F|apply (proj1 (E _ _)) in F]; lra. }
  replace (u * (sumn T w / s)) with (u * sumn T w / s) by (field; lra).
  replace (sumn k w / s + w k / s) with ((sumn k w + w k) / s) by (field; lra).
  rewrite E, E2. tauto.
Qed.
Lemma draws_ext T w w' u k : (forall i, (i < T)%nat -> w i = w' i) -> draws T w u k -> draws T w' u k.
Proof.
  intros H [Hk HD]. split; [exact Hk|]. rewrite <- (sumn_ext k w w') by (intros; apply H; lia).
  rewrite <- (sumn_ext T w w') by (intros; apply H; lia). rewrite <- (H k Hk). exact HD.
Qed.

(** ** Weights *)
Lemma existsb_neg w T : existsb (fun k => Rltb (w k) 0) (seq 0 T) = false <-> forall k, (k < T)%nat -> 0 <= w k.
Proof.
  split.
  - intros H k Hk. apply Rnot_lt_le. intros L. assert (existsb (fun k => Rltb (w k) 0) (seq 0 T) = true); [|congruence].
    apply existsb_exists. exists k. split; [apply in_seq; lia|apply Rltb_true; exact L].
  - intros H. destruct (existsb _ _) eqn:E; [|reflexivity]. apply existsb_exists in E. destruct E as (k & Hk & E). apply in_seq in Hk. apply Rltb_true in E. specialize (H k ltac:(lia)). lra.
Qed.

Lemma rng_choice_inv T np w u idx : rng_choice T np w u = Ok idx ->
  (0 < T)%nat /\ np = T /\ (forall k, (k < T)%nat -> 0 <= w k) /\ Rabs (sumn T w - 1) <= choice_tol /\ idx = fun s k => choice_index T w (u s k).
Proof.
  unfold rng_choice. destruct (Nat.eqb_spec T 0) as [|HT]; [discriminate|]. destruct (Nat.eqb_spec np T) as [E|]; [|discriminate].
  simpl. destruct (existsb _ _) eqn:EN; [discriminate|]. destruct (Rltb_spec choice_tol (Rabs (sumn T w - 1))) as [|L]; [discriminate|].
  intros H. injection H as <-. split; [lia|]. split; [exact E|]. split; [apply existsb_neg; exact EN|]. split; [lra|reflexivity].
Qed.
Lemma rng_choice_ok T w u : (0 < T)%nat -> (forall k, (k < T)%nat -> 0 <= w k) -> Rabs (sumn T w - 1) <= choice_tol ->
  rng_choice T T w u = Ok (fun s k => choice_index T w (u s k)).
Proof.
  intros HT Hw HS. unfold rng_choice. destruct (Nat.eqb_spec T 0) as [|_]; [lia|]. rewrite Nat.eqb_refl. simpl.
  rewrite (proj2 (existsb_neg w T) Hw). destruct (Rltb_spec choice_tol (Rabs (sumn T w - 1))) as [|L]; [lra|reflexivity].
Qed.
Lemma choice_tol_small : 0 < choice_tol < 1 / 10000000.
Proof. unfold choice_tol. split; [apply Rinv_0_lt_compat, pow_lt; lra|]. simpl. lra. Qed.

Lemma nd_sum_fin a s : nd_sum a = Fin s -> (forall k, (k < nd_size a)%nat -> nd_at a k = Fin (as_vec a k)) /\ s = sumn (nd_size a) (as_vec a).
Proof.
  unfold nd_sum. change (sumn (nd_size a) (as_vec a)) with (sumn (nd_size a) (fun i => as_vec a (0 + i)%nat)). rewrite <- (rsum_seq (as_vec a) (nd_size a) 0).
  assert (G : forall m b s, fold_right p_add (Fin 0) (map (nd_at a) (seq b m)) = Fin s ->
    (forall k, (b <= k < b + m)%nat -> nd_at a k = Fin (as_vec a k)) /\ s = rsum (map (as_vec a) (seq b m))).
  { induction m as [|m IH]; intros b r H; simpl in H.
    - injection H as <-. split; [intros; lia|reflexivity].
    - destruct (nd_at a b) as [x| | |] eqn:Eb; simpl in H;
      destruct (fold_right p_add (Fin 0) (map (nd_at a) (seq (S b) m))) as [y| | |] eqn:Ey; try discriminate.
      destruct (IH (S b) y Ey) as [I1 I2]. injection H as <-. split.
      + intros k Hk. destruct (Nat.eq_dec k b) as [->|]; [unfold as_vec; rewrite Eb; reflexivity|apply I1; lia].
      + simpl. rewrite I2. unfold as_vec at 2. rewrite Eb. reflexivity. }
  intros H. destruct (G _ _ _ H) as [G1 G2]. split; [intros; apply G1; lia|exact G2].
Qed.
Lemma nd_sum_real a : (forall k, (k < nd_size a)%nat -> nd_at a k = Fin (as_vec a k)) -> nd_sum a = Fin (sumn (nd_size a) (as_vec a)).
Proof.
  intros H. unfold nd_sum. change (sumn (nd_size a) (as_vec a)) with (sumn (nd_size a) (fun i => as_vec a (0 + i)%nat)). rewrite <- (rsum_seq (as_vec a) (nd_size a) 0).
  assert (G : forall m b, (b + m <= nd_size a)%nat -> fold_right p_add (Fin 0) (map (nd_at a) (seq b m)) = Fin (rsum (map (as_vec a) (seq b m)))).
  { induction m as [|m IH]; intros b Hb; [reflexivity|]. simpl. rewrite (IH (S b)) by lia. rewrite H by lia. reflexivity. }
  apply G. lia.
Qed.

(** Weights used by the projection: those of the caller up to a positive factor. *)
Lemma proj_weights_inv T p w : proj_weights T p = Ok w -> (0 < T)%nat \/ p <> None ->
  exists s, 0 < s /\ (forall k, (k < T)%nat -> w k = raw_weight p k / s) /\ (forall k, (k < T)%nat -> 0 <= raw_weight p k) /\ 0 < sumn T (raw_weight p) /\
   (p = None -> s = INR T) /\
   (forall a, p = Some a -> nd_size a = T /\ (forall k, (k < T)%nat -> nd_at a k = Fin (as_vec a k)) /\
       ((risclose (sumn T (as_vec a)) 1 = true /\ s = 1) \/ (risclose (sumn T (as_vec a)) 1 = false /\ s = sumn T (as_vec a)))).
Proof.
  intros H HT. destruct p as [a|]; simpl in H.
  - destruct (Nat.eqb_spec (nd_size a) T) as [E|]; [|discriminate]. simpl in H.
    destruct (nd_any p_lt0 a) eqn:EN; [discriminate|]. destruct (nd_sum a) as [s| | |] eqn:ES; try discriminate.
    destruct (Rleb_spec s 0) as [|Hs]; [discriminate|]. apply nd_sum_fin in ES. destruct ES as [EF ES]. rewrite E in *.
    assert (HN : forall k, (k < T)%nat -> 0 <= as_vec a k).
    { intros k Hk. apply Rnot_lt_le. intros L. assert (nd_any p_lt0 a = true); [|congruence]. apply existsb_exists. exists k. split; [apply in_seq; lia|].
      rewrite EF by exact Hk. simpl. apply Rltb_true. exact L. }
    exists (if risclose s 1 then 1 else s). simpl raw_weight.
    split; [destruct (risclose s 1); lra|]. split. { intros k Hk. injection H as <-. destruct (risclose s 1); [field|reflexivity]. }
    split; [exact HN|]. split; [rewrite <- ES; lra|]. split; [discriminate|]. intros a' Ea. injection Ea as <-. split; [exact E|]. split; [exact EF|].
    rewrite <- ES. destruct (risclose s 1); [left|right]; auto.
  - destruct (Nat.eqb_spec T 0) as [|HT0]; [discriminate|]. injection H as <-. exists (INR T). simpl.
    assert (0 < INR T) by (apply lt_0_INR; lia).
    split; [assumption|]. split; [reflexivity|]. split; [intros; lra|]. split; [rewrite sumn_const; lra|]. split; [auto|discriminate].
Qed.

Lemma raw_draws T p w s u k : 0 < s -> (forall i, (i < T)%nat -> w i = raw_weight p i / s) -> draws T w u k -> draws T (raw_weight p) u k.
Proof. intros Hs Hw H. apply (draws_scale T (raw_weight p) s u k Hs). revert H. apply draws_ext. exact Hw. Qed.

(** Everything the projection does after its checks. *)
Record proj_facts (kd : kind) (X : rnd) (hz : hor) (p : option nd) (nsim : Z) (u : nat -> nat -> R) (T : nat) (rest : list nat) (idx : nat -> nat -> nat) : Prop := {
  pf_h : (0 < hor_int hz)%Z; pf_ns : (0 < nsim)%Z;
  pf_shape : r_shape X = T :: rest; pf_rest : rest = [] \/ exists n, rest = [n];
  pf_T : (0 < T)%nat;
  pf_idx : uniform_draws u -> forall s t, draws T (raw_weight p) (u s t) (idx s t) }.

Lemma project_inv kd X hz p nsim rp u out : project_scenarios kd X hz p nsim rp u = Ok out ->
  exists T rest idx o, proj_facts kd X hz p nsim u T rest idx /\
    let n := fold_right Nat.mul 1%nat rest in
    let sums := scenario_sums n (Z.to_nat nsim) (Z.to_nat (hor_int hz)) rest X idx in
    match rp with None => o = sums | Some f => f sums = Ok o end /\ wrap kd (Z.to_nat nsim) o = Ok out.
Proof.
  intros H. unfold project_scenarios in H.
  destruct (Z.leb_spec (hor_int hz) 0) as [|Hh]; [discriminate|]. destruct (Z.leb_spec nsim 0) as [|Hn]; [discriminate|].
  assert (HS : exists T, (r_shape X = [T] \/ exists n, r_shape X = [T; n]) /\
    (let rest := tl (r_shape X) in let n := fold_right Nat.mul 1%nat rest in
     let* w := proj_weights T p in let* idx := rng_choice T T w u in
     let sums := scenario_sums n (Z.to_nat nsim) (Z.to_nat (hor_int hz)) rest X idx in
     let* out := match rp with None => Ok sums | Some f => f sums end in wrap kd (Z.to_nat nsim) out) = Ok out).
  { destruct (r_shape X) as [|T [|n [|q l]]]; try discriminate; exists T; (split; [eauto|exact H]). }
  clear H. destruct HS as (T & Hsh & H). cbv zeta in H.
  apply bind_ok in H. destruct H as (w & Ew & H). apply bind_ok in H. destruct H as (idx & Ei & H). apply bind_ok in H. destruct H as (o & Eo & H).
  apply rng_choice_inv in Ei. destruct Ei as (HT & _ & Hw & Hsum & ->).
  destruct (proj_weights_inv T p w Ew (or_introl HT)) as (s & Hs & Hws & Hraw & Htot & _).
  exists T, (tl (r_shape X)), (fun s k => choice_index T w (u s k)), o. split; [|split; [|exact H]].
  - constructor; auto.
    + destruct Hsh as [->|(n & ->)]; reflexivity.
    + destruct Hsh as [->|(n & ->)]; simpl; eauto.
    + intros Hu a b. apply (raw_draws T p w s); auto. apply choice_index_draws; auto.
      rewrite (sumn_ext T w (fun i => raw_weight p i / s)) by exact Hws. rewrite sumn_div. apply Rdiv_lt_0_compat; assumption.
  - destruct rp; [exact Eo|]. injection Eo as <-. reflexivity.
Qed.

(** Acceptance. *)
Lemma risclose1 s : risclose s 1 = true <-> Rabs (s - 1) <= 1 / 100000000 + 1 / 100000.
Proof. unfold risclose. rewrite Rleb_true, Rabs_R1, Rmult_1_r. tauto. Qed.

Lemma weights_choice T p : (0 < T)%nat ->
  ((exists w, proj_weights T p = Ok w /\ forall u, exists idx, rng_choice T T w u = Ok idx) <-> drawable T p) /\
  ((exists w u idx, proj_weights T p = Ok w /\ rng_choice T T w u = Ok idx) -> drawable T p).
Proof.
  intros HT. pose proof choice_tol_small as Ht.
  assert (A : (exists w u idx, proj_weights T p = Ok w /\ rng_choice T T w u = Ok idx) -> drawable T p).
  { intros (w & u & idx & Ew & Ei). apply rng_choice_inv in Ei. destruct Ei as (_ & _ & Hw & HS & _).
    destruct (proj_weights_inv T p w Ew (or_introl HT)) as (s & Hs & Hws & Hraw & Htot & _ & HP).
    destruct p as [a|]; [|exact I]. simpl in *. destruct (HP a eq_refl) as (Ez & EF & HC). split; [exact Ez|]. split; [auto|]. split; [exact Htot|].
    rewrite (sumn_ext T w (fun i => as_vec a i / s)) in HS by exact Hws. rewrite sumn_div in HS.
    destruct HC as [[_ ->]|[HC ->]].
    - left. replace (sumn T (as_vec a) / 1) with (sumn T (as_vec a)) in HS by field. exact HS.
    - right. apply Rnot_le_lt. intros F. apply risclose1 in F. congruence. }
  split; [|exact A]. split.
  - intros (w & Ew & Ei). destruct (Ei (fun _ _ => 0)) as (idx & E). apply A. eauto.
  - intros HD. destruct p as [a|].
    + destruct HD as (Ez & HF & Htot & HC).
      assert (EN : nd_any p_lt0 a = false).
      { destruct (nd_any p_lt0 a) eqn:E; [|reflexivity]. apply existsb_exists in E. destruct E as (k & Hk & E). apply in_seq in Hk. destruct (HF k) as [HF1 HF2]; [lia|]. rewrite HF1 in E. simpl in E. apply Rltb_true in E. lra. }
      assert (ES : nd_sum a = Fin (sumn T (as_vec a))) by (rewrite nd_sum_real by (intros; apply HF; lia); rewrite Ez; reflexivity).
      assert (EW : proj_weights T (Some a) = Ok (if risclose (sumn T (as_vec a)) 1 then as_vec a else fun k => as_vec a k / sumn T (as_vec a))).
      { simpl. rewrite Ez, Nat.eqb_refl. simpl. rewrite EN, ES. destruct (Rleb_spec (sumn T (as_vec a)) 0); [lra|reflexivity]. }
      eexists. split; [exact EW|]. intros u. eexists. apply rng_choice_ok; [exact HT| |].
      * intros k Hk. destruct (HF k Hk) as [_ HF2]. destruct (risclose _ _); [exact HF2|]. apply Rmult_le_pos; [exact HF2|]. left. apply Rinv_0_lt_compat. exact Htot.
      * destruct (risclose (sumn T (as_vec a)) 1) eqn:ER.
        -- apply risclose1 in ER. destruct HC as [HC|HC]; [exact HC|lra].
        -- rewrite sumn_div. unfold Rdiv. rewrite Rinv_r by lra. rewrite Rminus_diag_eq by reflexivity. rewrite Rabs_R0. lra.
    + simpl. destruct (Nat.eqb_spec T 0) as [|_]; [lia|]. eexists. split; [reflexivity|]. intros u. eexists. apply rng_choice_ok; [exact HT| |].
      * intros. apply Rmult_le_pos; [lra|]. left. apply Rinv_0_lt_compat, lt_0_INR. lia.
      * rewrite sumn_const. replace (INR T * (1 / INR T)) with 1 by (field; apply not_0_INR; lia). rewrite Rminus_diag_eq by reflexivity. rewrite Rabs_R0. lra.
Qed.
