From Coq Require Import String Classical_Prop.
From Verif Require Import RBase QpBase SortLib RiskModel RiskSpec RiskProofs ConsModel ConsSpec ConsProofs ConsProperties
  MomModel DistModel DistSpec DistProofs DistProofs2 DistProofs3 ConvModel OptModel OptSpec OptProofs OptProofs2 OptProofs3 OptProofs4 FrModel FrSpec FrProofs2 WrModel WrSpec.
Open Scope R_scope.
Open Scope list_scope.

Lemma vlist_to_list n v : vlist n v = to_list n v.
Proof. reflexivity. Qed.
Lemma wts_vlist n v i : (i < n)%nat -> wts (vlist n v) i = v i.
Proof. intros H. unfold wts, vlist. rewrite nth_map_seq by exact H. reflexivity. Qed.
Lemma to_list_wts n v : to_list n (wts (vlist n v)) = vlist n v.
Proof. unfold to_list, vlist. apply map_ext_in. intros i Hi. apply in_seq in Hi. fold (vlist n v). apply wts_vlist. lia. Qed.

(** * Matrices mean the constraints *)
Lemma map_fin_val row : forallb p_fin row = true <-> exists r, row = map Fin r.
Proof.
  induction row as [|a row IH]; simpl.
  - split; [exists []; reflexivity|reflexivity].
  - rewrite Bool.andb_true_iff, IH. split.
    + intros [Ha [r ->]]. destruct a; try discriminate. exists (r0 :: r). reflexivity.
    + intros [[|y r] E]; [discriminate|]. injection E as -> ->. split; [reflexivity|]. exists r. reflexivity.
Qed.
Lemma val_fin r : map val (map Fin r) = r.
Proof. induction r; simpl; [reflexivity|]. rewrite IHr. reflexivity. Qed.

Lemma rdot_dot n r x : List.length r = n -> rdot r (to_list n x) = dot n (of_list r) x.
Proof.
  intros H. rewrite (rdot_sumn r (to_list n x) n H (to_list_length n x)). apply sumn_ext. intros i Hi.
  unfold to_list. rewrite nth_map_seq by exact Hi. reflexivity.
Qed.

Lemma row_bridge (R_ : R -> R -> Prop) bad n row rhs x : List.length row = n -> ~ R_ 0 bad ->
  (R_ (dot n (fst (row_of bad row rhs)) x) (snd (row_of bad row rhs)) <-> row_rel R_ row rhs (to_list n x)).
Proof.
  intros Hn Hb. unfold row_of. destruct (forallb p_fin row) eqn:E; cbn [fst snd].
  - apply map_fin_val in E as [r ->]. rewrite map_length in Hn. rewrite val_fin. unfold row_rel. split.
    + intros H. exists r. split; [reflexivity|]. rewrite (rdot_dot n) by exact Hn. exact H.
    + intros (r' & E & H). apply (f_equal (map val)) in E. rewrite !val_fin in E. subst r'. rewrite (rdot_dot n) in H by exact Hn. exact H.
  - rewrite dot_zrow. split; [intros H; contradiction|]. intros (r & -> & _).
    assert (K : forallb p_fin (map Fin r) = true) by (apply map_fin_val; eauto). congruence.
Qed.

Lemma block_bridge (R_ : R -> R -> Prop) bad n M v x : shaped n M v -> ~ R_ 0 bad ->
  ((forall g h, In (g, h) (opt_rows (rows_of bad M v)) -> R_ (dot n g x) h) <-> block_holds R_ M v (to_list n x)).
Proof.
  intros Hs Hb. unfold rows_of, block_holds. destruct M as [M|], v as [v|]; simpl in Hs; try contradiction; [|simpl; split; [auto|intros _ g h []]].
  destruct Hs as (_ & HL & Hrow). cbn [opt_rows]. revert v HL. induction M as [|row M IH]; intros [|rhs v] HL; try discriminate HL.
  - simpl. split; [constructor|intros _ g h []].
  - simpl. assert (Hn : List.length row = n) by (apply Hrow; left; reflexivity).
    assert (IH' := IH (fun r Hr => Hrow r (or_intror Hr)) v (eq_add_S _ _ HL)). split.
    + intros H. constructor.
      * apply (row_bridge R_ bad n row rhs x Hn Hb). apply H. left. destruct (row_of bad row rhs); reflexivity.
      * apply IH'. intros g h Hg. apply H. right. exact Hg.
    + intros H g h [E|Hg].
      * inversion H; subst. apply (row_bridge R_ bad (List.length row) row rhs x eq_refl Hb) in H3. rewrite E in H3. exact H3.
      * inversion H; subst. apply IH'; assumption.
Qed.

Lemma mats_bridge c N m ws x : to_matrices c (Z.of_nat N) = Ok (m, ws) ->
  (constrained N (rows_G m) (rows_A m) x <-> allowed c N x).
Proof.
  intros H. destruct (constraint_matrix_shapes _ _ _ _ H) as [S1 S2]. rewrite Nat2Z.id in S1, S2.
  pose proof (constraint_matrices_mean_the_constraints _ _ _ _ H (to_list N x)) as K. rewrite Nat2Z.id in K.
  unfold allowed. rewrite <- (K (to_list_length N x)). unfold constrained, feasible, rows_G, rows_A.
  rewrite (block_bridge Rle (-1) N (m_G m) (m_h m) x S1) by lra.
  rewrite (block_bridge eq 1 N (m_A m) (m_b m) x S2) by lra. reflexivity.
Qed.

Lemma mats_vacuous c N m ws : to_matrices c (Z.of_nat N) = Ok (m, ws) -> m_G m = None -> m_A m = None -> vacuous c N.
Proof.
  intros H HG HA l Hl. destruct (constraint_matrix_shapes _ _ _ _ H) as [S1 S2].
  pose proof (constraint_matrices_mean_the_constraints _ _ _ _ H l) as K. rewrite Nat2Z.id in K. apply (K Hl).
  rewrite HG in S1. rewrite HA in S2. unfold feasible, block_holds. rewrite HG, HA. simpl in S1, S2.
  destruct (m_h m); [contradiction|]. destruct (m_b m); [contradiction|]. auto.
Qed.

(** * Wrappers *)
Lemma from_moments_inv eig log lmu kmu mu lcov r c cov arg k lo tot bds w :
  from_moments eig log lmu kmu mu lcov r c cov arg k lo tot bds = Ok w ->
  exists i d, make_dist i = Ok d /\ make_wrapper d arg k lo tot bds = Ok w.
Proof.
  unfold from_moments. destruct (negb _); [discriminate|]. intros H. apply bind_ok in H as (P & _ & H). apply bind_ok in H as ([mu' P'] & _ & H).
  apply bind_ok in H as (d & Hd & H). eauto.
Qed.

Record good_wrapper (w : wrapper) (c : constraints) : Prop := {
  gw_dist : valid_dist (w_dist w);
  gw_mats : exists ws, to_matrices c (Z.of_nat (assets w)) = Ok (w_mats w, ws);
  gw_iw : forall l, w_iw w = Some l -> List.length l = assets w;
  gw_mic : forall l, w_mic w = Some l -> List.length l = assets w;
  gw_pc : forall l, w_pc w = Some l -> List.length l = assets w }.

Lemma has_len_ok n o : has_len n o = true -> forall l, o = Some l -> List.length l = n.
Proof. unfold has_len. intros H l ->. apply Nat.eqb_eq. exact H. Qed.

Lemma make_wrapper_good d arg k lo tot bds w : valid_dist d -> make_wrapper d arg k lo tot bds = Ok w ->
  good_wrapper w (asked arg lo tot bds) /\ w_dist w = d /\ w_log w = false /\ w_unc w = None.
Proof.
  intros V H. unfold make_wrapper in H. apply bind_ok in H as ([m ws] & Hm & H). apply bind_ok in H as ([[iw mic] pc] & Hk & H).
  injection H as <-. cbn. split; [|auto].
  assert (K : (forall l, iw = Some l -> List.length l = d_N d) /\ (forall l, mic = Some l -> List.length l = d_N d) /\ (forall l, pc = Some l -> List.length l = d_N d)).
  { unfold apply_costs in Hk. destruct k as [k|]; [|injection Hk as <- <- <-; repeat split; discriminate].
    destruct (_ && _)%bool eqn:E; [|discriminate]. injection Hk as <- <- <-. apply Bool.andb_true_iff in E as [E E3]. apply Bool.andb_true_iff in E as [E1 E2].
    split; [|split; apply has_len_ok; assumption]. intros l El. injection El as <-. apply Nat.eqb_eq. exact E1. }
  destruct K as (K1 & K2 & K3). constructor; cbn; unfold assets; cbn; auto. exists ws. exact Hm.
Qed.

Lemma constructed_good w c : constructed w c -> good_wrapper w c.
Proof.
  intros [i d arg k lo tot bds w' Hd Hw|eig names n mu sigma s_mu h arg k lo tot bds w' H].
  - apply (make_wrapper_good d arg k lo tot bds w' (make_dist_valid i d Hd) Hw).
  - unfold from_robust_posterior in H. apply bind_ok in H as (w1 & H & E). injection E as <-.
    apply from_moments_inv in H as (i & d & Hd & Hw).
    destruct (make_wrapper_good d arg k lo tot bds w1 (make_dist_valid i d Hd) Hw) as [G _]. destruct G. constructor; assumption.
Qed.

(** The matrices a call uses mean the effective constraints, or the defaults when the wrapper's own are vacuous. *)
Lemma resolve_inv w c arg m : good_wrapper w c -> resolve_mats w arg = Ok m ->
  exists e ws, to_matrices e (Z.of_nat (assets w)) = Ok (m, ws) /\
    (e = effective c arg \/ (e = default_constraints /\ arg = CNone /\ vacuous c (assets w))).
Proof.
  intros G H. unfold resolve_mats in H. fold (assets w) in H. destruct arg as [|c'|d].
  - destruct (gw_mats w c G) as [ws Hc].
    assert (D : (m = w_mats w) \/ (m_G (w_mats w) = None /\ m_A (w_mats w) = None /\ exists ws', to_matrices default_constraints (Z.of_nat (assets w)) = Ok (m, ws'))).
    { destruct (m_G (w_mats w)); [left; congruence|]. destruct (m_A (w_mats w)); [left; congruence|].
      right. split; [reflexivity|]. split; [reflexivity|]. apply bind_ok in H as ([m' ws'] & Hm & H). injection H as <-. eauto. }
    destruct D as [-> |(E1 & E2 & ws' & Hm)].
    + exists c, ws. auto.
    + exists default_constraints, ws'. split; [exact Hm|]. right. split; [reflexivity|]. split; [reflexivity|]. eapply mats_vacuous; eauto.
  - apply bind_ok in H as ([m' ws'] & Hm & H). injection H as <-. exists c', ws'. auto.
  - apply bind_ok in H as ([m' ws'] & Hm & H). injection H as <-. exists (from_dict d), ws'. auto.
Qed.

Lemma resolve_allowed w c arg m x : good_wrapper w c -> resolve_mats w arg = Ok m ->
  constrained (assets w) (rows_G m) (rows_A m) x -> allowed (effective c arg) (assets w) x.
Proof.
  intros G H Hx. destruct (resolve_inv w c arg m G H) as (e & ws & Hm & [-> |(-> & -> & Hv)]).
  - apply (mats_bridge _ _ _ _ x Hm). exact Hx.
  - apply Hv. apply to_list_length.
Qed.

Lemma resolve_in_force w c arg m x : good_wrapper w c -> in_force c arg (assets w) -> resolve_mats w arg = Ok m ->
  (constrained (assets w) (rows_G m) (rows_A m) x <-> allowed (effective c arg) (assets w) x).
Proof.
  intros G F H. destruct (resolve_inv w c arg m G H) as (e & ws & Hm & [-> |(-> & Ha & Hv)]).
  - apply (mats_bridge _ _ _ _ x Hm).
  - exfalso. exact (F Ha Hv).
Qed.

(** When the resolution succeeds. *)
Lemma resolve_total w c arg : good_wrapper w c -> 
  (exists m, resolve_mats w arg = Ok m) <-> ConsSpec.well_formed (effective c arg) (Z.of_nat (assets w)).
Proof.
  intros G. destruct (gw_mats w c G) as [ws Hc].
  assert (Wc : ConsSpec.well_formed c (Z.of_nat (assets w))) by (apply constraints_accepted_iff_well_formed; eauto).
  assert (P : (0 < Z.of_nat (assets w))%Z) by apply Wc.
  unfold resolve_mats. fold (assets w). destruct arg as [|c'|d]; cbn [effective].
  - split; [intros _; exact Wc|intros _]. assert (D : exists r, to_matrices default_constraints (Z.of_nat (assets w)) = Ok r).
    { apply constraints_accepted_iff_well_formed. split; [exact P|]. cbn. split; [intros x E; injection E as <-; eexists; reflexivity|].
      split; [exact I|]. split; [intros e []|]. split; [intros e []|]. split; intros e []. }
    destruct D as [[m' ws'] D]. rewrite D. cbn [bind]. destruct (m_G (w_mats w)), (m_A (w_mats w)); eauto.
  - rewrite <- constraints_accepted_iff_well_formed. split.
    + intros [m H]. apply bind_ok in H as ([m' ws'] & Hm & _). eauto.
    + intros [[m' ws'] H]. rewrite H. cbn [bind]. eauto.
  - rewrite <- constraints_accepted_iff_well_formed. split.
    + intros [m H]. apply bind_ok in H as ([m' ws'] & Hm & _). eauto.
    + intros [[m' ws'] H]. rewrite H. cbn [bind]. eauto.
Qed.

Lemma require_inv w mc : require_mu_cov w = Ok mc -> moments w (fst mc) (snd mc).
Proof.
  unfold require_mu_cov, moments, assets. destruct (d_mu (w_dist w)) as [m|], (d_cov (w_dist w)) as [c|]; try discriminate. intros H. injection H as <-. exists m, c. auto.
Qed.
Lemma require_ok w mu cov : moments w mu cov -> require_mu_cov w = Ok (mu, cov).
Proof. intros (m & c & E1 & E2 & -> & ->). unfold require_mu_cov. rewrite E1, E2. reflexivity. Qed.
Lemma report_eq w mu cov : report w (mu, cov) = in_reports w mu cov.
Proof. reflexivity. Qed.
Lemma resolve_costs_eq w k : resolve_costs w k = (iw_of w k, mic_of w k, pc_of w k).
Proof. destruct k; reflexivity. Qed.

(** Ranging over [n] coordinates only. *)
Lemma constrained_ext n G A x y : (forall i, (i < n)%nat -> x i = y i) -> constrained n G A x -> constrained n G A y.
Proof. intros E [H1 H2]. split; intros; rewrite <- (dot_ext_r n _ x y E); auto. Qed.
Lemma quad_ext_n n P x y : (forall i, (i < n)%nat -> x i = y i) -> quad n P x = quad n P y.
Proof. intros E. apply quad_ext; auto. Qed.
