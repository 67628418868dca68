(** Properties of [estimate_moments]: range of the means, behaviour under shifts of the returns. *)
From Coq Require Import List Lia Lra ZArith String Permutation FunctionalExtensionality.
Import ListNotations.
From Verif Require Import Err RBase QpBase MomModel MomSpec MomProofs MomProofs2 MomProofs3 MomProperties GlModel GlSpec GlProofs GlProofs3 GlProperties PoModel EmModel EmSpec EmProofs EmProperties.
From Verif Require SpecModel.
Open Scope R_scope.
Open Scope list_scope.

(** * Range *)
Lemma wmean_bounds T p X i lo hi : is_prob T p -> (forall t, (t < T)%nat -> lo <= X t i <= hi) -> lo <= wmean T p X i <= hi.
Proof.
  intros (Hp & H1) HX. unfold wmean. split.
  - replace lo with (sumn T (fun t => lo * p t)) by (rewrite sumn_scale, H1; ring). apply sumn_le. intros t Ht. apply Rmult_le_compat_r; [apply Hp; exact Ht|apply HX; exact Ht].
  - replace hi with (sumn T (fun t => hi * p t)) by (rewrite sumn_scale, H1; ring). apply sumn_le. intros t Ht. apply Rmult_le_compat_r; [apply Hp; exact Ht|apply HX; exact Ht].
Qed.
Lemma uniform_prob T : (1 <= T)%nat -> is_prob T (fun _ => / INR T).
Proof. intros HT. split; [intros; left; apply Rinv_0_lt_compat, lt_0_INR; lia|]. rewrite sumn_const. field. apply not_0_INR. lia. Qed.
Lemma observations_ne R_ i : (1 <= fr_T R_)%nat -> observations R_ i <> [].
Proof. unfold observations. destruct (fr_T R_); [lia|discriminate]. Qed.
Lemma em_sample_mean R_ p ms : em_sample R_ p = Ok ms -> (1 <= fr_T R_)%nat ->
  snd (fst ms) = wmean (fr_T R_) (match p with None => fun _ => / INR (fr_T R_) | Some w => wt_at w end) (fr_at R_).
Proof.
  intros H HT. unfold em_sample in H. destruct p as [w|].
  - apply bind_ok in H as ([[a b] l] & E & H). injection H as <-. unfold estimate_sample_moments in E. destruct (negb _); [discriminate|]. destruct (negb _); [discriminate|].
    apply bind_ok in E as (l1 & _ & E). apply bind_ok in E as (l2 & _ & E). injection E as <- _ _. reflexivity.
  - apply bind_ok in H as (l & _ & H). apply bind_ok in H as (l' & _ & H).
    assert (E : (fun i => sumn (fr_T R_) (fun t => fr_at R_ t i) / INR (fr_T R_)) = wmean (fr_T R_) (fun _ => / INR (fr_T R_)) (fr_at R_)).
    { extensionality i. unfold wmean. rewrite sumn_scale_r. reflexivity. }
    destruct (_ =? 1)%nat; [destruct l'; [discriminate|]|]; injection H as <-; cbn [fst snd]; exact E.
Qed.

Theorem estimate_moments_mean_within_range :
  forall env R_ p m c mkw ckw mu Sg i,
    (1 <= fr_T R_)%nat -> (i < fr_N R_)%nat -> (forall w, p = Some w -> is_prob (fr_T R_) (wt_at w)) ->
    (forall s n, Permutation (em_perm env s n) (seq 0 n)) ->
    means_name mean_groups "sample" m \/ means_name mean_groups "huber" m \/ means_name mean_groups "mom" m ->
    estimate_moments_full env R_ p m c mkw ckw = Ok (mu, Sg) ->
    within (observations R_ i) (snd mu i).
Proof.
  intros env R_ p m c mkw ckw mu Sg i HT Hi Hp Hperm Hm H. unfold estimate_moments_full in H. destruct (negb _); [discriminate|].
  apply bind_ok in H as (ms & E0 & H). apply bind_ok in H as (mu' & E1 & H). apply bind_ok in H as (Sg' & _ & H). injection H as <- _.
  destruct Hm as [Hm|[Hm|Hm]]; apply means_name_fst in Hm; try reflexivity; rewrite (em_mean_alias _ _ _ _ _ _ Hm) in E1.
  - change (Ok (A := mean_out) (fst ms) = Ok mu') in E1. injection E1 as <-. rewrite (em_sample_mean _ _ _ E0 HT).
    apply bounds_within; [apply observations_ne; exact HT|]. intros lo hi Hb. apply wmean_bounds.
    + destruct p; [apply Hp; reflexivity|apply uniform_prob; exact HT].
    + intros t Ht. apply Hb. unfold observations. apply in_map_iff. exists t. split; [reflexivity|]. apply in_seq. lia.
  - change (em_huber R_ mkw = Ok mu') in E1. unfold em_huber in E1. do 4 (apply bind_ok in E1 as (? & _ & E1)). destruct (negb _); [discriminate|].
    apply bind_ok in E1 as (? & _ & E1). apply bind_ok in E1 as (? & _ & E1). injection E1 as <-. cbn [snd]. apply huber_within, observations_ne. exact HT.
  - change (em_mom env R_ mkw = Ok mu') in E1. unfold em_mom in E1. apply bind_ok in E1 as (? & _ & E1). apply bind_ok in E1 as (nb & _ & E1). apply bind_ok in E1 as (B & EB & E1).
    apply bind_ok in E1 as (? & _ & E1). apply bind_ok in E1 as (? & _ & E1). injection E1 as <-. cbn [snd].
    destruct (median_of_means _ _ _ _) as [o|e] eqn:EM.
    + eapply mom_within; [exact EM|apply observations_ne; exact HT|]. unfold observations, column. rewrite map_length, seq_length. apply Hperm.
    + exfalso. unfold median_of_means, column in EM. rewrite map_length, seq_length, EB in EM. discriminate.
Qed.
Print Assumptions estimate_moments_mean_within_range.

(** * Shifts *)
Lemma center_shift T X (v : vec) : (1 <= T)%nat -> center T (fun t i => X t i + v i) = center T X.
Proof. intros HT. extensionality t. extensionality i. unfold center. rewrite sumn_plus, sumn_const. field. apply not_0_INR. lia. Qed.
Lemma np_cov_shift T X (v : vec) d : (1 <= T)%nat -> np_cov T (fun t i => X t i + v i) d = np_cov T X d.
Proof. intros HT. unfold np_cov. rewrite center_shift by exact HT. reflexivity. Qed.
Lemma poet_scale_shift T X (v : vec) st : (1 <= T)%nat -> poet_scale T (fun t i => X t i + v i) st = poet_scale T X st.
Proof. intros HT. unfold poet_scale. rewrite np_cov_shift by exact HT. reflexivity. Qed.
Lemma poet_S_shift T X (v : vec) st : (1 <= T)%nat -> poet_S T (fun t i => X t i + v i) st = poet_S T X st.
Proof. intros HT. unfold poet_S, poet_std. rewrite ?poet_scale_shift, ?center_shift by exact HT. reflexivity. Qed.
Lemma poet_sigma_shift T k X (v : vec) B tau st : (1 <= T)%nat -> poet_sigma T k (fun t i => X t i + v i) B tau st = poet_sigma T k X B tau st.
Proof. intros HT. unfold poet_sigma. rewrite poet_scale_shift, center_shift by exact HT. reflexivity. Qed.
Lemma poet_full_shift eig eigh ag T N X (v : vec) k th st : (1 <= T)%nat -> poet_full eig eigh ag T N (fun t i => X t i + v i) k th st = poet_full eig eigh ag T N X k th st.
Proof.
  intros HT. unfold poet_full. rewrite poet_S_shift by exact HT. destruct (N <=? 1)%nat; [reflexivity|]. destruct (eigh _ _) as [[d Q]|]; [|reflexivity].
  cbv zeta. destruct (poet_select _ _); [|reflexivity]. cbn [bind]. destruct (poet_threshold _ _ _ _); [|reflexivity]. cbn [bind].
  rewrite poet_sigma_shift, poet_scale_shift by exact HT. unfold poet_std. rewrite poet_scale_shift, center_shift by exact HT. reflexivity.
Qed.

Lemma group_disjoint (k : string) g g' : In k g -> In k g' -> In g cov_groups -> In g' cov_groups -> g = g'.
Proof.
  intros H1 H2 H3 H4. unfold cov_groups in H3, H4. simpl in H3, H4.
  repeat (destruct H3 as [<-|H3]); try contradiction H3; repeat (destruct H4 as [<-|H4]); try contradiction H4; try reflexivity; exfalso;
    simpl in H1, H2; intuition congruence.
Qed.
Lemma means_group e name g : means_name cov_groups e name -> In g cov_groups -> In (SpecModel.lower name) g -> In e g.
Proof. intros (g' & H1 & H2 & H3) Hg Hn. rewrite (group_disjoint _ g g' Hn H3 Hg H1). exact H2. Qed.

Lemma em_cov_shift env R_ v S0 c kw : (1 <= fr_T R_)%nat -> location_free c kw -> em_cov env (shift_frame R_ v) S0 c kw = em_cov env R_ S0 c kw.
Proof.
  intros HT HL. unfold em_cov. unfold shift_frame. cbn [fr_T fr_N fr_at fr_lab fr_ndim].
  match goal with |- context [SpecModel.one_of ?a ?l] => destruct (SpecModel.one_of a l) eqn:E1 end; [reflexivity|].
  match goal with |- context [SpecModel.one_of ?a ?l] => destruct (SpecModel.one_of a l) eqn:E2 end.
  { destruct (accept _ _); [|cbn [bind]; reflexivity]. cbn [bind]. destruct (get _ _ _ _); [|cbn [bind]; reflexivity]. cbn [bind]. destruct (snd S0); [reflexivity|].
    unfold shrink_covariance_ledoit_wolf. rewrite center_shift by exact HT. reflexivity. }
  match goal with |- context [SpecModel.one_of ?a ?l] => destruct (SpecModel.one_of a l) eqn:E3 end.
  { apply one_of_in in E3. destruct (accept _ _); [|cbn [bind]; reflexivity]. cbn [bind].
    assert (Hk : kw_find kw "assume_centered" = Some (KvBool false)).
    { destruct HL as [HL|[HL|[HL|[HL|[_ HL]]]]]; [..|exact HL]; exfalso; (eapply means_group in HL; [|right; right; left; reflexivity|exact E3]); clear - HL; simpl in HL; repeat (destruct HL as [HL|HL]; [discriminate HL|]); exact HL. }
    unfold get. rewrite Hk. cbn [flag_of bind]. unfold shrink_covariance_oas. rewrite center_shift by exact HT. reflexivity. }
  match goal with |- context [SpecModel.one_of ?a ?l] => destruct (SpecModel.one_of a l) eqn:E4 end.
  { apply one_of_in in E4. exfalso. destruct HL as [HL|[HL|[HL|[HL|[[HL|HL] _]]]]]; (eapply means_group in HL; [|do 3 right; left; reflexivity|exact E4]); clear - HL; simpl in HL; repeat (destruct HL as [HL|HL]; [discriminate HL|]); exact HL. }
  match goal with |- context [SpecModel.one_of ?a ?l] => destruct (SpecModel.one_of a l) eqn:E5 end.
  { do 4 (match goal with |- bind ?a _ = bind ?a _ => destruct a; [|cbn [bind]; reflexivity]; cbn [bind] end). rewrite poet_full_shift by exact HT. reflexivity. }
  match goal with |- context [SpecModel.one_of ?a ?l] => destruct (SpecModel.one_of a l) eqn:E6 end.
  { do 6 (match goal with |- bind ?a _ = bind ?a _ => destruct a; [|cbn [bind]; reflexivity]; cbn [bind] end). unfold robust_covariance_tyler. rewrite center_shift by exact HT. reflexivity. }
  match goal with |- context [SpecModel.one_of ?a ?l] => destruct (SpecModel.one_of a l) eqn:E7 end.
  { apply one_of_in in E7. destruct (accept _ _); [|cbn [bind]; reflexivity]. cbn [bind].
    assert (Hk : kw_find kw "assume_centered" = Some (KvBool false)).
    { destruct HL as [HL|[HL|[HL|[HL|[_ HL]]]]]; [..|exact HL]; exfalso; (eapply means_group in HL; [|do 6 right; left; reflexivity|exact E7]); clear - HL; simpl in HL; repeat (destruct HL as [HL|HL]; [discriminate HL|]); exact HL. }
    destruct (get gl_alpha_of _ _ _); [|cbn [bind]; reflexivity]. cbn [bind]. unfold get. rewrite Hk. cbn [flag_of bind]. rewrite glasso_shift by lia. reflexivity. }
  match goal with |- context [SpecModel.one_of ?a ?l] => destruct (SpecModel.one_of a l) eqn:E8 end; [|cbn [bind]; reflexivity].
  apply one_of_in in E8. exfalso. destruct HL as [HL|[HL|[HL|[HL|[[HL|HL] _]]]]]; (eapply means_group in HL; [|do 7 right; left; reflexivity|exact E8]); clear - HL; simpl in HL; repeat (destruct HL as [HL|HL]; [discriminate HL|]); exact HL.
Qed.

Lemma wmean_shift T p X (v : vec) : is_prob T p -> wmean T p (fun t i => X t i + v i) = (fun i => wmean T p X i + v i).
Proof.
  intros (_ & H1). extensionality i. unfold wmean. rewrite (sumn_ext T _ (fun t => X t i * p t + v i * p t)) by (intros; ring).
  rewrite sumn_plus, sumn_scale, H1. ring.
Qed.
Lemma em_sample_shift R_ v p mu S : (1 <= fr_T R_)%nat -> (forall w, p = Some w -> is_prob (fr_T R_) (wt_at w)) ->
  em_sample R_ p = Ok (mu, S) -> em_sample (shift_frame R_ v) p = Ok ((fst mu, fun i => snd mu i + v i), S).
Proof.
  intros HT Hp H. unfold em_sample, shift_frame in *. cbn [fr_T fr_N fr_at fr_lab]. destruct p as [w|].
  - unfold estimate_sample_moments in *. destruct (negb _); [discriminate|]. destruct (negb _); [discriminate|].
    rewrite wmean_shift by (apply Hp; reflexivity). unfold wcov at 1. rewrite wmean_shift by (apply Hp; reflexivity).
    apply bind_ok in H as ([[a b] l] & E & H). injection H as <- <-. apply bind_ok in E as (l1 & E1 & E). rewrite E1. cbn [bind]. apply bind_ok in E as (l2 & E2 & E). rewrite E2. cbn [bind].
    injection E as <- <- <-. cbn [fst snd]. do 2 f_equal. do 2 f_equal. unfold wcov. f_equal. extensionality i. extensionality j. apply sumn_ext. intros. ring.
  - rewrite np_cov_shift by exact HT. destruct (labels _); [|discriminate]. cbn [bind] in *. destruct (wrap_labels _ _) as [l|]; [|discriminate]. cbn [bind] in *.
    assert (E : (fun i => sumn (fr_T R_) (fun t => fr_at R_ t i + v i) / INR (fr_T R_)) = (fun i => sumn (fr_T R_) (fun t => fr_at R_ t i) / INR (fr_T R_) + v i)).
    { extensionality i. rewrite sumn_plus, sumn_const. field. apply not_0_INR. lia. }
    rewrite E. destruct (_ =? 1)%nat; [destruct l; [discriminate|]|]; injection H as <- <-; reflexivity.
Qed.

(** Adding a constant to an asset's returns moves its sample (or median-of-means) mean by that constant and
    leaves the covariance unchanged. *)
Theorem estimate_moments_shift :
  forall env R_ p m c mkw ckw mu Sg v,
    (1 <= fr_T R_)%nat -> (forall w, p = Some w -> is_prob (fr_T R_) (wt_at w)) ->
    (forall s n, Permutation (em_perm env s n) (seq 0 n)) ->
    means_name mean_groups "sample" m \/ means_name mean_groups "mom" m -> location_free c ckw ->
    estimate_moments_full env R_ p m c mkw ckw = Ok (mu, Sg) ->
    estimate_moments_full env (shift_frame R_ v) p m c mkw ckw = Ok ((fst mu, fun i => snd mu i + v i), Sg).
Proof.
  intros env R_ p m c mkw ckw mu Sg v HT Hp Hperm Hm Hc H. unfold estimate_moments_full in *.
  change (fr_ndim (shift_frame R_ v)) with (fr_ndim R_). destruct (negb _); [discriminate|].
  apply bind_ok in H as ([mu0 S0] & E0 & H). apply bind_ok in H as (mu' & E1 & H). apply bind_ok in H as (Sg' & E2 & H). injection H as <- <-.
  rewrite (em_sample_shift _ v _ _ _ HT Hp E0). cbn [bind]. cbn [snd] in *. rewrite em_cov_shift by auto. rewrite E2.
  assert (E : em_mean env (shift_frame R_ v) ((fst mu0, fun i => snd mu0 i + v i), S0) m mkw = Ok (fst mu', fun i => snd mu' i + v i)); [|rewrite E; reflexivity].
  destruct Hm as [Hm|Hm]; apply means_name_fst in Hm; try reflexivity; rewrite (em_mean_alias _ _ _ _ _ _ Hm) in E1; rewrite (em_mean_alias _ _ _ _ _ _ Hm).
  - change (Ok (A := mean_out) mu0 = Ok mu') in E1. injection E1 as <-. reflexivity.
  - change (em_mom env R_ mkw = Ok mu') in E1. change (em_mom env (shift_frame R_ v) mkw = Ok (fst mu', fun i => snd mu' i + v i)).
    unfold em_mom, shift_frame in *. cbn [fr_T fr_N fr_at fr_lab]. destruct (accept _ _); [|discriminate]. cbn [bind] in *. destruct (get _ _ _ _) as [nb|]; [|discriminate]. cbn [bind] in *.
    destruct (mom_blocks _ _ _) as [B|] eqn:EB; [|discriminate]. cbn [bind] in *. destruct (labels _); [|discriminate]. cbn [bind] in *. destruct (wrap_labels _ _); [|discriminate]. cbn [bind] in *.
    injection E1 as <-. cbn [fst snd]. do 2 f_equal. extensionality i.
    assert (EX : column (fr_T R_) (fun t i => fr_at R_ t i + v i) i = map (fun x => 1 * x + v i) (column (fr_T R_) (fr_at R_) i)).
    { unfold column. rewrite map_map. apply map_ext. intros t. ring. }
    rewrite EX. destruct (median_of_means (column (fr_T R_) (fr_at R_) i) _ _ _) as [o|e] eqn:EM.
    + rewrite (mom_affine _ _ _ _ _ 1 (v i) EM); [ring|apply (observations_ne R_ i HT)|lra|]. unfold column. rewrite map_length, seq_length. apply Hperm.
    + exfalso. unfold median_of_means, column in EM. rewrite map_length, seq_length, EB in EM. discriminate.
Qed.
Print Assumptions estimate_moments_shift.

(** Refuted: EWMA and, by default, OAS treat the level of the returns as risk. *)
Definition flat (x : R) : frame := mkFr 2 1 2 (fun _ _ => x) Arr.
Theorem estimate_moments_shift_refuted :
  forall env, exact_gl_env (em_gl env) -> forall c, In c ["ewma"; "oas"]%string ->
    exists Sg Sg' mu mu',
      estimate_moments_full env (flat 0) None "sample" c [] [] = Ok (mu, (None, Square Sg)) /\
      estimate_moments_full env (shift_frame (flat 0) (fun _ => 1)) None "sample" c [] [] = Ok (mu', (None, Square Sg')) /\
      Sg 0%nat 0%nat = 0 /\ Sg' 0%nat 0%nat = 1.
Proof.
  intros env HX c [<-|[<-|[]]].
  - do 4 eexists. split; [|split].
    + unfold estimate_moments_full, em_sample, em_cov, covariance_ewma, get. cbn -[Reqb ewma_rec IZR symmetrise Rdiv]. unfold Reqb. destruct (Req_EM_T _ _) as [E|_]; [exfalso; lra|]. cbn [bind]. reflexivity.
    + unfold estimate_moments_full, em_sample, em_cov, covariance_ewma, get. cbn -[Reqb ewma_rec IZR symmetrise Rdiv]. unfold Reqb. destruct (Req_EM_T _ _) as [E|_]; [exfalso; lra|]. cbn [bind]. reflexivity.
    + unfold symmetrise. cbn [ewma_rec]. split; lra.
  - assert (HE : correct_eig (ge_eig (em_gl env))) by apply HX.
    assert (K : forall x, exists m, shrink_covariance_oas (ge_eig (em_gl env)) 1 2 (fun _ _ => x) true = Ok m /\ m 0%nat 0%nat = x * x).
    { intros x. unfold shrink_covariance_oas. cbn [Nat.eqb orb]. set (A := fun i j => _).
      assert (HA : forall i j, A i j = eye i j * (x * x)).
      { intros i j. unfold A.
        assert (Et : trace 2 (emp_cov 1 (fun _ _ => x)) = 2 * (x * x)) by (unfold trace, emp_cov; simpl; field).
        assert (Es : oas_shrinkage 1 2 (emp_cov 1 (fun _ _ => x)) = 1).
        { unfold oas_shrinkage. rewrite Et. assert (Ef : frob2 2 (emp_cov 1 (fun _ _ => x)) = 4 * (x * x * (x * x))) by (unfold frob2, emp_cov; simpl; field). rewrite Ef.
          change (INR 2) with 2. change (INR 1) with 1. unfold Rleb. destruct (Rle_dec _ _) as [|Hd]; [reflexivity|].
          replace (4 * (x * x * (x * x)) / (2 * 2)) with (x * x * (x * x)) in * by field. replace (2 * (x * x) / 2) with (x * x) in * by field. set (z := x * x * (x * x)) in *.
          apply Rmin_right. apply Rmult_le_reg_r with ((1 + 1 - 2 / 2) * (z - z / 2)); [lra|]. unfold Rdiv. rewrite Rmult_assoc, Rinv_l by lra. lra. }
        rewrite Es, Et. unfold emp_cov. change (INR 2) with 2. change (INR 1) with 1. field. }
      assert (HP : psd 2 A). { intros y. unfold quad. simpl. rewrite !HA. unfold eye, delta. simpl. pose proof (Rle_0_sqr x) as X0. pose proof (Rle_0_sqr (y 0%nat)) as X1. pose proof (Rle_0_sqr (y 1%nat)) as X2. unfold Rsqr in *.
        replace (0 + (0 + 1 * (x * x) * y 0%nat * y 0%nat + 0 * (x * x) * y 0%nat * y 1%nat) + (0 + 0 * (x * x) * y 1%nat * y 0%nat + 1 * (x * x) * y 1%nat * y 1%nat)) with (x * x * (y 0%nat * y 0%nat + y 1%nat * y 1%nat)) by ring. apply Rmult_le_pos; lra. }
      destruct (ensure_psd_id _ 2 A HE ltac:(lia) HP) as (P & EP & VP). exists P. split; [exact EP|]. rewrite VP. unfold symmetrise. rewrite HA. unfold eye, delta. simpl. field. }
    destruct (K 0) as (m0 & E0 & V0). destruct (K (0 + 1)) as (m1 & E1 & V1). exists m0, m1.
    assert (Z : forall x m, shrink_covariance_oas (ge_eig (em_gl env)) 1 2 (fun _ _ => x) true = Ok m -> exists mu, estimate_moments_full env (flat x) None "sample" "oas" [] [] = Ok (mu, (None, Square m))).
    { intros x m E. unfold estimate_moments_full. cbn [fr_ndim flat Nat.eqb negb]. destruct (em_sample (flat x) None) as [ms|] eqn:ES; [|discriminate ES]. cbn [bind].
      exists (fst ms). change (em_mean env (flat x) ms "sample" []) with (Ok (A := mean_out) (fst ms)). cbn [bind].
      change (em_cov env (flat x) (snd ms) "oas" []) with (let* m := shrink_covariance_oas (ge_eig (em_gl env)) 1 2 (fun _ _ => x) true in wrap_square 2 None m). rewrite E. reflexivity. }
    destruct (Z _ _ E0) as (mu & F0). destruct (Z _ _ E1) as (mu' & F1). exists mu, mu'. split; [exact F0|]. split; [exact F1|]. split; lra.
Qed.
Print Assumptions estimate_moments_shift_refuted.

(** * Instances *)
Definition ex_env : em_env := mkEm (best_gl_env (fun _ _ => 0)) (fun _ A => A) (fun l => seq 0 (List.length l)) None (fun _ n => seq 0 n).
Definition ex_frame : frame := mkFr 2 3 2 (fun t i => INR (t * t + i)) (Labelled ["A"; "B"]%string).
Example ex_env_ok : exact_gl_env (em_gl ex_env) /\ (forall s n, Permutation (em_perm ex_env s n) (seq 0 n)).
Proof. split; [apply best_gl_env_exact|intros; apply Permutation_refl]. Qed.
Example ex_em_call : exists r, estimate_moments_full ex_env ex_frame None "MOM" "OAS" [] [("assume_centered"%string, KvBool false)] = Ok r.
Proof.
  unfold estimate_moments_full. cbn [fr_ndim ex_frame Nat.eqb negb]. destruct (em_sample ex_frame None) as [ms|] eqn:ES; [|discriminate ES]. cbn [bind].
  destruct (em_mean ex_env ex_frame ms "MOM" []) as [mu|] eqn:EM; [|discriminate EM]. cbn [bind].
  destruct (oas_total (ge_eig (em_gl ex_env)) 3 2 (fun t i => INR (t * t + i)) false) as (m & E); [apply best_gl_env_exact|lia|lia|].
  change (em_cov ex_env ex_frame (snd ms) "OAS" [("assume_centered"%string, KvBool false)]) with
    (let* m := shrink_covariance_oas (ge_eig (em_gl ex_env)) 3 2 (fun t i => INR (t * t + i)) false in wrap_square 2 (Some ["A"; "B"]%string) m).
  rewrite E. cbn [bind]. eexists. reflexivity.
Qed.
Example ex_location_free : location_free "OAS" [("assume_centered"%string, KvBool false)] /\ means_name mean_groups "mom" "MOM".
Proof.
  split.
  - do 4 right. split; [left|reflexivity]. exists ["oas"]%string. simpl. tauto.
  - exists ["median_of_means"; "mom"]%string. simpl. tauto.
Qed.
