(** Proofs about the moment-estimation facade. *)
From Coq Require Import List Lia Lra ZArith String FunctionalExtensionality.
Import ListNotations.
From Verif Require Import Err RBase QpBase MomModel MomSpec MomProofs MomProofs2 MomProofs3 MomProperties GlModel GlSpec GlProofs PoModel EmModel EmSpec.
From Verif Require SpecModel.
Open Scope R_scope.
Open Scope list_scope.

Lemma one_of_in k l : SpecModel.one_of k l = true <-> In k l.
Proof.
  unfold SpecModel.one_of. rewrite existsb_exists. split; [intros (x & H & E); apply String.eqb_eq in E; subst; exact H|].
  intros H. exists k. split; [exact H|apply String.eqb_refl].
Qed.
Lemma one_of_out k l : SpecModel.one_of k l = false <-> ~ In k l.
Proof. rewrite <- one_of_in. destruct (SpecModel.one_of k l); split; intros; congruence. Qed.

(** Results depend on the name through its lower-case form only. *)
Lemma em_mean_key env R_ ms a b kw : SpecModel.lower a = SpecModel.lower b -> em_mean env R_ ms a kw = em_mean env R_ ms b kw.
Proof. intros H. unfold em_mean. rewrite H. reflexivity. Qed.
Lemma em_cov_key env R_ S a b kw : SpecModel.lower a = SpecModel.lower b -> em_cov env R_ S a kw = em_cov env R_ S b kw.
Proof. intros H. unfold em_cov. rewrite H. reflexivity. Qed.

Ltac lit_in H := simpl in H; repeat (destruct H as [H|H]); try contradiction; rewrite <- ?H in *.

Lemma em_mean_alias env R_ ms a b kw : same_estimator mean_groups a b -> em_mean env R_ ms a kw = em_mean env R_ ms b kw.
Proof.
  intros (g & Hg & Ha & Hb). unfold em_mean. generalize dependent (SpecModel.lower a). generalize dependent (SpecModel.lower b). intros kb Hb ka Ha.
  unfold mean_groups in Hg. simpl in Hg. repeat (destruct Hg as [<-|Hg]); [..|contradiction Hg];
    simpl in Ha, Hb; repeat (destruct Ha as [<-|Ha]); try contradiction Ha; repeat (destruct Hb as [<-|Hb]); try contradiction Hb; reflexivity.
Qed.
Lemma em_cov_alias env R_ S a b kw : same_estimator cov_groups a b -> em_cov env R_ S a kw = em_cov env R_ S b kw.
Proof.
  intros (g & Hg & Ha & Hb). unfold em_cov. generalize dependent (SpecModel.lower a). generalize dependent (SpecModel.lower b). intros kb Hb ka Ha.
  unfold cov_groups in Hg. simpl in Hg. repeat (destruct Hg as [<-|Hg]); [..|contradiction Hg];
    simpl in Ha, Hb; repeat (destruct Ha as [<-|Ha]); try contradiction Ha; repeat (destruct Hb as [<-|Hb]); try contradiction Hb; reflexivity.
Qed.
Lemma known_in groups g a : In g groups -> In (SpecModel.lower a) g -> known groups a.
Proof. intros H1 H2. exists g. auto. Qed.
Ltac not_known Hk := match goal with |- context [SpecModel.one_of (SpecModel.lower ?a) ?l] =>
  replace (SpecModel.one_of (SpecModel.lower a) l) with false
    by (symmetry; apply one_of_out; intros Hin; apply Hk; eapply known_in; [|exact Hin]; simpl; tauto) end.
Lemma em_mean_unknown env R_ ms a kw : ~ known mean_groups a -> em_mean env R_ ms a kw = Err ValueError.
Proof. intros Hk. unfold em_mean. do 5 not_known Hk. reflexivity. Qed.
Lemma em_cov_unknown env R_ S a kw : ~ known cov_groups a -> em_cov env R_ S a kw = Err ValueError.
Proof. intros Hk. unfold em_cov. do 8 not_known Hk. reflexivity. Qed.

Lemma means_name_fst groups e name : means_name groups e name -> SpecModel.lower e = e -> same_estimator groups name e.
Proof. intros (g & H1 & H2 & H3) E. exists g. rewrite E. auto. Qed.

(** Cases of a successful covariance estimate. *)
Lemma wrap_square_ok n l m out : wrap_square n l m = Ok out -> out = (l, Square m) /\ wrap_labels n l = Ok l.
Proof.
  unfold wrap_square. intros H. apply bind_ok in H as (l' & E & H). injection H as <-.
  assert (l' = l). { unfold wrap_labels in E. destruct l as [l|]; [|congruence]. destruct (_ =? _)%nat; [congruence|discriminate]. }
  subst. auto.
Qed.
Inductive cov_case (env : em_env) (R_ : frame) (S0 : cov_out) (kw : kws) : string -> cov_out -> Prop :=
| CaseSample : cov_case env R_ S0 kw "sample" S0
| CaseLW S tg m l : snd S0 = Square S -> get lw_target_of kw "target" LwIdentity = Ok tg ->
    shrink_covariance_ledoit_wolf (ge_eig (em_gl env)) (fr_T R_) (fr_N R_) (fr_at R_) (fr_N R_) (fr_N R_) S tg = Ok m ->
    labels [fr_lab R_; obj_of (fst S0)] = Ok l -> wrap_labels (fr_N R_) l = Ok l -> cov_case env R_ S0 kw "ledoit_wolf" (l, Square m)
| CaseOas ac m l : get flag_of kw "assume_centered" true = Ok ac ->
    shrink_covariance_oas (ge_eig (em_gl env)) (fr_T R_) (fr_N R_) (fr_at R_) ac = Ok m ->
    labels [fr_lab R_] = Ok l -> wrap_labels (fr_N R_) l = Ok l -> cov_case env R_ S0 kw "oas" (l, Square m)
| CaseNls f dof S m l : em_nls env = Some f -> f (fr_T R_) (fr_N R_) (fr_at R_) dof = Ok S ->
    ensure_psd (ge_eig (em_gl env)) (fr_N R_) S jit = Ok m ->
    labels [fr_lab R_] = Ok l -> wrap_labels (fr_N R_) l = Ok l -> cov_case env R_ S0 kw "nls" (l, Square m)
| CasePoet k th st m B F k1 l : get poet_k_of kw "k" KAuto = Ok k -> get poet_tau_of kw "thresh" TauAuto = Ok th ->
    poet_full (ge_eig (em_gl env)) (ge_eigh (em_gl env)) (em_argsort env) (fr_T R_) (fr_N R_) (fr_at R_) k th st = Ok (m, B, F, k1) ->
    labels [fr_lab R_] = Ok l -> wrap_labels (fr_N R_) l = Ok l -> cov_case env R_ S0 kw "poet" (l, Square m)
| CaseTyler s tg tol mi fp m l : get flag_of kw "ensure_psd" true = Ok fp ->
    robust_covariance_tyler (ge_eig (em_gl env)) (ge_pinv (em_gl env)) (fr_T R_) (fr_N R_) (fr_at R_) s tg tol mi fp = Ok m ->
    labels [fr_lab R_] = Ok l -> wrap_labels (fr_N R_) l = Ok l -> cov_case env R_ S0 kw "tyler" (l, Square m)
| CaseGlasso a ac m P l : sparse_precision_glasso (em_gl env) (fr_ndim R_) (fr_T R_) (fr_N R_) (fr_at R_) a ac = Ok (m, P) ->
    labels [fr_lab R_] = Ok l -> wrap_labels (fr_N R_) l = Ok l -> cov_case env R_ S0 kw "glasso" (l, Square m)
| CaseEwma span mp m l : get num_of kw "span" 252 = Ok span -> covariance_ewma (fr_T R_) (fr_N R_) (fr_at R_) span mp = Ok m ->
    labels [fr_lab R_] = Ok l -> wrap_labels (fr_N R_) l = Ok l -> cov_case env R_ S0 kw "ewma" (l, Square m).

Lemma em_cov_cases env R_ S0 name kw out : em_cov env R_ S0 name kw = Ok out ->
  exists e, means_name cov_groups e name /\ SpecModel.lower e = e /\ cov_case env R_ S0 kw e out.
Proof.
  intros H. unfold em_cov in H.
  Ltac head H g e := match type of H with context [SpecModel.one_of (SpecModel.lower ?a) ?l] =>
    destruct (SpecModel.one_of (SpecModel.lower a) l) eqn:E; [apply one_of_in in E; exists e%string; split; [exists l; repeat split; [simpl; tauto|simpl; tauto|exact E]|split; [reflexivity|]]; clear E|clear E] end.
  head H g "sample". { injection H as <-. constructor. }
  head H g "ledoit_wolf". { apply bind_ok in H as (u & E1 & H). apply bind_ok in H as (tg & E2 & H). destruct (snd S0) eqn:ES; [discriminate|]. apply bind_ok in H as (m0 & E3 & H). apply bind_ok in H as (l & E4 & H).
    apply wrap_square_ok in H as (-> & Hw). econstructor; eauto. }
  head H g "oas". { apply bind_ok in H as (u & E1 & H). apply bind_ok in H as (ac & E2 & H). apply bind_ok in H as (m0 & E3 & H). apply bind_ok in H as (l & E4 & H). apply wrap_square_ok in H as (-> & Hw). econstructor; eauto. }
  head H g "nls". { apply bind_ok in H as (u & E1 & H). apply bind_ok in H as (ic & E2 & H). apply bind_ok in H as (dof & E3 & H). unfold shrink_covariance_nls in H. destruct ic; [discriminate|].
    destruct (em_nls env) eqn:EN; [|discriminate]. destruct (negb _); [discriminate|]. apply bind_ok in H as (S & E4 & H). apply bind_ok in H as (m0 & E5 & H). apply bind_ok in H as (l & E6 & H).
    apply wrap_square_ok in H as (-> & Hw). econstructor; eauto. }
  head H g "poet". { apply bind_ok in H as (u & E1 & H). apply bind_ok in H as (k & E2 & H). apply bind_ok in H as (th & E3 & H). apply bind_ok in H as (sd & E4 & H). apply bind_ok in H as (q & E5 & H). destruct q as [[[m0 B] F] k1]. apply bind_ok in H as (l & E6 & H).
    apply wrap_square_ok in H as (-> & Hw). econstructor; eauto. }
  head H g "tyler". { apply bind_ok in H as (u & E1 & H). apply bind_ok in H as (s & E2 & H). apply bind_ok in H as (tg & E3 & H). apply bind_ok in H as (tol & E4 & H). apply bind_ok in H as (mi & E5 & H). apply bind_ok in H as (fp & E6 & H). apply bind_ok in H as (m0 & E7 & H). apply bind_ok in H as (l & E8 & H).
    apply wrap_square_ok in H as (-> & Hw). econstructor; eauto. }
  head H g "glasso". { apply bind_ok in H as (u & E1 & H). apply bind_ok in H as (al & E2 & H). apply bind_ok in H as (ac & E3 & H). apply bind_ok in H as (q & E4 & H). destruct q as [m0 P]. apply bind_ok in H as (l & E5 & H).
    apply wrap_square_ok in H as (-> & Hw). econstructor; eauto. }
  head H g "ewma". { apply bind_ok in H as (u & E1 & H). apply bind_ok in H as (sp & E2 & H). apply bind_ok in H as (mp & E3 & H). apply bind_ok in H as (m0 & E4 & H). apply bind_ok in H as (l & E5 & H). apply wrap_square_ok in H as (-> & Hw). econstructor; eauto. }
  discriminate.
Qed.
