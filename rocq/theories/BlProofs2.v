(** Lemmas about the Black-Litterman model: views, Omega and the call as a whole. *)
From Coq Require Import Psatz ZArith.
From Verif Require Import RBase QpBase OptModel OptSpec ExistSpec OptProofs OptProofs7 OptProofs8 NiwModel BlModel BlSpec BlProofs.
From Verif Require MomModel MomSpec MomProofs MomProofs3.
Open Scope R_scope.
Open Scope list_scope.

Lemma bl_sigma_sym n C : symmetric n C -> bl_sigma n C = C.
Proof. intros H. unfold bl_sigma. rewrite MomProofs.allclose_sym; auto; lra. Qed.

Lemma bl_index_lt assets l i : bl_index assets l = Ok i -> (i < List.length assets)%nat.
Proof.
  unfold bl_index. assert (G : forall l i, index_of l assets = Some i -> (i < List.length assets)%nat).
  { clear. intros l. induction assets as [|a t IH]; simpl; [discriminate|]. intros i. destruct (label_eqb l a); [intros E; injection E as <-; lia|].
    destruct (index_of l t) as [j|] eqn:E; simpl; [|discriminate]. intros E'. injection E' as <-. specialize (IH j eq_refl). lia. }
  destruct (index_of l assets) as [j|] eqn:E; [intros H; injection H as <-; eauto|].
  destruct l as [s|z].
  - destruct (digits s) as [k|]; [|discriminate]. destruct (index_of (LInt (Z.of_nat k)) assets) as [j|] eqn:E'; [intros H; injection H as <-; eauto|].
    destruct (k <? List.length assets)%nat eqn:L; [|discriminate]. intros H; injection H as <-. apply Nat.ltb_lt; auto.
  - destruct ((0 <=? z)%Z && (z <? Z.of_nat (List.length assets))%Z) eqn:L; [|discriminate]. intros H. injection H as <-.
    apply andb_prop in L as [L1 L2]. apply Z.leb_le in L1. apply Z.ltb_lt in L2. lia.
Qed.

(** * Rows *)
Definition key_row (idx : label -> nat) (k : vkey) : vec :=
  match k with
  | KOne l => fun i => if (i =? idx l)%nat then 1 else 0
  | KTup [a; b] => rel_row (idx a) (idx b)
  | KTup _ => fun _ => 0
  end.

Lemma dot_one n i mu : (i < n)%nat -> dot n (fun k => if (k =? i)%nat then 1 else 0) mu = mu i.
Proof.
  intros Hi. rewrite (dot_ext n _ mu (delta i) mu); auto; [apply dot_delta_l; auto|].
  intros k Hk. unfold delta. destruct (Nat.eqb_spec k i), (Nat.eqb_spec i k); auto; lia.
Qed.

Lemma dot_rel n i j mu : (i < n)%nat -> (j < n)%nat -> i <> j -> dot n (rel_row i j) mu = mu i - mu j.
Proof.
  intros Hi Hj Hij. rewrite (dot_ext n _ mu (fun k => (if (k =? i)%nat then 1 else 0) - (if (k =? j)%nat then 1 else 0)) mu); auto.
  - rewrite dot_comm, dot_minus_r, !(dot_comm n mu), !dot_one by auto. reflexivity.
  - intros k Hk. unfold rel_row. destruct (Nat.eqb_spec k i), (Nat.eqb_spec k j); try lra. lia.
Qed.

Definition proper_key (assets : list label) (idx : label -> nat) (k : vkey) : Prop :=
    match k with
    | KOne l => bl_index assets l = Ok (idx l)
    | KTup [a; b] => bl_index assets a = Ok (idx a) /\ bl_index assets b = Ok (idx b) /\ idx a <> idx b
    | KTup _ => False
    end.

Lemma key_row_value assets idx k mu : proper_key assets idx k -> dot (List.length assets) (key_row idx k) mu = view_value idx k mu.
Proof.
  destruct k as [l|[|a [|b [|? ?]]]]; simpl; try tauto.
  - intros H. apply dot_one. eapply bl_index_lt; eauto.
  - intros (A & B & C). apply dot_rel; auto; eapply bl_index_lt; eauto.
Qed.

Lemma key_row_variance assets idx k sigma : symmetric (List.length assets) sigma -> proper_key assets idx k ->
  quad (List.length assets) sigma (key_row idx k) = view_variance idx k sigma.
Proof.
  intros HS H. rewrite quad_mv. rewrite (key_row_value assets idx k _ H). destruct k as [l|[|a [|b [|? ?]]]]; simpl in *; try tauto.
  - unfold mv. rewrite dot_comm. apply dot_one. eapply bl_index_lt; eauto.
  - destruct H as (A & B & C). unfold mv. rewrite !(dot_comm _ (sigma _)). pose proof (bl_index_lt _ _ _ A). pose proof (bl_index_lt _ _ _ B).
    rewrite !dot_rel by auto. rewrite (HS (idx b) (idx a)) by auto. ring.
Qed.

Lemma view_variance_tau idx k sigma tau : view_variance idx k (fun i j => tau * sigma i j) = tau * view_variance idx k sigma.
Proof. destruct k as [l|[|a [|b [|? ?]]]]; simpl; ring. Qed.

Lemma build_view_proper assets idx k v w : proper_key assets idx k -> build_view assets (k, v) = Ok w ->
  vw_row w = key_row idx k /\ vw_target w = target_of v /\ vw_key w = k.
Proof.
  intros H. unfold build_view. destruct v as [x|[|x [|y t]]]; simpl; try discriminate.
  - destruct k as [l|[|a [|b [|? ?]]]]; simpl in *; try tauto.
    + rewrite H. simpl. intros E. injection E as <-. auto.
    + destruct H as (-> & -> & _). simpl. intros E. injection E as <-. auto.
  - destruct k as [l|[|a [|b [|? ?]]]]; simpl in *; try tauto.
    + rewrite H. simpl. intros E. injection E as <-. auto.
    + destruct H as (-> & -> & _). simpl. intros E. injection E as <-. auto.
Qed.

Definition nth_row (P : list vec) (a : nat) : vec := nth a P (fun _ => 0).

Lemma build_views_proper assets idx d vs : proper_views assets idx d -> mapM (build_view assets) d = Ok vs ->
  List.length vs = List.length d /\
  (forall a, (a < List.length d)%nat ->
     rows_mat (map vw_row vs) a = key_row idx (nth_key d a) /\ nth a (map vw_target vs) 0 = nth_target d a /\ nth a (map vw_key vs) (KTup []) = nth_key d a
     /\ proper_key assets idx (nth_key d a)).
Proof.
  intros Hp HM. split; [apply (mapM_length _ _ _ HM)|]. intros a Ha.
  set (dv := View (fun _ => 0) 0 (KTup [])). pose proof (nth_mapM _ _ _ (KTup [], VNum 0) dv a HM Ha) as E.
  assert (Hin : In (nth a d (KTup [], VNum 0)) d) by (apply nth_In; auto).
  unfold nth_key, nth_target. destruct (nth a d (KTup [], VNum 0)) as [k v]. specialize (Hp k v Hin). simpl.
  destruct (build_view_proper assets idx k v _ Hp E) as (A & B & C).
  split; [|split; [|split; [|exact Hp]]].
  - rewrite <- A. unfold rows_mat. apply FunctionalExtensionality.functional_extensionality. intros i.
    change (fun _ : nat => 0) with (vw_row dv). rewrite map_nth. reflexivity.
  - rewrite <- B. replace 0 with (vw_target dv) by reflexivity. apply map_nth.
  - transitivity (vw_key (nth a vs dv)); [|exact C]. replace (KTup []) with (vw_key dv) by reflexivity. apply map_nth.
Qed.

(** * The call *)
Lemma bl_ok ls a r : black_litterman ls a = Ok r ->
  let n := m_rows (a_cov a) in let assets := bl_assets (a_cov a) in let sigma := bl_sigma n (m_at (a_cov a)) in
  m_nd (a_cov a) = 2%nat /\ m_cols (a_cov a) = n /\ 0 < a_delta a /\
  exists pi after d vs cf om,
    bl_prior n sigma a = Ok (pi, after) /\ vec_to_dict assets (a_views a) = Ok d /\ mapM (build_view assets) d = Ok vs /\
    parse_conf (a_conf a) (map vw_key vs) = Ok cf /\
    build_omega n sigma (a_tau a) (a_use_tau a) (map vw_row vs) cf (a_omega a) = Ok om /\
    compute_posterior ls n sigma (a_tau a) (List.length pi) (of_list pi) (map vw_row vs) (map vw_target vs) om = Ok (b_len r, b_mean r, b_cov r) /\
    b_P r = map vw_row vs /\ b_Q r = map vw_target vs /\ b_om r = om /\ b_weights_after r = after /\
    (b_lab r = match m_lab (a_cov a) with Some _ => Some assets | None => None end) /\ (m_lab (a_cov a) <> None -> b_len r = n).
Proof.
  intros H. cbn zeta. unfold black_litterman in H. apply guard_ok in H as [G H]. apply andb_prop in G as [G1 G2]. apply Nat.eqb_eq in G1, G2.
  apply guard_ok in H as [G3 H]. assert (Hd : 0 < a_delta a) by (unfold Rleb in G3; destruct (Rle_dec (a_delta a) 0); simpl in G3; [discriminate|lra]).
  split; auto. split; auto. split; auto.
  apply bind_ok in H as ([pi after] & E1 & H). apply bind_ok in H as (d & E2 & H). apply bind_ok in H as (vs & E3 & H).
  apply bind_ok in H as (cf & E4 & H). apply bind_ok in H as (om & E5 & H). apply bind_ok in H as ([[l m] C] & E6 & H).
  exists pi, after, d, vs, cf, om. destruct (m_lab (a_cov a)) eqn:EL; simpl in H.
  - apply guard_ok in H as [G H]. apply Nat.eqb_eq in G. injection H as <-. simpl. repeat split; auto.
  - injection H as <-. simpl. repeat split; auto. congruence.
Qed.

Lemma bl_assets_length c : (forall ix cx, m_lab c = Some (ix, cx) -> List.length ix = m_rows c) -> List.length (bl_assets c) = m_rows c.
Proof. intros H. unfold bl_assets. destruct (m_lab c) as [[ix cx]|] eqn:E; rewrite map_length; [eauto|apply seq_length]. Qed.

Lemma posterior_ok ls n sigma tau np pi P Q om l mu C : compute_posterior ls n sigma tau np pi P Q om = Ok (l, mu, C) -> P <> [] -> exact_solve ls ->
  let k := List.length P in let ts := fun i j => tau * sigma i j in
  l = n /\ np = n /\ exists x Y,
    (forall a, (a < k)%nat -> mv k (bl_A n ts om (rows_mat P)) x a = nth a Q 0 - dot n (rows_mat P a) pi) /\
    (forall a j, (a < k)%nat -> (j < n)%nat -> mv k (bl_A n ts om (rows_mat P)) (fun b => Y b j) a = sumn n (fun i => rows_mat P a i * ts i j)) /\
    mu = (fun i => pi i + mv n ts (pt k (rows_mat P) x) i) /\
    C = (fun i j => 1 / 2 * ((sigma i j + ts i j - bl_mid n k ts (rows_mat P) Y i j) + (sigma j i + ts j i - bl_mid n k ts (rows_mat P) Y j i))).
Proof.
  intros H Hk HE. cbn zeta. unfold compute_posterior in H. destruct P as [|p0 P']; [congruence|]. set (P := p0 :: P') in *.
  replace (List.length P =? 0)%nat with false in H by reflexivity. apply guard_ok in H as [G H]. apply Nat.eqb_eq in G.
  match type of H with match ?s with _ => _ end = _ => destruct s as [X|] eqn:EX; [|discriminate] end.
  match type of H with match ?s with _ => _ end = _ => destruct s as [Y|] eqn:EY; [|discriminate] end.
  injection H as <- <- <-. split; auto. split; auto. exists (fun a => X a 0%nat), Y.
  split; [|split; [|split; reflexivity]].
  - intros a Ha. apply (HE _ _ _ _ _ EX a 0%nat Ha). lia.
  - intros a j Ha Hj. apply (HE _ _ _ _ _ EY a j Ha Hj).
Qed.
