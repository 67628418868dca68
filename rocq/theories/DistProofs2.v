From Coq Require Import Lia Lra.
From Verif Require Import RBase QpBase MomModel MomSpec ConsModel DistModel OptSpec DistSpec DistProofs.
Open Scope R_scope.
Open Scope list_scope.

Definition given_mu (i : dist_in) := option_map snd (i_mu i).
Definition given_cov (i : dist_in) := option_map snd (i_cov i).

Record scen_facts (i : dist_in) (X : nd) (t n : nat) (p : nd) (q : nat -> R) (m c : nd) : Prop := {
  sf_shape : nd_shape X = [t; n];
  sf_t : (0 < t)%nat;
  sf_use : usable_probs t (i_probs i);
  sf_p : real_array p [t] q;
  sf_prob : prob_vec t q;
  sf_norm : normalised t (i_probs i) q;
  sf_mu : match given_mu i with
          | Some m' => m = m'
          | None => nd_shape m = [n] /\ (nd_all p_fin X = true -> forall j, nd_at m j = Fin (mean_of t q (as_mat n X) j))
          end;
  sf_cov : match given_cov i with
           | Some c' => c = c'
           | None => nd_shape c = [n; n] /\ (nd_all p_fin X = true -> forall a j, (j < n)%nat -> nd_at c (pos n a j) = Fin (cov_of t q (as_mat n X) a j))
           end }.

Lemma from_scen_inv i N T pr mu cov : from_scen i = Ok (N, T, pr, mu, cov) ->
  match i_scen i with
  | None => N = None /\ T = None /\ pr = None /\ mu = given_mu i /\ cov = given_cov i
  | Some (_, X) => exists t n p q m c, N = Some n /\ T = Some t /\ pr = Some p /\ mu = Some m /\ cov = Some c /\ scen_facts i X t n p q m c
  end.
Proof.
  unfold from_scen. destruct (i_scen i) as [[lab X]|] eqn:Ei.
  2:{ intros H. injection H as <- <- <- <- <-. repeat split. }
  destruct (nd_shape X) as [|t [|n [|? ?]]] eqn:HX; try discriminate. intros H.
  apply bind_ok in H as (p & Ep & H). destruct (scen_probs_ok _ _ _ Ep) as (Ht & Hu & q & Hq & Hp & Hn).
  destruct (est_moments_ok t n X p q HX Hq Hp) as (em & ec & Ee & Sm & Sc & Hv).
  assert (K : forall m c, (match given_mu i with Some m' => m = m' | None => m = em end) ->
                          (match given_cov i with Some c' => c = c' | None => c = ec end) ->
              scen_facts i X t n p q m c).
  { intros m c Hm Hc. constructor; try assumption.
    - destruct (given_mu i); [exact Hm|]. subst m. split; [exact Sm|]. intros Hf. apply Hv, Hf.
    - destruct (given_cov i); [exact Hc|]. subst c. split; [exact Sc|]. intros Hf. apply Hv, Hf. }
  unfold given_mu, given_cov in K.
  destruct (option_map snd (i_mu i)) as [m|] eqn:Em; destruct (option_map snd (i_cov i)) as [c|] eqn:Ec.
  - injection H as <- <- <- <- <-. eexists _, _, _, _, _, _. do 5 (split; [reflexivity|]). apply K; reflexivity.
  - rewrite Ee in H. injection H as <- <- <- <- <-. eexists _, _, _, _, _, _. do 5 (split; [reflexivity|]). apply K; reflexivity.
  - rewrite Ee in H. injection H as <- <- <- <- <-. eexists _, _, _, _, _, _. do 5 (split; [reflexivity|]). apply K; reflexivity.
  - rewrite Ee in H. injection H as <- <- <- <- <-. eexists _, _, _, _, _, _. do 5 (split; [reflexivity|]). apply K; reflexivity.
Qed.

Lemma check_mu_inv N mu N' : check_mu N mu = Ok N' ->
  (N = None \/ N' = N) /\ (mu = None -> N' = N) /\ (forall m, mu = Some m -> N' = Some (nd_size m)).
Proof.
  unfold check_mu. destruct mu as [m|].
  - destruct N as [n|].
    + destruct (Nat.eqb_spec (nd_size m) n); [|discriminate]. intros H. injection H as <-. repeat split; auto; try discriminate.
      intros m' E. injection E as <-. congruence.
    + intros H. injection H as <-. repeat split; auto; try discriminate. intros m' E. injection E as <-. reflexivity.
  - intros H. injection H as <-. repeat split; auto; discriminate.
Qed.
Lemma check_cov_inv N cov N' : check_cov N cov = Ok N' ->
  (N = None \/ N' = N) /\ (cov = None -> N' = N) /\ (forall c, cov = Some c -> exists n, N' = Some n /\ nd_shape c = [n; n]).
Proof.
  unfold check_cov. destruct cov as [c|].
  - destruct (nd_shape c) as [|a [|b [|? ?]]] eqn:Es; try discriminate.
    destruct (Nat.eqb_spec a b) as [<-|]; [|discriminate]. cbn [negb].
    destruct N as [n|].
    + destruct (Nat.eqb_spec a n) as [->|]; [|discriminate]. intros H. injection H as <-. repeat split; auto; try discriminate.
      intros c' E. injection E as <-. exists n. auto.
    + intros H. injection H as <-. repeat split; auto; try discriminate. intros c' E. injection E as <-. exists a. auto.
  - intros H. injection H as <-. repeat split; auto; discriminate.
Qed.

Record dist_facts (i : dist_in) (d : dist) (mu cov : option nd) : Prop := {
  df_from : from_scen i = Ok (match d_T d with Some _ => Some (d_N d) | None => None end, d_T d, d_probs d, mu, cov);
  df_mu : d_mu d = option_map flat mu;
  df_cov : d_cov d = cov;
  df_scen : d_scen d = option_map snd (i_scen i);
  df_pos : (0 < d_N d)%nat;
  df_names : exists n1 n2, names_mu i = Ok n1 /\ names_cov i n1 = Ok n2 /\ names_scen i n2 = Ok (d_names d);
  df_len : forall l, d_names d = Some l -> List.length l = d_N d;
  df_size : forall m, mu = Some m -> nd_size m = d_N d;
  df_shape : forall c, cov = Some c -> nd_shape c = [d_N d; d_N d];
  df_some : mu <> None \/ cov <> None;
  df_fin : opt_all mu = true /\ opt_all cov = true /\ opt_all (d_scen d) = true }.

Lemma make_dist_inv i d : make_dist i = Ok d -> exists mu cov, dist_facts i d mu cov.
Proof.
  unfold make_dist. intros H. apply bind_ok in H as (n1 & E1 & H). apply bind_ok in H as (n2 & E2 & H).
  apply bind_ok in H as (names & E3 & H). apply bind_ok in H as ([[[[N T] pr] mu] cov] & EF & H).
  apply bind_ok in H as (N1 & EM & H). apply bind_ok in H as (N2 & EC & H).
  destruct N2 as [[|n]|]; try discriminate.
  destruct (match names with Some l => negb (Nat.eqb (List.length l) (S n)) | None => false end) eqn:EL; [discriminate|].
  destruct (opt_all mu && opt_all cov && opt_all (option_map snd (i_scen i))) eqn:EO; [|discriminate].
  injection H as <-. apply Bool.andb_true_iff in EO as [EO O3]. apply Bool.andb_true_iff in EO as [O1 O2].
  destruct (check_mu_inv _ _ _ EM) as (M0 & M1 & M2). destruct (check_cov_inv _ _ _ EC) as (C0 & C1 & C2).
  pose proof (from_scen_inv _ _ _ _ _ _ EF) as HF.
  exists mu, cov. constructor; cbn; auto.
  - rewrite EF. f_equal. f_equal. f_equal. f_equal. f_equal. destruct (i_scen i) as [[lab X]|].
    + destruct HF as (t & n0 & p & q & m & c & -> & -> & _). destruct M0 as [| ->]; [discriminate|]. destruct C0 as [|C0]; [discriminate|].
      injection C0 as C0. subst n0. reflexivity.
    + destruct HF as (-> & -> & _). reflexivity.
  - lia.
  - exists n1, n2. auto.
  - intros l ->. destruct (Nat.eqb_spec (List.length l) (S n)); [assumption|discriminate].
  - intros m E. specialize (M2 m E). subst N1. destruct C0 as [|C0]; [discriminate|]. congruence.
  - intros c E. destruct (C2 c E) as (a & Ea & Hs). injection Ea as <-. exact Hs.
  - destruct mu; [left; discriminate|]. destruct cov; [right; discriminate|]. specialize (M1 eq_refl). specialize (C1 eq_refl). subst N1.
    destruct (i_scen i) as [[lab X]|].
    + destruct HF as (t & n0 & p & q & m & c & _ & _ & _ & F & _). discriminate.
    + destruct HF as (-> & _). discriminate.
Qed.

Lemma make_dist_valid i d : make_dist i = Ok d -> valid_dist d.
Proof.
  intros H. destruct (make_dist_inv i d H) as (mu & cov & F). destruct (df_fin _ _ _ _ F) as (O1 & O2 & O3).
  constructor.
  - apply F.
  - apply F.
  - intros m E. rewrite (df_mu _ _ _ _ F) in E. destruct mu as [m'|]; [|discriminate]. injection E as <-.
    apply has_shape_fin. split; [simpl; f_equal; apply (df_size _ _ _ _ F); reflexivity|].
    apply nd_all_iff. simpl in O1. rewrite nd_all_iff in O1. unfold flat. cbn [nd_at]. intros k Hk. apply O1. unfold nd_size in Hk at 1. simpl in Hk. lia.
  - intros c E. rewrite (df_cov _ _ _ _ F) in E. apply has_shape_fin. split; [apply (df_shape _ _ _ _ F), E|]. rewrite E in O2. exact O2.
  - rewrite (df_mu _ _ _ _ F), (df_cov _ _ _ _ F). destruct (df_some _ _ _ _ F) as [Hm|]; [left|right; assumption]. destruct mu; [discriminate|congruence].
  - pose proof (from_scen_inv _ _ _ _ _ _ (df_from _ _ _ _ F)) as HF.
    rewrite (df_scen _ _ _ _ F), (df_mu _ _ _ _ F), (df_cov _ _ _ _ F). rewrite (df_scen _ _ _ _ F) in O3. destruct (i_scen i) as [[lab X]|].
    + destruct HF as (t & n & p & q & m & c & EN & ET & EP & -> & -> & SF). rewrite EP, ET in *. simpl.
      injection EN as EN.
      split; [apply SF|]. split; [apply has_shape_fin; split; [rewrite (sf_shape _ _ _ _ _ _ _ _ SF); congruence|exact O3]|].
      split; [discriminate|]. split; [discriminate|]. exists q. split; apply SF.
    + destruct HF as (EN & ET & EP & _). rewrite EP, ET. exact I.
Qed.

(** ** Labels *)
Lemma names_eqb_iff a b : names_eqb a b = true <-> a = b.
Proof. unfold names_eqb. destruct (list_eq_dec string_dec a b); split; congruence. Qed.

Lemma merge_inv e c r : merge_names e c = Ok r -> c <> [] -> r = Some c /\ (e = None \/ e = Some c).
Proof.
  unfold merge_names. destruct c as [|x c]; [congruence|]. intros H _. destruct e as [e|].
  - destruct (names_eqb (x :: c) e) eqn:E; [|discriminate]. apply names_eqb_iff in E. subst e. injection H as <-. auto.
  - injection H as <-. auto.
Qed.
Lemma merge_keep nm e : e = None \/ e = Some nm -> nm <> [] -> merge_names e nm = Ok (Some nm).
Proof.
  intros H Hn. unfold merge_names. destruct nm; [congruence|]. destruct H as [-> | ->]; [reflexivity|].
  destruct (names_eqb (s :: nm) (s :: nm)) eqn:E; [reflexivity|]. rewrite (proj2 (names_eqb_iff _ _) eq_refl) in E. discriminate.
Qed.

Lemma nonnil {A} (l : list A) n : (0 < n)%nat -> List.length l = n -> l <> [].
Proof. intros H E ->. simpl in E. lia. Qed.

Lemma names_consistent i d mu cov : pandas_ok i -> dist_facts i d mu cov ->
  exists names, List.length names = d_N d /\ forall l, In l (supplied_labels i) -> l = names.
Proof.
  intros (P1 & P2 & P3) F. pose proof (from_scen_inv _ _ _ _ _ _ (df_from _ _ _ _ F)) as HF.
  destruct (df_names _ _ _ _ F) as (n1 & n2 & E1 & E2 & E3).
  pose proof (df_pos _ _ _ _ F) as HN.
  (* lengths of the supplied labels *)
  assert (LM : forall l a, i_mu i = Some (Some l, a) -> List.length l = d_N d).
  { intros l a E. rewrite E in P1. assert (Em : mu = Some a).
    { destruct (i_scen i) as [[lab X]|].
      - destruct HF as (t & n & p & q & m & c & _ & _ & _ & -> & _ & SF). pose proof (sf_mu _ _ _ _ _ _ _ _ SF) as Q. unfold given_mu in Q. rewrite E in Q. simpl in Q. congruence.
      - destruct HF as (_ & _ & _ & -> & _). unfold given_mu. rewrite E. reflexivity. }
    rewrite <- (df_size _ _ _ _ F a Em). symmetry. apply size1, P1. }
  assert (LC : forall r c a, i_cov i = Some (Some (r, c), a) -> List.length r = d_N d /\ List.length c = d_N d).
  { intros r c a E. rewrite E in P2. assert (Em : cov = Some a).
    { destruct (i_scen i) as [[lab X]|].
      - destruct HF as (t & n & p & q & m & c' & _ & _ & _ & _ & -> & SF). pose proof (sf_cov _ _ _ _ _ _ _ _ SF) as Q. unfold given_cov in Q. rewrite E in Q. simpl in Q. congruence.
      - destruct HF as (_ & _ & _ & _ & ->). unfold given_cov. rewrite E. reflexivity. }
    pose proof (df_shape _ _ _ _ F a Em) as Hs. rewrite P2 in Hs. injection Hs as H1 H2. auto. }
  assert (LS : forall l a, i_scen i = Some (Some l, a) -> List.length l = d_N d).
  { intros l a E. rewrite E in P3. destruct P3 as [t Ht]. rewrite E in HF. destruct HF as (t' & n & p & q & m & c & EN & ET & _ & _ & _ & SF).
    rewrite ET in EN. pose proof (sf_shape _ _ _ _ _ _ _ _ SF) as Hs. rewrite Ht in Hs. injection Hs as _ Hs. injection EN as EN. congruence. }
  (* steps *)
  assert (S1 : forall l, In l (match i_names i with Some l => [l] | None => [] end ++ match i_mu i with Some (Some l, _) => [l] | _ => [] end) -> n1 = Some l).
  { intros l. unfold names_mu in E1. destruct (i_mu i) as [[[idx|] a]|] eqn:Ei.
    - destruct (merge_inv _ _ _ E1 (nonnil idx _ HN (LM idx a eq_refl))) as (-> & Hn).
      rewrite in_app_iff. intros [Hl|[<-|[]]]; [|reflexivity]. destruct Hn as [Hn|Hn]; rewrite Hn in Hl; [destruct Hl|]. destruct Hl as [<-|[]]. reflexivity.
    - injection E1 as <-. rewrite app_nil_r. destruct (i_names i); [|intros []]. intros [<-|[]]. reflexivity.
    - injection E1 as <-. rewrite app_nil_r. destruct (i_names i); [|intros []]. intros [<-|[]]. reflexivity. }
  assert (S2 : forall l, n1 = Some l \/ In l (match i_cov i with Some (Some (r, c), _) => [r; c] | _ => [] end) -> n2 = Some l).
  { intros l. unfold names_cov in E2. destruct (i_cov i) as [[[[r c]|] a]|] eqn:Ei; [| injection E2 as <-; intros [E|[]]; exact E | injection E2 as <-; intros [E|[]]; exact E].
    apply bind_ok in E2 as (nm & Em & E2). destruct (LC r c a eq_refl) as [L1 L2].
    destruct (merge_inv _ _ _ Em (nonnil r _ HN L1)) as (-> & Hn).
    destruct (names_eqb c r) eqn:Ec; [|discriminate]. apply names_eqb_iff in Ec. subst c. injection E2 as <-.
    intros [E|[<-|[<-|[]]]]; try reflexivity. destruct Hn as [Hn|Hn]; rewrite Hn in E; [discriminate|exact E]. }
  assert (S3 : forall l, n2 = Some l \/ In l (match i_scen i with Some (Some l, _) => [l] | _ => [] end) -> d_names d = Some l).
  { intros l. unfold names_scen in E3. destruct (i_scen i) as [[[cols|] a]|] eqn:Ei.
    - destruct (merge_inv _ _ _ E3 (nonnil cols _ HN (LS cols a eq_refl))) as (-> & Hn).
      intros [E|[<-|[]]]; [|reflexivity]. destruct Hn as [Hn|Hn]; rewrite Hn in E; [discriminate|exact E].
    - injection E3 as <-. intros [E|[]]; exact E.
    - injection E3 as <-. intros [E|[]]; exact E. }
  assert (All : forall l, In l (supplied_labels i) -> d_names d = Some l).
  { intros l Hl. unfold supplied_labels in Hl. rewrite app_assoc in Hl. apply in_app_or in Hl as [Hl|Hl].
    - apply S3. left. apply S2. left. apply S1. exact Hl.
    - apply in_app_or in Hl as [Hl|Hl]; [apply S3; left; apply S2; right; exact Hl|apply S3; right; exact Hl]. }
  destruct (d_names d) as [nm|] eqn:En.
  - exists nm. split; [apply (df_len _ _ _ _ F); exact En|]. intros l Hl. specialize (All l Hl). congruence.
  - exists (repeat EmptyString (d_N d)). split; [apply repeat_length|]. intros l Hl. specialize (All l Hl). discriminate.
Qed.

Lemma make_dist_consistent i d : pandas_ok i -> make_dist i = Ok d -> consistent (d_N d) i.
Proof.
  intros P H. destruct (make_dist_inv i d H) as (mu & cov & F). destruct (df_fin _ _ _ _ F) as (O1 & O2 & O3).
  pose proof (from_scen_inv _ _ _ _ _ _ (df_from _ _ _ _ F)) as HF.
  split; [apply F|]. split; [apply (names_consistent i d mu cov P F)|].
  assert (EM : forall l a, i_mu i = Some (l, a) -> mu = Some a).
  { intros l a E. destruct (i_scen i) as [[lab X]|].
    - destruct HF as (t & n & p & q & m & c & _ & _ & _ & -> & _ & SF). pose proof (sf_mu _ _ _ _ _ _ _ _ SF) as Q. unfold given_mu in Q. rewrite E in Q. simpl in Q. congruence.
    - destruct HF as (_ & _ & _ & -> & _). unfold given_mu. rewrite E. reflexivity. }
  assert (EC : forall l a, i_cov i = Some (l, a) -> cov = Some a).
  { intros l a E. destruct (i_scen i) as [[lab X]|].
    - destruct HF as (t & n & p & q & m & c' & _ & _ & _ & _ & -> & SF). pose proof (sf_cov _ _ _ _ _ _ _ _ SF) as Q. unfold given_cov in Q. rewrite E in Q. simpl in Q. congruence.
    - destruct HF as (_ & _ & _ & _ & ->). unfold given_cov. rewrite E. reflexivity. }
  split; [|split].
  - destruct (i_mu i) as [[l a]|] eqn:E; [|exact I]. specialize (EM l a eq_refl). split; [apply (df_size _ _ _ _ F), EM|].
    exists (as_vec a). subst mu. simpl in O1. rewrite all_fin_real in O1. destruct O1 as [_ O1]. rewrite (df_size _ _ _ _ F a eq_refl) in O1. exact O1.
  - destruct (i_cov i) as [[l a]|] eqn:E; [|exact I]. specialize (EC l a eq_refl). subst cov. apply has_shape_fin. split; [apply (df_shape _ _ _ _ F); reflexivity|exact O2].
  - rewrite (df_scen _ _ _ _ F) in O3. destruct (i_scen i) as [[lab X]|] eqn:E.
    + destruct HF as (t & n & p & q & m & c & EN & ET & _ & _ & _ & SF). rewrite ET in EN. injection EN as EN. exists t. split; [apply SF|]. split; [|apply SF].
      apply has_shape_fin. split; [rewrite (sf_shape _ _ _ _ _ _ _ _ SF); congruence|exact O3].
    + destruct HF as (_ & _ & _ & -> & ->). destruct (df_some _ _ _ _ F) as [Q|Q]; [left|right]; intros K; apply Q; [unfold given_mu|unfold given_cov]; rewrite K; reflexivity.
Qed.

Lemma opt_merge (e : option (list string)) nm N : List.length nm = N -> (0 < N)%nat -> (forall l, e = Some l -> l = nm) -> merge_names e nm = Ok (Some nm).
Proof. intros L HN H. apply merge_keep; [destruct e as [l|]; [right; rewrite (H l eq_refl); reflexivity|left; reflexivity]|eapply nonnil; eauto]. Qed.

Lemma consistent_make_dist i N : consistent N i -> exists d, make_dist i = Ok d /\ d_N d = N.
Proof.
  intros (HN & (nm & Ln & Hn) & Hmu & Hcov & Hsc).
  unfold make_dist, supplied_labels in *.
  (* names *)
  assert (E1 : exists n1, names_mu i = Ok n1 /\ (forall l, n1 = Some l -> l = nm)).
  { unfold names_mu. destruct (i_mu i) as [[[idx|] a]|] eqn:Ei.
    - assert (idx = nm) by (apply Hn; apply in_or_app; right; left; reflexivity). subst idx.
      exists (Some nm). split; [|intros l E; congruence]. eapply opt_merge; eauto. intros l E. apply Hn. rewrite E. left. reflexivity.
    - eexists. split; [reflexivity|]. intros l E. apply Hn. rewrite E. left. reflexivity.
    - eexists. split; [reflexivity|]. intros l E. apply Hn. rewrite E. left. reflexivity. }
  destruct E1 as (n1 & -> & Hn1). cbn [bind].
  assert (E2 : exists n2, names_cov i n1 = Ok n2 /\ (forall l, n2 = Some l -> l = nm)).
  { unfold names_cov. destruct (i_cov i) as [[[[r c]|] a]|] eqn:Ei; [| eexists; split; [reflexivity|exact Hn1] | eexists; split; [reflexivity|exact Hn1]].
    assert (r = nm) by (apply Hn; apply in_or_app; right; apply in_or_app; right; left; reflexivity). subst r.
    assert (c = nm) by (apply Hn; apply in_or_app; right; apply in_or_app; right; right; left; reflexivity). subst c.
    rewrite (opt_merge n1 nm N Ln HN Hn1). cbn [bind]. rewrite (proj2 (names_eqb_iff nm nm) eq_refl). exists (Some nm). split; [reflexivity|intros l E; congruence]. }
  destruct E2 as (n2 & -> & Hn2). cbn [bind].
  assert (E3 : exists n3, names_scen i n2 = Ok n3 /\ (forall l, n3 = Some l -> l = nm)).
  { unfold names_scen. destruct (i_scen i) as [[[cols|] a]|] eqn:Ei; [| eexists; split; [reflexivity|exact Hn2] | eexists; split; [reflexivity|exact Hn2]].
    assert (cols = nm) by (apply Hn; apply in_or_app; right; apply in_or_app; right; apply in_or_app; right; left; reflexivity). subst cols.
    rewrite (opt_merge n2 nm N Ln HN Hn2). exists (Some nm). split; [reflexivity|intros l E; congruence]. }
  destruct E3 as (n3 & -> & Hn3). cbn [bind].
  assert (Fmu : forall m, given_mu i = Some m -> nd_size m = N /\ nd_all p_fin m = true).
  { intros m E. unfold given_mu in E. destruct (i_mu i) as [[l a]|]; [|discriminate]. simpl in E. injection E as <-. destruct Hmu as (Hs & f & Hf).
    split; [exact Hs|]. apply nd_all_iff. rewrite Hs. intros k Hk. rewrite (Hf k Hk). reflexivity. }
  assert (Fcov : forall c, given_cov i = Some c -> nd_shape c = [N; N] /\ nd_all p_fin c = true).
  { intros c E. unfold given_cov in E. destruct (i_cov i) as [[l a]|]; [|discriminate]. simpl in E. injection E as <-. apply has_shape_fin, Hcov. }
  assert (Hfs : exists No To pr mu cov, from_scen i = Ok (No, To, pr, mu, cov) /\ (No = None \/ No = Some N) /\
     (forall m, mu = Some m -> nd_size m = N /\ nd_all p_fin m = true) /\ (forall c, cov = Some c -> nd_shape c = [N; N] /\ nd_all p_fin c = true) /\
     (mu <> None \/ cov <> None) /\ opt_all (option_map snd (i_scen i)) = true).
  { destruct (i_scen i) as [[lab X]|] eqn:Ei.
    - destruct Hsc as (T & HT & HX & HU). apply has_shape_fin in HX as [HX HXf].
      destruct (scen_probs_some T (i_probs i) HT HU) as [pr Ep].
      destruct (scen_probs_ok _ _ _ Ep) as (_ & _ & q & Hq & Hp & _).
      destruct (est_moments_ok T N X pr q HX Hq Hp) as (em & ec & Ee & Sm & Sc & Hv).
      assert (Hem : nd_size em = N /\ nd_all p_fin em = true).
      { split; [apply size1, Sm|]. apply nd_all_iff. intros k _. rewrite (proj1 (Hv HXf)). reflexivity. }
      assert (Hec : nd_shape ec = [N; N] /\ nd_all p_fin ec = true).
      { split; [exact Sc|]. apply nd_all_iff. rewrite (size2 ec N N Sc). intros k Hk.
        replace k with (pos N (k / N) (k mod N)) by (unfold pos; rewrite Nat.mul_comm; symmetry; apply Nat.div_mod; lia).
        rewrite (proj2 (Hv HXf)) by (apply Nat.mod_upper_bound; lia). reflexivity. }
      unfold from_scen. rewrite Ei, HX, Ep. cbn [bind]. fold (given_mu i) (given_cov i).
      destruct (given_mu i) as [m|] eqn:Em; destruct (given_cov i) as [c|] eqn:Ec; rewrite ?Ee; cbn [bind];
        (eexists _, _, _, _, _; split; [reflexivity|]; split; [right; reflexivity|]; split; [intros ? E; injection E as <-; cbn [fst snd]; auto|]; split; [intros ? E; injection E as <-; cbn [fst snd]; auto|]; split; [left; discriminate|exact HXf]).
    - unfold from_scen. rewrite Ei. eexists _, _, _, _, _. split; [reflexivity|]. split; [left; reflexivity|]. split; [exact Fmu|]. split; [exact Fcov|]. split; [|reflexivity].
      destruct Hsc as [Q|Q]; [left|right]; intros K; apply Q; [destruct (i_mu i)|destruct (i_cov i)]; simpl in K; congruence. }
  destruct Hfs as (No & To & pr & mu & cov & -> & HNo & Hm & Hc & Hs & Hx). cbn [bind].
  assert (C1 : exists N1, check_mu No mu = Ok N1 /\ (N1 = Some N \/ N1 = None) /\ (mu <> None -> N1 = Some N)).
  { unfold check_mu. destruct mu as [m|].
    - destruct (Hm m eq_refl) as [Sz _]. destruct HNo as [-> | ->].
      + eexists; split; [reflexivity|]. rewrite Sz. auto.
      + rewrite Sz, Nat.eqb_refl. eexists; split; [reflexivity|]. auto.
    - eexists; split; [reflexivity|]. split; [tauto|congruence]. }
  destruct C1 as (N1 & -> & HN1 & HN1'). cbn [bind].
  assert (C2 : check_cov N1 cov = Ok (Some N)).
  { unfold check_cov. destruct cov as [c|].
    - destruct (Hc c eq_refl) as [-> _]. rewrite Nat.eqb_refl. cbn [negb]. destruct HN1 as [-> | ->]; [rewrite Nat.eqb_refl|]; reflexivity.
    - destruct Hs as [Q|Q]; [|congruence]. rewrite (HN1' Q). reflexivity. }
  rewrite C2. cbn [bind]. destruct N as [|N']; [lia|].
  replace (match n3 with Some l => negb (Nat.eqb (List.length l) (S N')) | None => false end) with false.
  2:{ destruct n3 as [l|]; [|reflexivity]. rewrite (Hn3 l eq_refl), Ln, Nat.eqb_refl. reflexivity. }
  replace (opt_all mu) with true by (destruct mu as [m|]; [symmetry; apply Hm; reflexivity|reflexivity]).
  replace (opt_all cov) with true by (destruct cov as [c|]; [symmetry; apply Hc; reflexivity|reflexivity]).
  rewrite Hx. simpl. eexists. split; reflexivity.
Qed.

Lemma from_scen_err i e : from_scen i = Err e -> e = ValueError.
Proof.
  unfold from_scen. destruct (i_scen i) as [[lab X]|]; [|discriminate].
  destruct (nd_shape X) as [|t [|n [|? ?]]] eqn:HX; try congruence.
  destruct (scen_probs t (i_probs i)) as [p|e'] eqn:Ep; [|intros H; injection H as <-; eapply scen_probs_err; exact Ep]. cbn [bind].
  destruct (scen_probs_ok _ _ _ Ep) as (_ & _ & q & Hq & Hp & _).
  destruct (est_moments_ok t n X p q HX Hq Hp) as (em & ec & -> & _).
  destruct (option_map snd (i_mu i)), (option_map snd (i_cov i)); discriminate.
Qed.

Lemma merge_err e c x : merge_names e c = Err x -> x = ValueError.
Proof. unfold merge_names. destruct c; [discriminate|]. destruct e; [|discriminate]. destruct (names_eqb _ _); congruence. Qed.

Lemma make_dist_err i e : make_dist i = Err e -> e = ValueError.
Proof.
  unfold make_dist.
  destruct (names_mu i) as [n1|e1] eqn:E1; cbn [bind].
  2:{ intros H. injection H as <-. unfold names_mu in E1. destruct (i_mu i) as [[[?|] ?]|]; try discriminate. eapply merge_err; eauto. }
  destruct (names_cov i n1) as [n2|e2] eqn:E2; cbn [bind].
  2:{ intros H. injection H as <-. unfold names_cov in E2. destruct (i_cov i) as [[[[? ?]|] ?]|]; try discriminate.
      destruct (merge_names n1 _) as [nm|] eqn:Em; cbn [bind] in E2; [|injection E2 as <-; eapply merge_err; eauto].
      destruct nm; [|discriminate]. destruct (names_eqb _ _); congruence. }
  destruct (names_scen i n2) as [n3|e3] eqn:E3; cbn [bind].
  2:{ intros H. injection H as <-. unfold names_scen in E3. destruct (i_scen i) as [[[?|] ?]|]; try discriminate. eapply merge_err; eauto. }
  destruct (from_scen i) as [[[[[N T] pr] mu] cov]|e4] eqn:E4; cbn [bind].
  2:{ intros H. injection H as <-. eapply from_scen_err; eauto. }
  destruct (check_mu N mu) as [N1|] eqn:E5; cbn [bind].
  2:{ intros H. injection H as <-. unfold check_mu in E5. destruct mu; [|discriminate]. destruct N; [|discriminate]. destruct (Nat.eqb _ _); congruence. }
  destruct (check_cov N1 cov) as [N2|] eqn:E6; cbn [bind].
  2:{ intros H. injection H as <-. unfold check_cov in E6. destruct cov as [c|]; [|discriminate]. destruct (nd_shape c) as [|? [|? [|? ?]]]; try congruence.
      destruct (negb _); [congruence|]. destruct N1; [|discriminate]. destruct (Nat.eqb _ _); congruence. }
  destruct N2 as [[|n]|]; try congruence.
  destruct (match n3 with Some l => _ | None => _ end); [congruence|]. destruct (_ && _); congruence.
Qed.
