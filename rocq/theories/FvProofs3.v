(** Several kinds of views at once, quantile views and CVaR views. *)
From Coq Require Import Permutation Sorted.
From Verif Require Import RBase QpBase SortLib OptModel MomSpec BlModel RiskModel RiskSpec EpModel EpSpec EpProofs EpProofs2 EpProofs3 EpProofs4 FvSpec FvProofs FvProofs2.
Open Scope R_scope.
Open Scope list_scope.

(** ** All blocks at once *)
Definition each_holds assets T X q mu var (mt : moment) (vs : list (vkey * vspec)) : Prop :=
  forall key v, In (key, v) vs -> (mt = MCorr -> exists l, key = KTup l) ->
    (forall a i, In a (key_labels key) -> column assets a i -> exact_at T X q mu var mt i) -> exists x, stat_of assets T X q mt key x /\ meets x v.
Lemma all_blocks_each assets T X mu var q : is_prob T q -> forall bs acc acc', all_blocks assets X bs mu var acc = Ok acc' -> sat T acc' q ->
  sat T acc q /\ forall mt vs, In (mt, vs) bs -> each_holds assets T X q mu var mt vs.
Proof.
  intros Q. induction bs as [|[mt vs] bs IH]; intros acc acc' H S; cbn [all_blocks] in H.
  - injection H as <-. split; [auto|intros ? ? []].
  - apply bind_ok in H. destruct H as [acc1 [B H]]. destruct (IH _ _ H S) as [S1 R].
    destruct (build_each assets T X mu var mt q Q vs _ _ B S1) as [S0 E]. split; auto.
    intros mt' vs' [Eq|I]; [injection Eq as <- <-; exact E|auto].
Qed.
Lemma all_blocks_sat assets T X mu var q : is_prob T q -> forall bs acc acc', all_blocks assets X bs mu var acc = Ok acc' ->
  (forall mt vs, In (mt, vs) bs -> (mt = MCorr -> pair_keys vs) /\ forall i, viewed assets vs i -> exact_at T X q mu var mt i) ->
  sat T acc q -> (forall mt vs, In (mt, vs) bs -> views_hold assets T X q mt vs) -> sat T acc' q.
Proof.
  intros Q. induction bs as [|[mt vs] bs IH]; intros acc acc' H EX S V; cbn [all_blocks] in H.
  - injection H as <-. auto.
  - apply bind_ok in H. destruct H as [acc1 [B H]]. apply (IH _ _ H); [intros; apply EX; right; auto| |intros; apply V; right; auto].
    destruct (EX mt vs (or_introl eq_refl)) as [E1 E2].
    apply (build_sat assets T X mu var mt q Q vs _ _ B E1 E2). split; auto. apply V. left; auto.
Qed.

Lemma Rdiv_one x : x / 1 = x. Proof. field. Qed.
(** The linearisation point used by the simultaneous branch. *)
Definition lin_point (T : nat) (X : mat) (mu var : vec) (r : vec) : Prop :=
  (forall i, mu i = mean_of T r X i) /\ (forall i, var i = var_of T r X i).
Lemma q_mean_eq T X q i : q_mean T X q i = mean_of T q X i.
Proof. unfold q_mean, mean_of, expectation. apply sumn_ext. intros; ring. Qed.
Lemma q_var_eq T X q i : q_var T X q (q_mean T X q) i = var_of T q X i.
Proof. unfold q_var, var_of, variance. fold (mean_of T q X i). rewrite q_mean_eq. set (m := mean_of T q X i). clearbody m. unfold expectation. apply sumn_ext. intros; ring. Qed.
Lemma np_cov_eq T X q i j : sumn T q = 1 -> np_cov T X q i j = cov_of T q X i j.
Proof.
  intros H. unfold np_cov, cov_of. rewrite H. fold (q_mean T X q i). fold (q_mean T X q j).
  unfold expectation. rewrite Rdiv_one. rewrite !q_mean_eq, !Rdiv_one. apply sumn_ext. intros; ring.
Qed.
Lemma cov_of_diag T q X i : cov_of T q X i i = var_of T q X i.
Proof. unfold cov_of, var_of, variance. fold (mean_of T q X i). apply expectation_ext. intros; ring. Qed.

Definition blocks_of (mean vol var skew corr : list (vkey * vspec)) := [(MMean, mean); (MVol, vol); (MVar, var); (MSkew, skew); (MCorr, corr)].
Lemma all_blocks_ne assets X mu var bs : forall acc acc', all_blocks assets X bs mu var acc = Ok acc' ->
  (exists mt vs, In (mt, vs) bs /\ vs <> []) \/ ne acc = true -> ne acc' = true.
Proof.
  induction bs as [|[mt vs] bs IH]; intros acc acc' H N; cbn [all_blocks] in H.
  - injection H as <-. destruct N as [[? [? [[] _]]]|]; auto.
  - apply bind_ok in H. destruct H as [acc1 [B H]]. apply (IH _ _ H).
    destruct N as [[mt' [vs' [[E|I] Nv]]]|N].
    + injection E as <- <-. right. apply (build_ne _ _ _ _ _ _ _ _ B). left. auto.
    + left. eauto.
    + right. apply (build_ne _ _ _ _ _ _ _ _ B). right. auto.
Qed.

(** The simultaneous branch: the rows at the linearisation point hold, and no obeying distribution is closer. *)
Lemma simultaneous minimize argsort assets T X p0 mean vol var skew corr q : sound minimize -> is_prob T p0 ->
  (exists mt vs, In (mt, vs) (blocks_of mean vol var skew corr) /\ vs <> []) ->
  posterior minimize argsort assets T X p0 mean vol var skew corr [] [] false = Ok q ->
  exists mu va r c, lin_point T X mu va r /\ is_prob T r /\ (forall s, 0 < q s) /\ is_prob T q /\
    (vol = [] /\ var = [] /\ skew = [] /\ corr = [] \/ mean = [] \/ views_hold assets T X r MMean mean) /\
    (mean = [] -> r = p0) /\
    all_blocks assets X (blocks_of mean vol var skew corr) mu va ([], []) = Ok c /\ sat T c q /\
    nearest (exp (-700)) T p0 (fun w => is_prob T w /\ sat T c w) q.
Proof.
  intros So P0 NE H. unfold posterior in H. apply bind_ok in H. destruct H as [q1 [H H2]].
  cbn [nonempty bind cvar_steps] in H2. injection H2 as ->.
  apply bind_ok in H. destruct H as [[mu va] [L H]]. apply bind_ok in H. destruct H as [c [B H]].
  fold (blocks_of mean vol var skew corr) in B. pose proof (all_blocks_ne _ _ _ _ _ _ _ B (or_introl NE)) as N. unfold ne in N. rewrite N in H.
  destruct (do_ep_ok _ _ _ _ _ So H) as [Pq [Qq [Sq Nq]]].
  assert (LP : lin_point T X (q_mean T X p0) (fun i => np_cov T X p0 i i) p0).
  { split; intros i; [apply q_mean_eq|]. rewrite np_cov_eq by apply P0. apply cov_of_diag. }
  assert (Z : exists r, lin_point T X mu va r /\ is_prob T r /\ (vol = [] /\ var = [] /\ skew = [] /\ corr = [] \/ mean = [] \/ views_hold assets T X r MMean mean) /\ (mean = [] -> r = p0)).
  { destruct (nonempty mean && (nonempty vol || nonempty var || nonempty skew || nonempty corr)) eqn:E.
    - apply bind_ok in L. destruct L as [cm [Bm L]]. apply bind_ok in L. destruct L as [r [Dm L]]. injection L as <- <-.
      destruct (do_ep_ok _ _ _ _ _ So Dm) as [_ [Pr [Sr _]]]. exists r. split; [split; intros i; [apply q_mean_eq|apply q_var_eq]|]. split; auto. split.
      + right. right. apply (build_sat assets T X _ _ MMean r Pr mean _ _ Bm); auto; [discriminate|intros; exact I].
      + intros ->. discriminate.
    - injection L as <- <-. exists p0. split; auto. split; auto. split; auto. apply andb_false_iff in E. destruct E as [E|E].
      + right. left. destruct mean; [auto|discriminate].
      + left. destruct vol; [|discriminate]. destruct var; [|discriminate]. destruct skew; [|discriminate]. destruct corr; [|discriminate]. auto. }
  destruct Z as [r [Z1 [Z2 [Z3 Z4]]]]. exists mu, va, r, c. repeat (split; [assumption|]). exact Nq.
Qed.

(** ** Quantile views *)
Lemma prob_le_row T q X i level : expectation T q (fun s => if Rleb (X s i) level then 1 else 0) = prob_le T q X i level.
Proof. apply expectation_ext. intros s Hs. destruct (Rleb_spec (X s i) level), (Rle_dec (X s i) level); try reflexivity; lra. Qed.
Lemma quantile_sat assets T X q : forall d acc acc', quantile_rows assets X d acc = Ok acc' ->
  sat T acc' q <-> sat T acc q /\ quantiles_hold assets T X q d.
Proof.
  induction d as [|[key sp] d IH]; intros acc acc' H; cbn [quantile_rows] in H.
  - injection H as <-. split; [intros S; split; [auto|intros ? ? []]|tauto].
  - apply bind_ok in H. destruct H as [i [I H]]. destruct key as [a|l]; [|discriminate]. cbn [key_idx] in I. apply asset_idx_column in I.
    destruct sp as [[level pv]|]; [|discriminate]. apply bind_ok in H. destruct H as [l [P H]]. apply bind_ok in H. destruct H as [acc1 [A H]].
    destruct (add_specs_sat T _ _ _ l _ _ A) as [K S]. rewrite (IH _ _ H), S.
    pose proof (specs_meets pv l _ (fun p => p) (expectation T q (fun s => if Rleb (X s i) level then 1 else 0)) (prob_le T q X i level) P K) as M.
    rewrite prob_le_row in M. rewrite prob_le_row. specialize (M ltac:(intros; tauto)). rewrite M. split.
    + intros [[S0 Mx] Q]. split; auto. intros key' sp' [E|J]; [|auto]. injection E as <- <-. exists a, i, level, pv. auto.
    + intros [S0 Q]. split; [split; auto|intros key' sp' J; apply Q; right; auto].
      destruct (Q _ _ (or_introl eq_refl)) as [a' [i' [lv [v' [E1 [C [E2 Mx]]]]]]]. injection E1 as <-. injection E2 as <- <-.
      rewrite (column_fun _ _ _ _ I C). auto.
Qed.
Lemma quantile_ne assets X d : forall acc acc', quantile_rows assets X d acc = Ok acc' -> d <> [] \/ ne acc = true -> ne acc' = true.
Proof.
  induction d as [|[key sp] d IH]; intros acc acc' H N; cbn [quantile_rows] in H.
  - injection H as <-. destruct N; [congruence|auto].
  - apply bind_ok in H. destruct H as [i [I H]]. destruct sp as [[level pv]|]; [|discriminate]. apply bind_ok in H. destruct H as [l [P H]]. apply bind_ok in H. destruct H as [acc1 [A H]].
    apply (IH _ _ H). right. apply (add_specs_ne _ _ _ _ _ _ A). left. eapply parse_ne; eauto.
Qed.
Lemma posterior_quantile minimize argsort assets T X p0 mean vol var skew corr quant b q : sound minimize -> quant <> [] ->
  posterior minimize argsort assets T X p0 mean vol var skew corr [] quant b = Ok q ->
  (forall s, 0 < q s) /\ exists r, posterior minimize argsort assets T X p0 mean vol var skew corr [] [] b = Ok r /\
    nearest (exp (-700)) T r (fun w => is_prob T w /\ quantiles_hold assets T X w quant) q.
Proof.
  intros So Nq H. unfold posterior in *. apply bind_ok in H. destruct H as [r [H1 H]]. rewrite H1. cbn [bind nonempty cvar_steps].
  assert (E : nonempty quant = true) by (destruct quant; [congruence|reflexivity]). rewrite E in H. apply bind_ok in H. destruct H as [q2 [H H2]]. cbn [cvar_steps] in H2. injection H2 as ->.
  apply bind_ok in H. destruct H as [c [B H]]. pose proof (quantile_ne _ _ _ _ _ B (or_introl Nq)) as N. unfold ne in N. rewrite N in H.
  destruct (do_ep_ok _ _ _ _ _ So H) as [Pq [Qq [Sq Nn]]]. split; auto. exists r. split; auto.
  apply (nearest_weaken _ _ _ (fun w => is_prob T w /\ sat T c w)); auto. intros w. pose proof (quantile_sat assets T X w _ _ _ B) as QS. split; intros [Pw Hw]; split; auto.
  - apply QS; auto.
  - apply QS. split; auto. split; intros ? ? [].
Qed.

(** ** CVaR views *)
Lemma position_nth o s : In s o -> (position s o < List.length o)%nat /\ nth (position s o) o 0%nat = s.
Proof.
  induction o as [|j t IH]; intros H; [destruct H|]. cbn [position]. destruct (Nat.eqb_spec s j) as [-> |N]; [cbn; split; [lia|auto]|].
  destruct H as [H|H]; [congruence|]. destruct (IH H) as [A B]. cbn. split; [lia|auto].
Qed.
Lemma sorted_nth l : StronglySorted Rle l -> forall i j, (i <= j < List.length l)%nat -> nth i l 0 <= nth j l 0.
Proof.
  induction 1 as [|a l S IH F]; intros i j Hij; [cbn in Hij; lia|]. destruct j as [|j]; [replace i with 0%nat by lia; lra|].
  destruct i as [|i]; [|cbn; apply IH; cbn in Hij; lia]. cbn. rewrite Forall_forall in F. apply F. apply nth_In. cbn in Hij. lia.
Qed.
Section Tail.
  Variables (argsort : list R -> list nat) (T : nat) (X : mat) (i c : nat).
  Hypothesis AS : sorts Rle 0 argsort.
  Hypothesis C0 : (1 <= c)%nat.
  Hypothesis T0 : (1 <= T)%nat.
  Let x := map (fun s => X s i) (seq 0 T).
  Let o := argsort x.
  Lemma o_perm : Permutation o (seq 0 T).
  Proof. destruct (AS x) as [P _]. unfold x in P. rewrite map_length, seq_length in P. exact P. Qed.
  Lemma o_len : List.length o = T.
  Proof. rewrite (Permutation_length o_perm). apply seq_length. Qed.
  Lemma o_in s : (s < T)%nat -> In s o.
  Proof. intros H. apply (Permutation_in s (Permutation_sym o_perm)), in_seq. lia. Qed.
  Lemma pos_sorted s t : (s < T)%nat -> (t < T)%nat -> (position s o <= position t o)%nat -> X s i <= X t i.
  Proof.
    intros Hs Ht L. destruct (AS x) as [_ S]. destruct (position_nth o s (o_in s Hs)) as [L1 E1]. destruct (position_nth o t (o_in t Ht)) as [L2 E2].
    assert (V : forall k, (k < T)%nat -> nth k (take 0 x o) 0 = X (nth k o 0%nat) i).
    { intros k Hk. unfold take. rewrite (nth_map_lt (fun j => nth j x 0) o k 0%nat 0) by (rewrite o_len; auto). unfold x. apply (nth_map_seq (fun s => X s i)).
      assert (In (nth k o 0%nat) (seq 0 T)) by (apply (Permutation_in _ o_perm), nth_In; rewrite o_len; auto). apply in_seq in H. lia. }
    rewrite o_len in *. pose proof (sorted_nth _ S (position s o) (position t o)) as M. fold o in M. rewrite !V, E1, E2 in M by auto. apply M.
    split; auto. rewrite take_length. fold o. rewrite o_len. auto.
  Qed.
  (** The last scenario of the tail. *)
  Lemma tail_edge : exists e, (e < T)%nat /\ (position e o < c)%nat /\ (forall s, (s < T)%nat -> (position s o < c)%nat -> X s i <= X e i) /\
    (forall s, (s < T)%nat -> ~ (position s o < c)%nat -> X e i <= X s i).
  Proof.
    set (k := (Nat.min c T - 1)%nat). exists (nth k o 0%nat).
    assert (Hk : (k < T)%nat) by (unfold k; lia).
    assert (He : (nth k o 0%nat < T)%nat).
    { assert (In (nth k o 0%nat) (seq 0 T)) by (apply (Permutation_in _ o_perm), nth_In; rewrite o_len; auto). apply in_seq in H. lia. }
    assert (ND : NoDup o) by (apply (Permutation_NoDup (Permutation_sym o_perm)), seq_NoDup).
    assert (Pk : position (nth k o 0%nat) o = k).
    { destruct (position_nth o (nth k o 0%nat) (o_in _ He)) as [L E]. apply (proj1 (NoDup_nth o 0%nat) ND); auto. rewrite o_len. auto. }
    split; auto. split; [rewrite Pk; unfold k; lia|]. split; intros s Hs Hc; apply pos_sorted; auto; rewrite Pk; unfold k.
    - destruct (position_nth o s (o_in s Hs)) as [L _]. rewrite o_len in L. lia.
    - lia.
  Qed.

  Variables (q : vec) (gamma target : R).
  Hypothesis QP : forall s, 0 < q s.
  Hypothesis Q1 : sumn T q = 1.
  Let inside (s : nat) : R := if (position s o <? c)%nat then 1 else 0.
  Hypothesis H1 : expectation T q inside = gamma.
  Hypothesis H2 : expectation T q (fun s => if (position s o <? c)%nat then X s i else 0) = gamma * target.
  Lemma expect_seq f : expect (map q (seq 0 T)) x f = expectation T q (fun s => f (X s i)).
  Proof.
    unfold expect, x. rewrite (rsum_map2_sumn (fun a b => a * f b) _ _ 0 0 T) by (rewrite map_length, seq_length; reflexivity).
    apply sumn_ext. intros s Hs. rewrite (nth_map_seq q), (nth_map_seq (fun s => X s i)) by auto. reflexivity.
  Qed.
  Lemma gamma_pos : 0 < gamma.
  Proof.
    destruct tail_edge as [e [He [Hc _]]]. rewrite <- H1. unfold expectation.
    apply Rlt_le_trans with (q e * inside e).
    - unfold inside. assert (E : (position e o <? c)%nat = true) by (apply Nat.ltb_lt; auto). rewrite E. pose proof (QP e). lra.
    - assert (N : forall s, 0 <= q s * inside s) by (intros s; unfold inside; pose proof (QP s); destruct (_ <? _)%nat; lra).
      assert (Gn : forall n, (e < n)%nat -> q e * inside e <= sumn n (fun s => q s * inside s)).
      { induction n; intros L; [lia|]. simpl. destruct (Nat.eq_dec e n) as [-> |].
        - assert (0 <= sumn n (fun s => q s * inside s)) by (apply sumn_nonneg; intros; apply N). lra.
        - assert (e < n)%nat by lia. specialize (IHn H). pose proof (N n). lra. }
      apply Gn; auto.
  Qed.
  Lemma tail_sum k : expectation T q (fun s => inside s * (- X s i - k)) = gamma * (- target - k).
  Proof.
    rewrite (expectation_ext T q _ (fun s => (0 + - 1 * (if (position s o <? c)%nat then X s i else 0)) + - k * inside s)).
    - rewrite (expectation_lin T q (fun s => 0 + - 1 * (if (position s o <? c)%nat then X s i else 0)) inside).
      rewrite (expectation_lin T q (fun _ => 0) (fun s => if (position s o <? c)%nat then X s i else 0)), expectation_const, H1, H2 by auto. ring.
    - intros s Hs. unfold inside. destruct (_ <? _)%nat; ring.
  Qed.
  Lemma tail_cvar : 0 < gamma /\ is_cvar (map q (seq 0 T)) x gamma (- target).
  Proof.
    pose proof gamma_pos as G. split; auto. split.
    - intros k. unfold ru. rewrite expect_seq.
      assert (L : gamma * (- target - k) <= expectation T q (fun s => Rmax 0 (- X s i - k))).
      { rewrite <- tail_sum. apply sumn_le. intros s Hs. apply Rmult_le_compat_l; [apply Rlt_le, QP|]. unfold inside.
        destruct (_ <? _)%nat; [rewrite Rmult_1_l; apply Rmax_r|rewrite Rmult_0_l; apply Rmax_l]. }
      apply Rmult_le_reg_r with gamma; auto.
      replace ((k + expectation T q (fun s => Rmax 0 (- X s i - k)) / gamma) * gamma) with (k * gamma + expectation T q (fun s => Rmax 0 (- X s i - k))) by (field; lra). lra.
    - destruct tail_edge as [e [He [Hc [Ei Eo]]]]. exists (- X e i). unfold ru. rewrite expect_seq.
      rewrite (expectation_ext T q (fun s => Rmax 0 (- X s i - - X e i)) (fun s => inside s * (- X s i - - X e i))).
      + rewrite tail_sum. field. lra.
      + intros s Hs. unfold inside. destruct (Nat.ltb_spec (position s o) c) as [L|L].
        * rewrite Rmult_1_l. apply Rmax_right. pose proof (Ei s Hs L). lra.
        * rewrite Rmult_0_l. apply Rmax_left. pose proof (Eo s Hs ltac:(lia)). lra.
  Qed.
End Tail.

Lemma at_s_ok minimize argsort T X i gamma target p s q kl' : sound minimize -> sorts Rle 0 argsort -> (1 <= s)%Z ->
  at_s minimize argsort T X i gamma target p s = Some (q, kl') ->
  (forall s, 0 < q s) /\ is_prob T q /\ (forall s, (s < T)%nat -> exp (-700) <= q s) /\ 0 < gamma /\ is_cvar (map q (seq 0 T)) (map (fun s => X s i) (seq 0 T)) gamma (- target) /\ kl' = kl T q p.
Proof.
  intros So AS Hs H. unfold at_s, solve_for in H. destruct (entropy_pooling _ _ _ _ _) as [q'|] eqn:E; [|discriminate]. injection H as <- <-.
  assert (Ho : has_ones T (tail_rows argsort T X i (Z.to_nat (s + 1)) gamma target)) by (exists (fun _ => 1); split; [right; right; left; reflexivity|auto]).
  destruct (ep_floor_seq _ _ _ _ _ _ _ So Ho E) as [P [[Q [HE _]] [F _]]].
  assert (T0 : (1 <= T)%nat).
  { destruct T; [|lia]. exfalso. destruct Q as [_ Q]. cbn in Q. lra. }
  split; auto. split; auto. split; auto.
  assert (R : 0 < gamma /\ is_cvar (map q' (seq 0 T)) (map (fun s0 => X s0 i) (seq 0 T)) gamma (- target)).
  { apply (tail_cvar argsort T X i (Z.to_nat (s + 1)) AS); auto; try lia; try apply Q.
    - apply HE. left. reflexivity.
    - apply HE. right. left. reflexivity. }
  destruct R. auto.
Qed.
Definition good minimize argsort T X i gamma target p (r : option (vec * R)) : Prop :=
  match r with None => True | Some y => exists s, (1 <= s)%Z /\ at_s minimize argsort T X i gamma target p s = Some y end.
Lemma newton_good minimize argsort T X i gamma target p fuel : forall s best, (1 <= s)%Z ->
  good minimize argsort T X i gamma target p best -> good minimize argsort T X i gamma target p (newton minimize argsort T X fuel i gamma target p s best).
Proof.
  induction fuel as [|fuel IH]; intros s best Hs G; [exact G|]. cbn [newton].
  destruct (at_s _ _ _ _ _ _ _ _ (Z.max 1 (s - 1))) as [[? lo]|]; [|exact G].
  destruct (at_s _ _ _ _ _ _ _ _ s) as [[? mid]|]; [|exact G].
  destruct (at_s _ _ _ _ _ _ _ _ (Z.min _ _)) as [[? hi]|]; [|exact G].
  destruct (Rltb _ _); [exact G|]. set (sn := Z.max 1 _). destruct (sn =? s)%Z; [exact G|].
  assert (Hn : (1 <= sn)%Z) by (unfold sn; lia). apply IH; auto.
  destruct (at_s _ _ _ _ _ _ _ _ sn) as [[qn kn]|] eqn:E; [|exact G].
  destruct best as [[qb kb]|]; [destruct (Rltb kn kb); [|exact G]|]; exists sn; auto.
Qed.
(** Where the search starts. *)
Definition start_s argsort T (X : mat) i gamma (p : vec) : Z :=
  Z.max 1 (Z.min (Z.of_nat (search_left gamma (cumsum 0 (take 0 (map p (seq 0 T)) (argsort (map (fun s => X s i) (seq 0 T))))))) (Z.of_nat T - 1)).
Lemma solve_cvar_unfold minimize argsort T X i gamma target p : solve_cvar minimize argsort T X i gamma target p =
  match newton minimize argsort T X 20 i gamma target p (start_s argsort T X i gamma p) (at_s minimize argsort T X i gamma target p (start_s argsort T X i gamma p)) with
  | Some (q, _) => Ok q | None => Err RuntimeError end.
Proof. reflexivity. Qed.
#[global] Opaque solve_cvar.
Lemma solve_cvar_ok minimize argsort T X i gamma target p q : sound minimize -> sorts Rle 0 argsort ->
  solve_cvar minimize argsort T X i gamma target p = Ok q ->
  (forall s, 0 < q s) /\ is_prob T q /\ 0 < gamma /\ is_cvar (map q (seq 0 T)) (map (fun s => X s i) (seq 0 T)) gamma (- target).
Proof.
  intros So AS H. rewrite solve_cvar_unfold in H. assert (Hb : (1 <= start_s argsort T X i gamma p)%Z) by (unfold start_s; lia).
  revert H Hb. generalize (start_s argsort T X i gamma p). intros sb. generalize 20%nat. intros n H Hb.
  pose proof (newton_good minimize argsort T X i gamma target p n sb (at_s minimize argsort T X i gamma target p sb) Hb) as G.
  destruct (newton _ _ _ _ n _ _ _ _ _ _) as [[q' k]|]; [|discriminate]. injection H as <-.
  destruct G as [s [Hs A]].
  { destruct (at_s _ _ _ _ _ _ _ _ sb) as [y|] eqn:B; [exists sb; auto|exact I]. }
  destruct (at_s_ok _ _ _ _ _ _ _ _ _ _ _ So AS Hs A) as [? [? [_ [? [? _]]]]]. auto.
Qed.
