(** Proofs about the frontier's selectors. *)
From Coq Require Import String.
From Verif Require Import RBase SortLib FrModel FrSpec.
Open Scope R_scope.

(** * argmin/argmax *)
Section ArgBest.
Context {A : Type} (better : A -> A -> bool) (d : A).
Hypothesis split : forall x y b, better x b = true -> better x y = true \/ better y b = true.
Hypothesis asym : forall x y, better x y = true -> better y x = false.

Lemma argbest_from_spec l : forall L best bi i, (skipn i L = l)%nat -> (i + List.length l = List.length L)%nat ->
  (bi < i)%nat -> nth bi L d = best -> (forall j, (j < i)%nat -> better (nth j L d) best = false) ->
  (forall j, (j < bi)%nat -> better best (nth j L d) = true) ->
  let k := argbest_from better best bi i l in
  (k < List.length L)%nat /\ (forall j, (j < List.length L)%nat -> better (nth j L d) (nth k L d) = false) /\
  (forall j, (j < k)%nat -> better (nth k L d) (nth j L d) = true).
Proof.
  induction l as [|x xs IH]; intros L best bi i Hs Hl Hb Hn Hle Hlt k; subst k; cbn [argbest_from].
  - simpl in Hl. split; [lia|]. split; [|rewrite Hn; exact Hlt]. intros j Hj. rewrite Hn. apply Hle. lia.
  - assert (Hx : nth i L d = x).
    { rewrite <- (firstn_skipn i L), Hs. simpl in Hl. rewrite app_nth2; rewrite firstn_length_le by lia; [|lia].
      rewrite Nat.sub_diag. reflexivity. }
    assert (Hs' : skipn (S i) L = xs).
    { clear -Hs. revert L Hs. induction i as [|i IH]; intros L Hs; destruct L as [|a L]; try (simpl in *; congruence).
      apply IH. exact Hs. }
    simpl in Hl. destruct (better x best) eqn:E.
    + apply (IH L x i (S i)); auto; try lia.
      * intros j Hj. destruct (Nat.eq_dec j i) as [->|Hne].
        -- rewrite Hx. destruct (better x x) eqn:F; [|reflexivity]. rewrite (asym _ _ F) in F. discriminate.
        -- assert (better (nth j L d) best = false) as K by (apply Hle; lia).
           destruct (split x (nth j L d) best E) as [K1|K1]; [exact (asym _ _ K1)|congruence].
      * intros j Hj. assert (better (nth j L d) best = false) as K by (apply Hle; lia).
        destruct (split x (nth j L d) best E) as [K1|K1]; [exact K1|congruence].
    + apply (IH L best bi (S i)); auto; try lia.
      intros j Hj. destruct (Nat.eq_dec j i) as [->|Hne]; [rewrite Hx; exact E|apply Hle; lia].
Qed.

Lemma argbest_spec l k : argbest better l = Ok k ->
  (k < List.length l)%nat /\ (forall j, (j < List.length l)%nat -> better (nth j l d) (nth k l d) = false) /\
  (forall j, (j < k)%nat -> better (nth k l d) (nth j l d) = true).
Proof.
  destruct l as [|x xs]; [discriminate|]. unfold argbest. intros [= <-].
  apply (argbest_from_spec xs (x :: xs) x 0 1); auto; try (simpl; lia).
  intros j Hj. assert (j = 0%nat) as -> by lia. simpl. destruct (better x x) eqn:F; [|reflexivity].
  rewrite (asym _ _ F) in F. discriminate.
Qed.

End ArgBest.

Lemma argbest_err {A} (better : A -> A -> bool) l e : argbest better l = Err e -> l = [] /\ e = ValueError.
Proof. destruct l as [|x xs]; [|discriminate]. simpl. intros [= <-]. auto. Qed.
Lemma argbest_total {A} (better : A -> A -> bool) l : l <> [] -> exists k, argbest better l = Ok k.
Proof. destruct l as [|x xs]; [congruence|]. intros _. eexists. reflexivity. Qed.

Lemma argmin_spec l k : argmin l = Ok k -> first_best (List.length l) anyp (nthr l) k.
Proof.
  intros H. destruct (argbest_spec Rltb 0) with (l := l) (k := k) as (H1 & H2 & H3); auto.
  - intros x y b K. rewrite Rltb_true in K. destruct (Rlt_dec x y); [left|right]; apply Rltb_true; lra.
  - intros x y K. rewrite Rltb_true in K. apply Rltb_false. lra.
  - split; [exact H1|]. split; [exact I|]. split; intros j Hj _; unfold nthr.
    + apply Rltb_false. auto.
    + apply Rltb_true. auto.
Qed.

Lemma argmax_spec l k : argmax l = Ok k -> first_best (List.length l) anyp (fun i => - nthr l i) k.
Proof.
  intros H. destruct (argbest_spec (fun x b => Rltb b x) 0) with (l := l) (k := k) as (H1 & H2 & H3); auto.
  - intros x y b K. rewrite Rltb_true in K. destruct (Rlt_dec y x); [left|right]; apply Rltb_true; lra.
  - intros x y K. rewrite Rltb_true in K. apply Rltb_false. lra.
  - split; [exact H1|]. split; [exact I|]. split; intros j Hj _; unfold nthr.
    + specialize (H2 j Hj). rewrite Rltb_false in H2. lra.
    + specialize (H3 j Hj). rewrite Rltb_true in H3. lra.
Qed.

Lemma first_best_ext n P key key' i : (forall j, (j < n)%nat -> key j = key' j) ->
  first_best n P key i -> first_best n P key' i.
Proof.
  intros E (H1 & H2 & H3 & H4). split; [exact H1|]. split; [exact H2|]. split; intros j Hj Pj.
  - rewrite <- !E by assumption. auto.
  - rewrite <- !E by lia. auto.
Qed.

(** * Feasible subsets *)
Lemma where_in c l i : In i (where_idx c l) <-> (i < List.length l)%nat /\ c (nth i l 0) = true.
Proof. unfold where_idx. rewrite filter_In, in_seq. intuition lia. Qed.

Lemma filter_seq_incr c n : forall a k k', let o := filter c (seq a n) in
  (k < k' < List.length o)%nat -> (nth k o 0 < nth k' o 0)%nat.
Proof.
  induction n as [|n IH]; intros a k k' o H; subst o; [simpl in *; lia|].
  cbn [seq filter] in *. destruct (c a); [|apply (IH (S a)); exact H].
  destruct k' as [|k']; [lia|]. destruct k as [|k]; cbn [nth List.length] in *.
  - assert (K : In (nth k' (filter c (seq (S a) n)) 0%nat) (filter c (seq (S a) n))) by (apply nth_In; lia).
    apply filter_In in K as [K _]. apply in_seq in K. lia.
  - apply (IH (S a)). lia.
Qed.

Lemma where_first_best c l (keys : list R) k : where_idx c l <> [] ->
  first_best (List.length (where_idx c l)) anyp (fun j => nth (nth j (where_idx c l) 0%nat) keys 0) k ->
  first_best (List.length l) (fun i => c (nth i l 0) = true) (nthr keys) (nth k (where_idx c l) 0%nat).
Proof.
  intros Hne (H1 & _ & H3 & H4). set (o := where_idx c l) in *.
  assert (Hin : In (nth k o 0%nat) o) by (apply nth_In; exact H1). apply where_in in Hin as [Hi Hc].
  split; [exact Hi|]. split; [exact Hc|]. split; intros j Hj Pj.
  - assert (In j o) as K by (apply where_in; auto). apply (In_nth _ _ 0%nat) in K as (m & Hm & <-). apply (H3 m Hm I).
  - assert (In j o) as K by (apply where_in; split; [lia|exact Pj]). apply (In_nth _ _ 0%nat) in K as (m & Hm & E).
    rewrite <- E. apply H4; [|exact I]. destruct (Nat.lt_trichotomy m k) as [K|[K|K]]; [exact K| |].
    + subst m. lia.
    + pose proof (filter_seq_incr (fun i => c (nth i l 0)) (List.length l) 0 k m (conj K Hm)) as F.
      change (filter (fun i => c (nth i l 0)) (seq 0 (List.length l))) with o in F. lia.
Qed.

Lemma first_best_neg c l keys k : where_idx c l <> [] ->
  first_best (List.length (where_idx c l)) anyp (fun j => - nth (nth j (where_idx c l) 0%nat) keys 0) k ->
  first_best (List.length l) (fun i => c (nth i l 0) = true) (fun i => - nthr keys i) (nth k (where_idx c l) 0%nat).
Proof.
  intros Hne H. apply (first_best_ext _ _ (nthr (map Ropp keys))).
  - intros j _. unfold nthr. rewrite <- (Ropp_0) at 1. rewrite map_nth. reflexivity.
  - apply where_first_best; [exact Hne|]. eapply first_best_ext; [|exact H]. intros j _. cbv beta.
    rewrite <- (Ropp_0) at 2. rewrite map_nth. reflexivity.
Qed.

(** * Labels *)
Lemma lookup_in {A} k (l : list (string * A)) v : lookup k l = Some v ->
  exists pre post, l = (pre ++ (k, v) :: post)%list /\ forall v', ~ In (k, v') pre.
Proof.
  induction l as [|[k' v'] l IH]; simpl; [discriminate|]. destruct (String.eqb_spec k k') as [<-|Hne].
  - intros [= <-]. exists [], l. split; [reflexivity|]. simpl. tauto.
  - intros H. destruct (IH H) as (pre & post & -> & Hp). exists ((k', v') :: pre), post. split; [reflexivity|].
    intros w [E|E]; [congruence|]. exact (Hp w E).
Qed.
Lemma lookup_none {A} k (l : list (string * A)) : lookup k l = None -> forall v, ~ In (k, v) l.
Proof.
  induction l as [|[k' v'] l IH]; simpl; [tauto|]. destruct (String.eqb_spec k k') as [<-|Hne]; [discriminate|].
  intros H v [E|E]; [congruence|]. exact (IH H v E).
Qed.
Lemma lookup_first {A} k (v : A) pre post : (forall v', ~ In (k, v') pre) -> lookup k (pre ++ (k, v) :: post)%list = Some v.
Proof.
  induction pre as [|[k' v'] pre IH]; simpl; intros H.
  - rewrite String.eqb_refl. reflexivity.
  - destruct (String.eqb_spec k k') as [<-|Hne]; [exfalso; apply (H v'); auto|]. apply IH. intros w Hw. apply (H w). auto.
Qed.

Lemma risk_vector_ok f l v : risk_vector f l = Ok v <-> risks_for f l v.
Proof.
  unfold risk_vector. split.
  - destruct l as [l|]; [|intros [= <-]; constructor]. destruct (String.eqb_spec l (f_measure f)) as [->|Hne].
    + intros [= <-]. constructor.
    + destruct (lookup l (f_alt f)) as [w|] eqn:E; [|discriminate]. intros [= <-].
      apply lookup_in in E as (pre & post & E & Hp). econstructor; eauto.
  - intros H. inversion H as [| |l' v' pre post Hne E Hp]; subst; [reflexivity|rewrite String.eqb_refl; reflexivity|].
    destruct (String.eqb_spec l' (f_measure f)) as [->|_]; [congruence|]. rewrite E, lookup_first by assumption. reflexivity.
Qed.
Lemma risk_vector_err f l e : risk_vector f l = Err e <-> e = KeyError /\ unknown_label f l.
Proof.
  unfold risk_vector, unknown_label. split.
  - destruct l as [l|]; [|discriminate]. destruct (String.eqb_spec l (f_measure f)) as [->|Hne]; [discriminate|].
    destruct (lookup l (f_alt f)) as [w|] eqn:E; [discriminate|]. intros [= <-]. split; [reflexivity|].
    exists l. split; [reflexivity|]. split; [exact Hne|]. apply lookup_none. exact E.
  - intros (-> & l' & -> & Hne & Hn). destruct (String.eqb_spec l' (f_measure f)) as [->|_]; [congruence|].
    destruct (lookup l' (f_alt f)) as [w|] eqn:E; [|reflexivity]. apply lookup_in in E as (pre & post & E & _).
    exfalso. apply (Hn w). rewrite E. apply in_elt.
Qed.
Lemma risks_for_length f l v : well_formed f -> risks_for f l v -> List.length v = size f.
Proof.
  intros (_ & Hr & _ & Ha) H. inversion H as [| |l' v' pre post Hne E Hp]; subst; auto. apply (Ha l'). rewrite E. apply in_elt.
Qed.

Lemma make_frontier_ok n cols ret risk m names alt f : make_frontier n cols ret risk m names alt = Ok f ->
  well_formed f /\ f = mkFr n cols ret risk m names alt.
Proof.
  unfold make_frontier. intros H. apply guard_ok in H as [H1 H]. apply guard_ok in H as [H2 H].
  apply guard_ok in H as [H3 H]. apply guard_ok in H as [H4 H]. injection H as <-. split; [|reflexivity].
  unfold well_formed, size; cbn. apply Nat.eqb_eq in H1, H2. rewrite forallb_forall in H4. repeat split; auto.
  - intros l ->. apply Nat.eqb_eq. exact H3.
  - intros k v Hk. apply Nat.eqb_eq. apply (H4 _ Hk).
Qed.
Lemma make_frontier_total n cols ret risk m names alt : well_formed (mkFr n cols ret risk m names alt) ->
  make_frontier n cols ret risk m names alt = Ok (mkFr n cols ret risk m names alt).
Proof.
  unfold well_formed, size; cbn. intros (H1 & H2 & H3 & H4). unfold make_frontier.
  rewrite H1, H2, !Nat.eqb_refl. cbn [guard]. destruct names as [l|]; [rewrite (H3 l eq_refl), Nat.eqb_refl|]; cbn [guard].
  all: replace (forallb _ alt) with true; [reflexivity|]; symmetry; apply forallb_forall; intros [k v] Hk;
    apply Nat.eqb_eq; exact (H4 k v Hk).
Qed.
Lemma make_frontier_err n cols ret risk m names alt e : make_frontier n cols ret risk m names alt = Err e -> e = ValueError.
Proof. unfold make_frontier, guard. intros H. repeat match type of H with context[if ?b then _ else _] => destruct b end; congruence. Qed.

Lemma pick_is f risks i : (i < size f)%nat -> is_portfolio f risks i (pick f risks i).
Proof. intros H. repeat split; auto. Qed.

(** * Selectors *)
Lemma min_risk_ok f l s : well_formed f -> min_risk f l = Ok s ->
  exists risks i, risks_for f l risks /\ is_portfolio f risks i s /\ first_best (size f) anyp (nthr risks) i.
Proof.
  intros Hw H. unfold min_risk in H. apply bind_ok in H as (risks & Hr & H). apply bind_ok in H as (i & Hi & H).
  injection H as <-. apply risk_vector_ok in Hr. apply argmin_spec in Hi. rewrite (risks_for_length f l risks Hw Hr) in Hi.
  exists risks, i. split; [exact Hr|]. split; [apply pick_is; apply Hi|exact Hi].
Qed.

Lemma max_return_ok f s : max_return f = Ok s ->
  exists i, is_portfolio f (f_risk f) i s /\ first_best (size f) anyp (fun j => - ret_of f j) i.
Proof.
  intros H. unfold max_return in H. apply bind_ok in H as (i & Hi & H).
  injection H as <-. apply argmax_spec in Hi. exists i. split; [apply pick_is; apply Hi|exact Hi].
Qed.

Lemma closest_risk_ok f t l s : well_formed f -> closest_risk f t l = Ok s ->
  exists risks i, risks_for f l risks /\ is_portfolio f risks i s /\
    first_best (size f) anyp (fun j => Rabs (nthr risks j - t)) i.
Proof.
  intros Hw H. unfold closest_risk in H. apply bind_ok in H as (risks & Hr & H). apply bind_ok in H as (i & Hi & H).
  injection H as <-. apply risk_vector_ok in Hr. apply argmin_spec in Hi. rewrite map_length, (risks_for_length f l risks Hw Hr) in Hi.
  exists risks, i. split; [exact Hr|]. split; [apply pick_is; apply Hi|]. eapply first_best_ext; [|exact Hi].
  intros j Hj. unfold nthr. erewrite (nth_map_lt (fun r => Rabs (r - t)) risks j 0 0) by (rewrite (risks_for_length f l risks Hw Hr); exact Hj). reflexivity.
Qed.

Lemma at_risk_ok f m l s : well_formed f -> at_risk f m l = Ok s ->
  exists risks i, risks_for f l risks /\ is_portfolio f risks i s /\
    first_best (size f) (fun j => nthr risks j <= m) (fun j => - ret_of f j) i.
Proof.
  intros Hw H. unfold at_risk in H. apply bind_ok in H as (risks & Hr & H). apply risk_vector_ok in Hr.
  set (c := fun r => Rleb r m) in *. destruct (where_idx c risks) as [|i0 o] eqn:Eo; [discriminate|]. rewrite <- Eo in H.
  apply bind_ok in H as (k & Hk & H). injection H as <-.
  apply argmax_spec in Hk. unfold take at 1 in Hk. rewrite map_length in Hk.
  assert (Hb : first_best (List.length risks) (fun i => c (nth i risks 0) = true) (fun i => - nthr (f_ret f) i) (nth k (where_idx c risks) 0%nat)).
  { apply first_best_neg; [congruence|]. eapply first_best_ext; [|exact Hk]. intros j Hj. unfold nthr, take.
    rewrite (nth_map_lt (fun i => nth i (f_ret f) 0) _ j 0%nat 0) by exact Hj. reflexivity. }
  rewrite (risks_for_length f l risks Hw Hr) in Hb. exists risks, (nth k (where_idx c risks) 0%nat).
  split; [exact Hr|]. split; [apply pick_is; apply Hb|].
  destruct Hb as (B1 & B2 & B3 & B4). split; [exact B1|]. split; [apply Rleb_true; exact B2|].
  split; intros j Hj Pj; [apply B3|apply B4]; auto; apply Rleb_true; exact Pj.
Qed.

Lemma at_return_ok f m l s : well_formed f -> at_return f m l = Ok s ->
  exists risks i, risks_for f l risks /\ is_portfolio f risks i s /\
    first_best (size f) (fun j => m <= ret_of f j) (nthr risks) i.
Proof.
  intros Hw H. unfold at_return in H.
  set (c := fun r => Rleb m r) in *. destruct (where_idx c (f_ret f)) as [|i0 o] eqn:Eo; [discriminate|]. rewrite <- Eo in H.
  apply bind_ok in H as (risks & Hr & H). apply risk_vector_ok in Hr.
  apply bind_ok in H as (k & Hk & H). injection H as <-.
  apply argmin_spec in Hk. unfold take at 1 in Hk. rewrite map_length in Hk.
  assert (Hb : first_best (List.length (f_ret f)) (fun i => c (nth i (f_ret f) 0) = true) (nthr risks) (nth k (where_idx c (f_ret f)) 0%nat)).
  { apply where_first_best; [congruence|]. eapply first_best_ext; [|exact Hk]. intros j Hj. unfold nthr, take.
    rewrite (nth_map_lt (fun i => nth i risks 0) _ j 0%nat 0) by exact Hj. reflexivity. }
  exists risks, (nth k (where_idx c (f_ret f)) 0%nat).
  split; [exact Hr|]. split; [apply pick_is; apply Hb|].
  destruct Hb as (B1 & B2 & B3 & B4). split; [exact B1|]. split; [apply Rleb_true; exact B2|].
  split; intros j Hj Pj; [apply B3|apply B4]; auto; apply Rleb_true; exact Pj.
Qed.

Lemma map2_length {A B C} (g : A -> B -> C) l m : List.length l = List.length m -> List.length (map2 g l m) = List.length l.
Proof. revert m; induction l as [|x l IH]; intros [|y m]; simpl; intros H; try lia. rewrite IH by lia. reflexivity. Qed.
Lemma map2_nth {A B C} (g : A -> B -> C) l m i da db dc : List.length l = List.length m -> (i < List.length l)%nat ->
  nth i (map2 g l m) dc = g (nth i l da) (nth i m db).
Proof. revert m i; induction l as [|x l IH]; intros [|y m] i; simpl; intros H Hi; try lia. destruct i; [reflexivity|]. apply IH; lia. Qed.

Lemma tangency_ok f rf s : well_formed f -> tangency f rf = Ok s ->
  exists i, is_portfolio f (f_risk f) i s /\
    first_best (size f) (fun j => nthr (f_risk f) j <> 0) (fun j => - ((ret_of f j - rf) / nthr (f_risk f) j)) i.
Proof.
  intros (_ & Hl & _) H. unfold tangency in H. destruct (forallb _ _) eqn:Ef; [discriminate|].
  apply bind_ok in H as (i & Hi & H). injection H as <-.
  destruct (argbest_spec better_opt None) with (l := map2 (fun ret r => if Reqb r 0 then None else Some ((ret - rf) / r)) (f_ret f) (f_risk f)) (k := i) as (H1 & H2 & H3); auto.
  { intros [x|] [y|] [b|]; simpl; try (right; reflexivity); try (left; reflexivity); try discriminate; auto.
    rewrite !Rltb_true. intros. destruct (Rlt_dec y x); [left|right]; lra. }
  { intros [x|] [y|]; simpl; try discriminate; auto. rewrite Rltb_true, Rltb_false. intros; lra. }
  rewrite map2_length in H1, H2 by (symmetry; exact Hl). fold (size f) in H1, H2.
  assert (N : forall j, (j < size f)%nat -> nth j (map2 (fun ret r => if Reqb r 0 then None else Some ((ret - rf) / r)) (f_ret f) (f_risk f)) None
     = if Reqb (nthr (f_risk f) j) 0 then None else Some ((ret_of f j - rf) / nthr (f_risk f) j)).
  { intros j Hj. rewrite (map2_nth _ _ _ j 0 0) by (auto; exact Hj). reflexivity. }
  assert (Hi0 : nthr (f_risk f) i <> 0).
  { intros E0. rewrite (N i H1) in H2. replace (Reqb (nthr (f_risk f) i) 0) with true in H2 by (symmetry; apply Reqb_true; exact E0).
    assert (forallb (fun r => risclose r 0) (f_risk f) = true); [|congruence]. apply forallb_forall. intros r Hr.
    apply (In_nth _ _ 0) in Hr as (j & Hj & <-). rewrite Hl in Hj. specialize (H2 j Hj). rewrite (N j Hj) in H2.
    destruct (Reqb_spec (nthr (f_risk f) j) 0) as [E|E]; [|discriminate]. unfold nthr in E. rewrite E.
    apply Rleb_true. rewrite Rminus_0_r, Rabs_R0. lra. }
  exists i. split; [apply pick_is; exact H1|]. split; [exact H1|]. split; [exact Hi0|]. split; intros j Hj Pj.
  - specialize (H2 j Hj). rewrite (N j Hj), (N i H1) in H2.
    rewrite (proj2 (Reqb_false _ _) Pj), (proj2 (Reqb_false _ _) Hi0) in H2. simpl in H2. apply Rltb_false in H2. lra.
  - assert (Hj' : (j < size f)%nat) by lia. specialize (H3 j Hj). rewrite (N j Hj'), (N i H1) in H3.
    rewrite (proj2 (Reqb_false _ _) Pj), (proj2 (Reqb_false _ _) Hi0) in H3. simpl in H3. apply Rltb_true in H3. lra.
Qed.

Lemma tangency_raises f rf : well_formed f -> (0 < size f)%nat ->
  (forall e, tangency f rf = Err e -> e = InfeasibleError /\ forall r, In r (f_risk f) -> Rabs r <= 1 / 100000000) /\
  ((forall r, In r (f_risk f) -> Rabs r <= 1 / 100000000) -> tangency f rf = Err InfeasibleError).
Proof.
  intros (_ & Hl & _) Hn. unfold tangency. split.
  - intros e. destruct (forallb _ _) eqn:Ef.
    + intros [= <-]. split; [reflexivity|]. intros r Hr. rewrite forallb_forall in Ef. specialize (Ef r Hr).
      apply Rleb_true in Ef. rewrite Rminus_0_r, Rabs_R0 in Ef. lra.
    + destruct (argbest _ _) as [i|e'] eqn:E; cbn [bind]; [discriminate|]. intros _. apply argbest_err in E as [E _].
      apply (f_equal (@List.length _)) in E. rewrite map2_length in E by (symmetry; exact Hl). unfold size in Hn. simpl in E. lia.
  - intros H. replace (forallb _ _) with true; [reflexivity|]. symmetry. apply forallb_forall. intros r Hr. apply Rleb_true.
    rewrite Rminus_0_r, Rabs_R0. specialize (H r Hr). lra.
Qed.

Lemma where_nil c l : where_idx c l = [] <-> forall i, (i < List.length l)%nat -> c (nth i l 0) = false.
Proof.
  split.
  - intros E i Hi. destruct (c (nth i l 0)) eqn:K; [|reflexivity]. exfalso.
    assert (In i (where_idx c l)) as F by (apply where_in; auto). rewrite E in F. exact F.
  - intros H. destruct (where_idx c l) as [|i o] eqn:E; [reflexivity|]. exfalso.
    assert (In i (where_idx c l)) as F by (rewrite E; simpl; auto). apply where_in in F as [F1 F2]. rewrite H in F2 by exact F1. discriminate.
Qed.

Lemma at_risk_total f m l : well_formed f ->
  (forall e, at_risk f m l = Err e <->
     (e = KeyError /\ unknown_label f l) \/
     (e = InfeasibleError /\ exists risks, risks_for f l risks /\ forall i, (i < size f)%nat -> m < nthr risks i)).
Proof.
  intros Hw e. unfold at_risk. split.
  - destruct (risk_vector f l) as [risks|e'] eqn:E; cbn [bind].
    + apply risk_vector_ok in E. destruct (where_idx _ risks) as [|i o] eqn:Eo.
      * intros [= <-]. right. split; [reflexivity|]. exists risks. split; [exact E|]. intros i Hi.
        rewrite <- (risks_for_length f l risks Hw E) in Hi. apply Rleb_false. apply (proj1 (where_nil _ _) Eo i Hi).
      * destruct (argbest_total (fun x b => Rltb b x) (take 0 (f_ret f) (i :: o))) as [k Hk]; [discriminate|].
        unfold argmax. rewrite Hk. discriminate.
    + intros [= <-]. left. apply risk_vector_err. exact E.
  - intros [[-> H]|[-> (risks & Hr & H)]].
    + rewrite (proj2 (risk_vector_err f l KeyError)); auto.
    + rewrite (proj2 (risk_vector_ok f l risks)) by exact Hr. cbn [bind].
      rewrite (proj2 (where_nil _ risks)); [reflexivity|]. intros i Hi. apply Rleb_false. apply H.
      rewrite <- (risks_for_length f l risks Hw Hr). exact Hi.
Qed.

Lemma at_return_total f m l : well_formed f ->
  (forall e, at_return f m l = Err e <->
     (e = InfeasibleError /\ forall i, (i < size f)%nat -> ret_of f i < m) \/
     (e = KeyError /\ unknown_label f l /\ exists i, (i < size f)%nat /\ m <= ret_of f i)).
Proof.
  intros Hw e. unfold at_return. destruct (where_idx (fun r => Rleb m r) (f_ret f)) as [|i o] eqn:Eo.
  - assert (K : forall i, (i < size f)%nat -> ret_of f i < m).
    { intros i Hi. apply Rleb_false. apply (proj1 (where_nil (fun r => Rleb m r) (f_ret f)) Eo i Hi). }
    split.
    + intros [= <-]. left. auto.
    + intros [[-> _]|(_ & _ & i & Hi & Hm)]; [reflexivity|]. specialize (K i Hi). lra.
  - assert (F : exists i, (i < size f)%nat /\ m <= ret_of f i).
    { exists i. assert (In i (where_idx (fun r => Rleb m r) (f_ret f))) as F by (rewrite Eo; simpl; auto).
      apply where_in in F as [F1 F2]. split; [exact F1|apply Rleb_true; exact F2]. }
    destruct (risk_vector f l) as [risks|e'] eqn:E; cbn [bind].
    + destruct (argbest_total Rltb (take 0 risks (i :: o))) as [k Hk]; [discriminate|].
      unfold argmin. rewrite Hk. cbn [bind]. split; [discriminate|]. intros [[_ H]|(_ & H & _)].
      * destruct F as (j & Hj & Hm). specialize (H j Hj). lra.
      * assert (risk_vector f l = Err KeyError) by (apply risk_vector_err; auto). congruence.
    + apply risk_vector_err in E as [-> Hu]. split; [intros [= <-]; right; auto|].
      intros [[_ H]|(-> & _)]; [|reflexivity]. destruct F as (j & Hj & Hm). specialize (H j Hj). lra.
Qed.

Lemma min_risk_total f l e : well_formed f -> (0 < size f)%nat ->
  min_risk f l = Err e <-> e = KeyError /\ unknown_label f l.
Proof.
  intros Hw Hn. unfold min_risk. rewrite <- risk_vector_err. destruct (risk_vector f l) as [risks|e'] eqn:E; cbn [bind]; [|intuition congruence].
  apply risk_vector_ok in E. assert (risks <> []) as Hne.
  { intros ->. apply (risks_for_length f l _ Hw) in E. simpl in E. lia. }
  destruct (argbest_total Rltb risks Hne) as [k Hk]. unfold argmin. rewrite Hk. split; discriminate.
Qed.
Lemma closest_risk_total f t l e : well_formed f -> (0 < size f)%nat ->
  closest_risk f t l = Err e <-> e = KeyError /\ unknown_label f l.
Proof.
  intros Hw Hn. unfold closest_risk. rewrite <- risk_vector_err. destruct (risk_vector f l) as [risks|e'] eqn:E; cbn [bind]; [|intuition congruence].
  apply risk_vector_ok in E. assert (map (fun r => Rabs (r - t)) risks <> []) as Hne.
  { destruct risks; [|discriminate]. apply (risks_for_length f l _ Hw) in E. simpl in E. lia. }
  destruct (argbest_total Rltb _ Hne) as [k Hk]. unfold argmin. rewrite Hk. split; discriminate.
Qed.
Lemma max_return_total f : (0 < size f)%nat -> exists s, max_return f = Ok s.
Proof.
  intros Hn. unfold max_return, argmax. destruct (argbest_total (fun x b => Rltb b x) (f_ret f)) as [k Hk].
  - intros E. unfold size in Hn. rewrite E in Hn. simpl in Hn. lia.
  - rewrite Hk. eexists. reflexivity.
Qed.
