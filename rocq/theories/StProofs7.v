(** Drawdowns and quantiles. *)
From Verif Require Import RBase QpBase SortLib OptModel ConsModel DistModel RiskModel MomProofs2 BlModel ProjModel ProjSpec ProjProofs ProjProofs2 ProjProofs3 StModel StSpec.
From Verif Require MomModel.
Open Scope R_scope.
Open Scope list_scope.

Lemma acc_max_length m l : List.length (acc_max m l) = List.length l.
Proof. revert m; induction l; simpl; intros; auto. Qed.
Lemma maxacc_length l : List.length (maximum_accumulate l) = List.length l.
Proof. destruct l; simpl; auto. rewrite acc_max_length. reflexivity. Qed.
Lemma acc_max_spec l : forall m t, (t < List.length l)%nat ->
  (nth t (acc_max m l) 0 = m \/ exists s, (s <= t)%nat /\ nth t (acc_max m l) 0 = nth s l 0) /\
  m <= nth t (acc_max m l) 0 /\ forall s, (s <= t)%nat -> nth s l 0 <= nth t (acc_max m l) 0.
Proof.
  induction l as [|x l IH]; intros m t Ht; [simpl in Ht; lia|]. cbn [acc_max]. destruct t as [|t]; cbn [nth].
  - pose proof (Rmax_l m x). pose proof (Rmax_r m x). split.
    + unfold Rmax. destruct (Rle_dec m x); [right; exists 0%nat; split; [lia|reflexivity]|left; reflexivity].
    + split; auto. intros s Hs. replace s with 0%nat by lia. auto.
  - simpl in Ht. destruct (IH (Rmax m x) t) as (A & B & C); [lia|]. pose proof (Rmax_l m x). pose proof (Rmax_r m x). split; [|split].
    + destruct A as [A|(s & Hs & A)].
      * rewrite A. unfold Rmax. destruct (Rle_dec m x); [right; exists 0%nat; split; [lia|reflexivity]|left; reflexivity].
      * right. exists (S s). split; [lia|exact A].
    + lra.
    + intros [|s] Hs; [lra|]. apply C. lia.
Qed.
Lemma maxacc_peak l t : (t < List.length l)%nat -> is_peak l t (nth t (maximum_accumulate l) 0).
Proof.
  destruct l as [|x l]; [simpl; lia|]. cbn [maximum_accumulate]. intros Ht. destruct t as [|t]; cbn [nth].
  - split; [exists 0%nat; auto|]. intros s Hs. replace s with 0%nat by lia. cbn. lra.
  - simpl in Ht. destruct (acc_max_spec l x t) as (A & B & C); [lia|]. split.
    + destruct A as [A|(s & Hs & A)]; [exists 0%nat; split; [lia|exact A]|exists (S s); split; [lia|exact A]].
    + intros [|s] Hs; [exact B|]. apply C. lia.
Qed.
Lemma peak_unique l t m m' : is_peak l t m -> is_peak l t m' -> m = m'.
Proof. intros [(s & Hs & ->) B] [(s' & Hs' & ->) B']. apply Rle_antisym; auto. Qed.

Lemma fold_max_spec l : forall x, (In (fold_left Rmax l x) (x :: l)) /\ x <= fold_left Rmax l x /\ forall y, In y l -> y <= fold_left Rmax l x.
Proof.
  induction l as [|a l IH]; intros x; cbn [fold_left]; [repeat split; simpl; auto; [lra|tauto]|].
  destruct (IH (Rmax x a)) as (A & B & C). pose proof (Rmax_l x a). pose proof (Rmax_r x a). split; [|split].
  - destruct A as [A|A]; [|simpl; auto]. rewrite <- A. unfold Rmax. destruct (Rle_dec x a); simpl; auto.
  - lra.
  - intros y [->|Hy]; [lra|auto].
Qed.
Lemma list_max_spec l : l <> [] -> In (list_max l) l /\ forall y, In y l -> y <= list_max l.
Proof.
  destruct l as [|x l]; [congruence|]. intros _. cbn [list_max]. destruct (fold_max_spec l x) as (A & B & C). split; auto. intros y [->|Hy]; auto.
Qed.

Lemma map2_length {A B C} (f : A -> B -> C) l m : List.length l = List.length m -> List.length (map2 f l m) = List.length l.
Proof. revert m; induction l; intros [|b m] H; simpl in *; try lia. rewrite IHl; lia. Qed.
Lemma nth_map2 {A B C} (f : A -> B -> C) l m i da db dc : List.length l = List.length m -> (i < List.length l)%nat -> nth i (map2 f l m) dc = f (nth i l da) (nth i m db).
Proof. revert m i; induction l; intros [|b m] i H Hi; simpl in *; try lia. destruct i; auto. apply IHl; lia. Qed.
Lemma drawdowns_length w : List.length (drawdowns w) = List.length w.
Proof. unfold drawdowns. rewrite map2_length; apply maxacc_length. Qed.
Lemma drawdowns_nth w t : (t < List.length w)%nat -> 0 < nth 0 w 0 ->
  let m := nth t (maximum_accumulate w) 0 in 0 < m /\ nth t (drawdowns w) 0 = (m - nth t w 0) / m.
Proof.
  intros Ht H0 m. destruct (maxacc_peak w t Ht) as [_ B]. fold m in B. specialize (B 0%nat (Nat.le_0_l _)). assert (0 < m) by lra. split; auto.
  unfold drawdowns. rewrite (nth_map2 _ _ _ t 0 0 0) by (rewrite ?maxacc_length; auto). fold m. rewrite (proj2 (Rltb_true 0 m)) by auto. reflexivity.
Qed.
Lemma max_drawdown_spec w : w <> [] -> 0 < nth 0 w 0 -> is_max_drawdown w (list_max (drawdowns w)).
Proof.
  intros Hne H0. assert (Hd : drawdowns w <> []). { intros E. apply (f_equal (@List.length R)) in E. rewrite drawdowns_length in E. destruct w; simpl in *; congruence. }
  destruct (list_max_spec _ Hd) as [A B]. split.
  - apply (In_nth _ _ 0) in A as (t & Ht & E). rewrite drawdowns_length in Ht. exists t, (nth t (maximum_accumulate w) 0). split; auto. split; [apply maxacc_peak; auto|].
    rewrite <- E. apply drawdowns_nth; auto.
  - intros t m Ht Hm. rewrite (peak_unique _ _ _ _ Hm (maxacc_peak w t Ht)). destruct (drawdowns_nth w t Ht H0) as [_ E]. rewrite <- E. apply B. apply nth_In. rewrite drawdowns_length. exact Ht.
Qed.
Lemma max_drawdown_unique w d d' : is_max_drawdown w d -> is_max_drawdown w d' -> d = d'.
Proof. intros [(t & m & A & B & ->) C] [(t' & m' & A' & B' & ->) C']. apply Rle_antisym; auto. Qed.

(** Consequences for positive wealth. *)
Lemma max_drawdown_range w d : (forall x, In x w -> 0 < x) -> is_max_drawdown w d -> 0 <= d < 1.
Proof.
  intros Hp [(t & m & Ht & Hm & ->) B]. pose proof Hm as [(s & Hs & Em) Hb]. assert (Pm : 0 < m) by (rewrite Em; apply Hp, nth_In; lia).
  assert (Pt : 0 < nth t w 0) by (apply Hp, nth_In; auto). specialize (Hb t (Nat.le_refl _)). split.
  - apply Rmult_le_pos; [lra|]. left. apply Rinv_0_lt_compat; auto.
  - apply (Rmult_lt_reg_r m); auto. unfold Rdiv. rewrite Rmult_assoc, Rinv_l, Rmult_1_r, Rmult_1_l by lra. lra.
Qed.
Lemma max_drawdown_rising w d : (forall x, In x w -> 0 < x) -> (forall s t, (s <= t < List.length w)%nat -> nth s w 0 <= nth t w 0) -> is_max_drawdown w d -> d = 0.
Proof.
  intros Hp Hup [(t & m & Ht & Hm & ->) B]. pose proof Hm as [(s & Hs & Em) Hb]. assert (Pm : 0 < m) by (rewrite Em; apply Hp, nth_In; lia).
  assert (m = nth t w 0); [|subst; unfold Rdiv; rewrite H; rewrite Rminus_diag_eq by reflexivity; ring].
  apply Rle_antisym; [rewrite Em; apply Hup; lia|apply Hb; lia].
Qed.
Lemma max_drawdown_pairs w d : (forall x, In x w -> 0 < x) -> is_max_drawdown w d ->
  (exists s t, (s <= t < List.length w)%nat /\ d = (nth s w 0 - nth t w 0) / nth s w 0) /\
  forall s t, (s <= t < List.length w)%nat -> (nth s w 0 - nth t w 0) / nth s w 0 <= d.
Proof.
  intros Hp [(t & m & Ht & Hm & E) B]. split.
  - destruct Hm as [(s & Hs & Em) _]. exists s, t. subst m. auto.
  - intros s u Hsu. assert (Hpk := maxacc_peak w u ltac:(lia)). set (p := nth u (maximum_accumulate w) 0) in *. specialize (B u p ltac:(lia) Hpk).
    destruct Hpk as [_ Hb]. specialize (Hb s ltac:(lia)). assert (Ps : 0 < nth s w 0) by (apply Hp, nth_In; lia). assert (Pu : 0 < nth u w 0) by (apply Hp, nth_In; lia).
    apply Rle_trans with ((p - nth u w 0) / p); auto.
    replace ((nth s w 0 - nth u w 0) / nth s w 0) with (1 - nth u w 0 * / nth s w 0) by (field; lra).
    replace ((p - nth u w 0) / p) with (1 - nth u w 0 * / p) by (field; lra).
    assert (/ p <= / nth s w 0) by (apply Rinv_le_contravar; auto). nra.
Qed.

(** ** Quantiles *)
Lemma sorted_nth s i j : StronglySorted Rle s -> (i <= j < List.length s)%nat -> nth i s 0 <= nth j s 0.
Proof.
  revert i j. induction s as [|x s IH]; intros i j H Hij; [simpl in Hij; lia|]. inversion H as [|? ? Hs Hf]; subst. simpl in Hij.
  destruct i as [|i], j as [|j]; cbn [nth]; try lra; try lia.
  - rewrite Forall_forall in Hf. apply Hf, nth_In. lia.
  - apply IH; auto. lia.
Qed.
Definition q_pos (l : list R) (q : R) : R := INR (List.length l - 1) * q.
Definition q_lo (l : list R) (q : R) : nat := Z.to_nat (Int_part (q_pos l q)).
Lemma q_lo_spec l q : 0 <= q <= 1 -> INR (q_lo l q) <= q_pos l q < INR (q_lo l q) + 1 /\ (q_lo l q <= List.length l - 1)%nat.
Proof.
  intros Hq. unfold q_lo. destruct (base_Int_part (q_pos l q)) as [A B].
  assert (P : 0 <= q_pos l q) by (unfold q_pos; apply Rmult_le_pos; [apply pos_INR|lra]).
  assert (Hz : (0 <= Int_part (q_pos l q))%Z). { apply le_IZR. assert (-1 < IZR (Int_part (q_pos l q))) by lra. apply IZR_le. apply lt_IZR in H. lia. }
  assert (E : INR (Z.to_nat (Int_part (q_pos l q))) = IZR (Int_part (q_pos l q))). { rewrite INR_IZR_INZ, Z2Nat.id by auto. reflexivity. }
  rewrite E. split; [lra|]. apply INR_le. rewrite E. apply Rle_trans with (q_pos l q); [lra|]. unfold q_pos. pose proof (pos_INR (List.length l - 1)). nra.
Qed.
Lemma quantile_between l q : l <> [] -> 0 <= q <= 1 ->
  nth (q_lo l q) (MomModel.rsort l) 0 <= np_quantile l q <= nth (Nat.min (S (q_lo l q)) (List.length l - 1)) (MomModel.rsort l) 0.
Proof.
  intros Hne Hq. destruct (q_lo_spec l q Hq) as [[A B] C]. assert (Hl : (0 < List.length l)%nat) by (destruct l; simpl; [congruence|lia]).
  unfold np_quantile. fold (q_pos l q). fold (q_lo l q).
  assert (M : nth (q_lo l q) (MomModel.rsort l) 0 <= nth (Nat.min (S (q_lo l q)) (List.length l - 1)) (MomModel.rsort l) 0).
  { apply sorted_nth; [apply rsort_sorted|]. rewrite rsort_length. lia. }
  nra.
Qed.
Lemma quantile_mono l q q' : l <> [] -> 0 <= q -> q <= q' -> q' <= 1 -> np_quantile l q <= np_quantile l q'.
Proof.
  intros Hne H0 Hqq H1. assert (Hl : (0 < List.length l)%nat) by (destruct l; simpl; [congruence|lia]).
  destruct (q_lo_spec l q) as [[A B] C]; [lra|]. destruct (q_lo_spec l q') as [[A' B'] C']; [lra|].
  assert (P : q_pos l q <= q_pos l q') by (unfold q_pos; apply Rmult_le_compat_l; [apply pos_INR|lra]).
  assert (L : (q_lo l q <= q_lo l q')%nat). { destruct (Nat.le_gt_cases (q_lo l q) (q_lo l q')); auto. exfalso. assert (INR (S (q_lo l q')) <= INR (q_lo l q)) by (apply le_INR; lia). rewrite S_INR in H2. lra. }
  destruct (Nat.eq_dec (q_lo l q) (q_lo l q')) as [e|ne].
  - unfold np_quantile. fold (q_pos l q). fold (q_lo l q). fold (q_pos l q'). fold (q_lo l q'). rewrite e in *.
    assert (M : nth (q_lo l q') (MomModel.rsort l) 0 <= nth (Nat.min (S (q_lo l q')) (List.length l - 1)) (MomModel.rsort l) 0).
    { apply sorted_nth; [apply rsort_sorted|]. rewrite rsort_length. lia. }
    nra.
  - destruct (quantile_between l q Hne) as [_ U]; [lra|]. destruct (quantile_between l q' Hne) as [U' _]; [lra|].
    apply Rle_trans with (nth (Nat.min (S (q_lo l q)) (List.length l - 1)) (MomModel.rsort l) 0); auto.
    apply Rle_trans with (nth (q_lo l q') (MomModel.rsort l) 0); auto. apply sorted_nth; [apply rsort_sorted|]. rewrite rsort_length. lia.
Qed.
Lemma quantile_at l k q : l <> [] -> 0 <= q <= 1 -> q_pos l q = INR k -> np_quantile l q = nth k (MomModel.rsort l) 0.
Proof.
  intros Hne Hq E. destruct (q_lo_spec l q Hq) as [[A B] C]. assert (K : q_lo l q = k).
  { rewrite E in A, B. apply INR_le in A. assert (INR k < INR (S (q_lo l q))) by (rewrite S_INR; lra). apply INR_lt in H. lia. }
  unfold np_quantile. fold (q_pos l q). fold (q_lo l q). rewrite K, E. ring.
Qed.
Lemma max_sorted l : l <> [] -> nth (List.length l - 1) (MomModel.rsort l) 0 = list_max l.
Proof.
  intros Hne. assert (Hl : (0 < List.length l)%nat) by (destruct l; simpl; [congruence|lia]). destruct (list_max_spec l Hne) as [A B].
  apply Rle_antisym; [apply B, nth_in_rsort; lia|].
  apply (Permutation_in _ (Permutation_sym (rsort_perm l))) in A. apply (In_nth _ _ 0) in A as (i & Hi & <-). rewrite rsort_length in Hi.
  apply sorted_nth; [apply rsort_sorted|]. rewrite rsort_length. lia.
Qed.
Lemma quantile_one l : l <> [] -> np_quantile l 1 = list_max l.
Proof. intros Hne. rewrite <- max_sorted by auto. apply quantile_at; auto; [lra|]. unfold q_pos. ring. Qed.
Lemma quantile_half l : l <> [] -> np_quantile l (1 / 2) = MomModel.median l.
Proof.
  intros Hne. assert (Hn : List.length l <> 0%nat) by (destruct l; simpl; congruence). unfold MomModel.median. destruct (Nat.even (List.length l)) eqn:He.
  - destruct (even_half _ Hn He) as (H1 & H2 & H3 & H4). set (k := (List.length l / 2)%nat) in *.
    assert (P : q_pos l (1 / 2) = INR (k - 1) + 1 / 2). { unfold q_pos. rewrite H3. replace (2 * k - 1)%nat with (2 * (k - 1) + 1)%nat by lia. rewrite plus_INR, mult_INR. simpl. field. }
    assert (K : q_lo l (1 / 2) = (k - 1)%nat).
    { destruct (q_lo_spec l (1 / 2)) as [[A B] C]; [lra|]. rewrite P in A, B.
      assert (INR (q_lo l (1 / 2)) < INR (S (k - 1))) by (rewrite S_INR; lra). assert (INR (k - 1) < INR (S (q_lo l (1 / 2)))) by (rewrite S_INR; lra). apply INR_lt in H. apply INR_lt in H0. lia. }
    unfold np_quantile. fold (q_pos l (1 / 2)). fold (q_lo l (1 / 2)). rewrite K, P. replace (Nat.min (S (k - 1)) (List.length l - 1)) with k by lia. field.
  - destruct (odd_half _ He) as (H1 & H2). apply quantile_at; auto; [lra|]. unfold q_pos. set (k := (List.length l / 2)%nat) in *. rewrite H2. replace (2 * k + 1 - 1)%nat with (2 * k)%nat by lia. rewrite mult_INR. simpl. field.
Qed.
Lemma quantile_counts l q : l <> [] -> 0 <= q <= 1 ->
  q * (INR (List.length l) - 1) < INR (how_many (fun x => Rleb x (np_quantile l q)) l) /\
  INR (how_many (fun x => Rltb x (np_quantile l q)) l) <= q * (INR (List.length l) - 1) + 1.
Proof.
  intros Hne Hq. assert (Hl : (0 < List.length l)%nat) by (destruct l; simpl; [congruence|lia]). destruct (q_lo_spec l q Hq) as [[A B] C].
  destruct (quantile_between l q Hne Hq) as [U1 U2]. set (v := np_quantile l q) in *.
  assert (P : q * (INR (List.length l) - 1) = q_pos l q). { unfold q_pos. rewrite minus_INR by lia. simpl. ring. } rewrite P.
  assert (EC : forall f, how_many f l = count f (MomModel.rsort l)) by (intros f; symmetry; apply count_perm, rsort_perm).
  assert (EN : forall s, (count (fun x => Rleb x v) s + count (fun x => Rltb v x) s = List.length s)%nat).
  { induction s as [|y s IH]; [reflexivity|]. unfold count in *. cbn [filter]. destruct (Rleb_spec y v), (Rltb_spec v y); simpl; lra || lia. }
  assert (EM : forall s, (count (fun x => Rltb x v) s + count (fun x => Rleb v x) s = List.length s)%nat).
  { induction s as [|y s IH]; [reflexivity|]. unfold count in *. cbn [filter]. destruct (Rltb_spec y v), (Rleb_spec v y); simpl; lra || lia. }
  split.
  - assert (K : (S (q_lo l q) <= how_many (fun x => Rleb x v) l)%nat).
    { rewrite EC. assert (H : forall s k, StronglySorted Rle s -> (k < List.length s)%nat -> nth k s 0 <= v -> (S k <= count (fun x => Rleb x v) s)%nat).
      { induction s as [|y s IH]; intros k Hs Hk Hv; [simpl in Hk; lia|]. inversion Hs as [|? ? Hs' Hf]; subst. unfold count. cbn [filter].
        assert (y <= v). { destruct k; [exact Hv|]. simpl in Hk. rewrite Forall_forall in Hf. apply Rle_trans with (nth k s 0); [apply Hf, nth_In; lia|exact Hv]. }
        rewrite (proj2 (Rleb_true y v)) by auto. simpl. destruct k; [lia|]. simpl in Hk. specialize (IH k Hs' ltac:(lia) Hv). unfold count in IH. lia. }
      apply H; [apply rsort_sorted|rewrite rsort_length; lia|exact U1]. }
    apply le_INR in K. rewrite S_INR in K. lra.
  - assert (K : (how_many (fun x => Rltb x v) l <= S (q_lo l q))%nat).
    { rewrite EC. destruct (Nat.le_gt_cases (List.length l - 1) (q_lo l q)) as [Hge|Hlt].
      - specialize (EM (MomModel.rsort l)). rewrite rsort_length in EM. lia.
      - rewrite Nat.min_l in U2 by lia. destruct (Nat.le_gt_cases (count (fun x => Rltb x v) (MomModel.rsort l)) (S (q_lo l q))) as [|Hgt]; auto. exfalso.
        assert (H : forall s k, StronglySorted Rle s -> (k < List.length s)%nat -> v <= nth k s 0 -> (count (fun x => Rltb x v) s <= k)%nat).
        { induction s as [|y s IH]; intros k Hs Hk Hv; [simpl in Hk; lia|]. inversion Hs as [|? ? Hs' Hf]; subst. unfold count. cbn [filter]. destruct k as [|k].
          - cbn in Hv. assert (N : forall z, In z s -> v <= z). { intros z Hz. rewrite Forall_forall in Hf. specialize (Hf z Hz). lra. }
            rewrite (proj2 (Rltb_false y v)) by lra. clear - N. induction s as [|z s IH]; [simpl; lia|]. cbn [filter]. rewrite (proj2 (Rltb_false z v)) by (apply N; left; auto). apply IH. intros; apply N; right; auto.
          - simpl in Hk. specialize (IH k Hs' ltac:(lia) Hv). unfold count in IH. destruct (Rltb y v); simpl; lia. }
        specialize (H (MomModel.rsort l) (S (q_lo l q)) (rsort_sorted l) ltac:(rewrite rsort_length; lia) U2). lia. }
    apply le_INR in K. rewrite S_INR in K. lra.
Qed.
