(** Proofs about robust means, Ledoit-Wolf intensity, Tyler, POET, scale equivariance. *)
From Verif Require Import RBase QpBase SortLib MomModel MomSpec MomProofs.
Open Scope R_scope.
Open Scope list_scope.

(** ** Median *)
Lemma rsort_perm l : Permutation (rsort l) l.
Proof. apply take_perm. apply isort_perm. Qed.
Lemma rsort_length l : List.length (rsort l) = List.length l.
Proof. apply Permutation_length, rsort_perm. Qed.
Lemma rsort_sorted l : StronglySorted Rle (rsort l).
Proof.
  unfold rsort, argsort_by. apply isort_sorted.
  - intros x y H. apply Rleb_true in H. exact H.
  - intros x y H. apply Rleb_false in H. lra.
  - intros x y z; apply Rle_trans.
Qed.

Lemma nth_in_rsort l i : (i < List.length l)%nat -> In (nth i (rsort l) 0) l.
Proof. intros H. apply (Permutation_in _ (rsort_perm l)). apply nth_In. rewrite rsort_length. exact H. Qed.

Lemma even_half n : n <> 0%nat -> Nat.even n = true -> (n / 2 - 1 < n)%nat /\ (n / 2 < n)%nat /\ n = (2 * (n / 2))%nat /\ (1 <= n / 2)%nat.
Proof.
  intros Hn He. apply Nat.even_spec in He as (k & ->). rewrite Nat.mul_comm, Nat.div_mul by lia. lia.
Qed.
Lemma odd_half n : Nat.even n = false -> (n / 2 < n)%nat /\ n = (2 * (n / 2) + 1)%nat.
Proof.
  intros He. assert (Ho : Nat.odd n = true) by (unfold Nat.odd; rewrite He; reflexivity).
  apply Nat.odd_spec in Ho as (k & ->). replace ((2 * k + 1) / 2)%nat with k; [lia|].
  symmetry. rewrite Nat.add_comm, Nat.mul_comm, Nat.div_add by lia. simpl. reflexivity.
Qed.

Lemma median_within l : l <> [] -> within l (median l).
Proof.
  intros Hne. assert (Hn : List.length l <> 0%nat) by (destruct l; simpl; congruence).
  unfold median. destruct (Nat.even (List.length l)) eqn:He.
  - destruct (even_half _ Hn He) as (H1 & H2 & _). set (a := nth _ _ _). set (b := nth (List.length l / 2) _ _).
    assert (Ia : In a l) by (apply nth_in_rsort; auto). assert (Ib : In b l) by (apply nth_in_rsort; auto).
    destruct (Rle_dec a b); split; eauto; [exists a|exists b|exists b|exists a]; split; auto; lra.
  - destruct (odd_half _ He) as (H1 & _). assert (Ia := nth_in_rsort l _ H1). split; eexists; split; eauto; lra.
Qed.

(** Majority bound: fewer than half the values below [a] (resp. above [b]). *)
Definition count (f : R -> bool) (l : list R) : nat := List.length (filter f l).
Lemma count_perm f l m : Permutation l m -> count f l = count f m.
Proof.
  induction 1; unfold count in *; simpl; auto.
  - destruct (f x); simpl; congruence.
  - destruct (f x), (f y); simpl; reflexivity.
  - congruence.
Qed.

Lemma sorted_prefix_lt s k a : StronglySorted Rle s -> (k < List.length s)%nat -> nth k s 0 < a -> (S k <= count (fun x => Rltb x a) s)%nat.
Proof.
  revert k. induction s as [|x s IH]; simpl; intros k Hs Hk Hlt; [lia|]. inversion Hs as [|? ? Hs' Hf]; subst.
  unfold count. simpl. destruct k as [|k].
  - rewrite (proj2 (Rltb_true x a) Hlt). simpl. lia.
  - assert (Hx : x < a).
    { apply Rle_lt_trans with (nth k s 0); [|exact Hlt]. rewrite Forall_forall in Hf. apply Hf. apply nth_In. lia. }
    rewrite (proj2 (Rltb_true x a) Hx). simpl. assert (H := IH k Hs' ltac:(lia) Hlt). unfold count in H. lia.
Qed.
Lemma sorted_suffix_gt s k b : StronglySorted Rle s -> (k < List.length s)%nat -> b < nth k s 0 ->
  (List.length s - k <= count (fun x => Rltb b x) s)%nat.
Proof.
  revert k. induction s as [|x s IH]; simpl; intros k Hs Hk Hlt; [lia|]. inversion Hs as [|? ? Hs' Hf]; subst.
  unfold count. simpl. destruct k as [|k].
  - rewrite (proj2 (Rltb_true b x) Hlt). simpl.
    assert (E : filter (fun y => Rltb b y) s = s).
    { clear IH Hs Hs' Hk. induction s as [|y s IH]; [reflexivity|]. inversion Hf; subst. simpl.
      rewrite (proj2 (Rltb_true b y)) by lra. f_equal. apply IH. auto. }
    rewrite E. lia.
  - assert (H := IH k Hs' ltac:(lia) Hlt). unfold count in H. destruct (Rltb b x); simpl; lia.
Qed.

Lemma median_lower l a : l <> [] -> (2 * count (fun x => Rltb x a) l < List.length l)%nat -> a <= median l.
Proof.
  intros Hne Hc. assert (Hn : List.length l <> 0%nat) by (destruct l; simpl; congruence).
  rewrite <- (count_perm _ _ _ (rsort_perm l)) in Hc.
  assert (K : forall k, (k < List.length l)%nat -> (List.length l <= 2 * S k)%nat -> a <= nth k (rsort l) 0).
  { intros k Hk H2. destruct (Rle_lt_dec a (nth k (rsort l) 0)) as [|Hlt]; [auto|]. exfalso.
    assert (H := sorted_prefix_lt _ k a (rsort_sorted l) ltac:(rewrite rsort_length; exact Hk) Hlt). lia. }
  unfold median. destruct (Nat.even (List.length l)) eqn:He.
  - destruct (even_half _ Hn He) as (H1 & H2 & H3 & H4).
    assert (A := K (List.length l / 2 - 1)%nat H1 ltac:(lia)). assert (B := K (List.length l / 2)%nat H2 ltac:(lia)). lra.
  - destruct (odd_half _ He) as (H1 & H2). apply K; lia.
Qed.
Lemma median_upper l b : l <> [] -> (2 * count (fun x => Rltb b x) l < List.length l)%nat -> median l <= b.
Proof.
  intros Hne Hc. assert (Hn : List.length l <> 0%nat) by (destruct l; simpl; congruence).
  rewrite <- (count_perm _ _ _ (rsort_perm l)) in Hc.
  assert (K : forall k, (k < List.length l)%nat -> (List.length l <= 2 * (List.length l - k))%nat -> nth k (rsort l) 0 <= b).
  { intros k Hk H2. destruct (Rle_lt_dec (nth k (rsort l) 0) b) as [|Hlt]; [auto|]. exfalso.
    assert (H := sorted_suffix_gt _ k b (rsort_sorted l) ltac:(rewrite rsort_length; exact Hk) Hlt). rewrite rsort_length in H. lia. }
  unfold median. destruct (Nat.even (List.length l)) eqn:He.
  - destruct (even_half _ Hn He) as (H1 & H2 & H3 & H4).
    assert (A := K (List.length l / 2 - 1)%nat H1 ltac:(lia)). assert (B := K (List.length l / 2)%nat H2 ltac:(lia)). lra.
  - destruct (odd_half _ He) as (H1 & H2). apply K; lia.
Qed.

(** Affine maps commute with the median. *)
Lemma ins_affine l k c i o : 0 < k -> (i < List.length l)%nat -> (forall j, In j o -> (j < List.length l)%nat) ->
  ins Rleb 0 (map (fun x => k * x + c) l) i o = ins Rleb 0 l i o.
Proof.
  intros Hk Hi Ho. induction o as [|j o IH]; [reflexivity|]. cbn [ins].
  rewrite !(nth_map_lt _ l _ 0 0) by (auto; apply Ho; simpl; auto).
  assert (E : Rleb (k * nth i l 0 + c) (k * nth j l 0 + c) = Rleb (nth i l 0) (nth j l 0)).
  { unfold Rleb. destruct (Rle_dec (k * nth i l 0 + c) _), (Rle_dec (nth i l 0) _); auto; exfalso; nra. }
  rewrite E. rewrite IH by (intros; apply Ho; simpl; auto). reflexivity.
Qed.
Lemma isort_affine l k c o : 0 < k -> (forall j, In j o -> (j < List.length l)%nat) ->
  isort Rleb 0 (map (fun x => k * x + c) l) o = isort Rleb 0 l o.
Proof.
  intros Hk. induction o as [|j o IH]; intros Ho; [reflexivity|]. cbn [isort].
  rewrite IH by (intros; apply Ho; simpl; auto). apply ins_affine; [auto|apply Ho; simpl; auto|].
  intros i Hi. apply Ho. right. apply (Permutation_in _ (isort_perm Rleb 0 l o)). exact Hi.
Qed.
Lemma rsort_affine l k c : 0 < k -> rsort (map (fun x => k * x + c) l) = map (fun x => k * x + c) (rsort l).
Proof.
  intros Hk. unfold rsort, argsort_by. rewrite map_length.
  rewrite isort_affine by (auto; intros j Hj; apply in_seq in Hj; lia). unfold take. rewrite map_map. apply map_ext_in.
  intros i Hi. apply (Permutation_in _ (isort_perm Rleb 0 l _)) in Hi. apply in_seq in Hi. apply (nth_map_lt (fun x => k * x + c)). lia.
Qed.
Lemma median_affine l k c : 0 < k -> l <> [] -> median (map (fun x => k * x + c) l) = k * median l + c.
Proof.
  intros Hk Hne. assert (Hn : List.length l <> 0%nat) by (destruct l; simpl; congruence).
  unfold median. rewrite rsort_affine, map_length by exact Hk. destruct (Nat.even (List.length l)) eqn:He.
  - destruct (even_half _ Hn He) as (H1 & H2 & _).
    rewrite !(nth_map_lt (fun x => k * x + c) (rsort l) _ 0 0) by (rewrite rsort_length; auto). lra.
  - destruct (odd_half _ He) as (H1 & _). rewrite !(nth_map_lt (fun x => k * x + c) (rsort l) _ 0 0) by (rewrite rsort_length; auto). reflexivity.
Qed.

(** ** Weighted means stay in the range *)
Lemma within_bounds l x : within l x -> forall lo hi, (forall a, In a l -> lo <= a <= hi) -> lo <= x <= hi.
Proof. intros ((a & Ha & H1) & (b & Hb & H2)) lo hi H. pose proof (H a Ha). pose proof (H b Hb). lra. Qed.
Lemma list_min l : l <> [] -> exists a, In a l /\ forall b, In b l -> a <= b.
Proof.
  induction l as [|x l IH]; [congruence|]. intros _. destruct l as [|y l].
  - exists x. split; [simpl; auto|]. intros b [->|[]]. lra.
  - destruct IH as (a & Ha & H); [congruence|]. destruct (Rle_dec x a).
    + exists x. split; [simpl; auto|]. intros b [->|Hb]; [lra|]. specialize (H b Hb). lra.
    + exists a. split; [right; auto|]. intros b [->|Hb]; [lra|auto].
Qed.
Lemma list_max l : l <> [] -> exists a, In a l /\ forall b, In b l -> b <= a.
Proof.
  induction l as [|x l IH]; [congruence|]. intros _. destruct l as [|y l].
  - exists x. split; [simpl; auto|]. intros b [->|[]]. lra.
  - destruct IH as (a & Ha & H); [congruence|]. destruct (Rle_dec a x).
    + exists x. split; [simpl; auto|]. intros b [->|Hb]; [lra|]. specialize (H b Hb). lra.
    + exists a. split; [right; auto|]. intros b [->|Hb]; [lra|auto].
Qed.
Lemma bounds_within l x : l <> [] -> (forall lo hi, (forall a, In a l -> lo <= a <= hi) -> lo <= x <= hi) -> within l x.
Proof.
  intros Hne H. destruct (list_min l Hne) as (a & Ha & Hm). destruct (list_max l Hne) as (b & Hb & HM).
  destruct (H a b) as (H1 & H2); [intros c Hc; split; auto|]. split; eauto.
Qed.

Lemma wavg_bounds (w : R -> R) x lo hi : x <> [] -> (forall a, In a x -> 0 < w a) -> (forall a, In a x -> lo <= a <= hi) ->
  lo <= rsum (map2 Rmult (map w x) x) / rsum (map w x) <= hi.
Proof.
  intros Hne Hw Hb.
  assert (Hp : 0 < rsum (map w x)).
  { apply rsum_pos; [destruct x; simpl; congruence|]. intros y Hy. apply in_map_iff in Hy as (a & <- & Ha). auto. }
  assert (E : rsum (map2 Rmult (map w x) x) = rsum (map (fun a => w a * a) x)).
  { clear. induction x as [|a x IH]; [reflexivity|]. cbn [map map2]. rewrite !rsum_cons, IH. reflexivity. }
  assert (L : lo * rsum (map w x) <= rsum (map (fun a => w a * a) x)).
  { rewrite <- rsum_scale. apply rsum_le. intros a Ha. specialize (Hw a Ha). specialize (Hb a Ha). nra. }
  assert (U : rsum (map (fun a => w a * a) x) <= hi * rsum (map w x)).
  { rewrite <- rsum_scale. apply rsum_le. intros a Ha. specialize (Hw a Ha). specialize (Hb a Ha). nra. }
  rewrite E. split.
  - apply Rmult_le_reg_r with (rsum (map w x)); [exact Hp|]. unfold Rdiv. rewrite Rmult_assoc, Rinv_l by lra. lra.
  - apply Rmult_le_reg_r with (rsum (map w x)); [exact Hp|]. unfold Rdiv. rewrite Rmult_assoc, Rinv_l by lra. lra.
Qed.

(** ** Huber *)
Lemma median_nonneg l : (forall x, In x l -> 0 <= x) -> 0 <= median l.
Proof.
  intros H. destruct l as [|a l]; [unfold median; simpl; lra|].
  destruct (median_within (a :: l)) as ((b & Hb & Hle) & _); [congruence|]. specialize (H b Hb). lra.
Qed.
Lemma huber_tau_pos x : x <> [] -> 0 < huber_tau x.
Proof.
  intros Hne. unfold huber_tau. apply Rmult_lt_0_compat.
  - assert (0 <= median (map (fun xi => Rabs (xi - median x)) x)); [|lra].
    apply median_nonneg. intros y Hy. apply in_map_iff in Hy as (a & <- & _). apply Rabs_pos.
  - apply sqrt_lt_R0. apply Rmult_lt_0_compat.
    + apply lt_0_INR. destruct x; [congruence|simpl; lia].
    + apply Rinv_0_lt_compat. apply Rlt_le_trans with 2; [lra|apply Rmax_r].
Qed.
Lemma huber_step_bounds x tau mu lo hi : x <> [] -> 0 < tau -> (forall a, In a x -> lo <= a <= hi) -> lo <= huber_step x tau mu <= hi.
Proof.
  intros Hne Ht Hb. unfold huber_step. apply (wavg_bounds (fun xi => Rmin 1 (tau / Rmax (Rabs (xi - mu)) (1 / 1000000000000))) x lo hi); auto.
  intros a _. apply Rmin_glb_lt; [lra|]. apply Rmult_lt_0_compat; [exact Ht|]. apply Rinv_0_lt_compat.
  apply Rlt_le_trans with (1 / 1000000000000); [lra|apply Rmax_r].
Qed.
Lemma huber_iter_bounds x tau tol lo hi n : forall mu, x <> [] -> 0 < tau -> (forall a, In a x -> lo <= a <= hi) -> lo <= mu <= hi ->
  lo <= huber_iter x tau tol n mu <= hi.
Proof.
  induction n as [|n IH]; intros mu Hne Ht Hb Hm; [exact Hm|]. cbn [huber_iter].
  assert (H := huber_step_bounds x tau mu lo hi Hne Ht Hb). destruct (Rleb _ _); [exact H|]. apply IH; auto.
Qed.
Lemma huber_within x tol n : x <> [] -> within x (huber x tol n).
Proof.
  intros Hne. apply bounds_within; [exact Hne|]. intros lo hi Hb. apply huber_iter_bounds; auto.
  - apply huber_tau_pos; auto.
  - apply (within_bounds x); auto. apply median_within; auto.
Qed.

(** ** Median of means *)
Definition total_size (s : list nat) : nat := fold_right Nat.add 0%nat s.
Lemma cut_concat {A} sizes : forall (l : list A), total_size sizes = List.length l -> List.concat (cut sizes l) = l.
Proof.
  induction sizes as [|s ss IH]; intros l H; simpl in *; [destruct l; simpl in *; congruence|].
  rewrite IH; [apply firstn_skipn|]. rewrite skipn_length. lia.
Qed.
Lemma cut_lengths {A} sizes : forall (l : list A), total_size sizes = List.length l -> map (@List.length A) (cut sizes l) = sizes.
Proof.
  induction sizes as [|s ss IH]; intros l H; simpl in *; [reflexivity|]. rewrite firstn_length, IH by (rewrite skipn_length; lia).
  f_equal. lia.
Qed.
Lemma total_size_app a b : total_size (a ++ b) = (total_size a + total_size b)%nat.
Proof. induction a as [|x a IH]; simpl; [reflexivity|]. rewrite IH. lia. Qed.

Lemma block_sum q r B : (r <= B)%nat ->
  total_size (map (fun b => (q + (if Nat.ltb b r then 1 else 0))%nat) (seq 0 B)) = (q * B + r)%nat.
Proof.
  assert (G : forall n, total_size (map (fun b => (q + (if Nat.ltb b r then 1 else 0))%nat) (seq 0 n)) = (q * n + Nat.min r n)%nat).
  { induction n as [|n IH]; [simpl; lia|]. rewrite seq_S, map_app, total_size_app, IH. simpl. destruct (Nat.ltb_spec n r); lia. }
  intros H. rewrite G. lia.
Qed.
Lemma block_sizes_total T B : (0 < B)%nat -> total_size (block_sizes T B) = T.
Proof.
  intros HB. unfold block_sizes. rewrite block_sum by (apply Nat.lt_le_incl, Nat.mod_upper_bound; lia).
  rewrite (Nat.div_mod T B) at 3 by lia. lia.
Qed.
Lemma block_sizes_pos T B s : (0 < B <= T)%nat -> In s (block_sizes T B) -> (T / B <= s <= S (T / B))%nat /\ (1 <= s)%nat.
Proof.
  intros HB H. unfold block_sizes in H. apply in_map_iff in H as (b & <- & _).
  assert (1 <= T / B)%nat by (apply Nat.div_le_lower_bound; lia). destruct (Nat.ltb b _); lia.
Qed.

Lemma ok_inj {A} (a b : A) : Ok a = Ok b -> b = a.
Proof. congruence. Qed.
Lemma mom_blocks_range T nb auto B : mom_blocks T nb auto = Ok B -> (1 <= T)%nat ->
  (1 <= B <= T)%nat /\ (forall b, nb = Some b -> (0 < b)%Z /\ B = Z.to_nat (Z.min b (Z.of_nat T))).
Proof.
  unfold mom_blocks. intros H HT. destruct nb as [b|]; cbn [bind] in H.
  - destruct (Z.leb_spec b 0); [discriminate|]. cbn [bind] in H. apply ok_inj in H. split; [lia|].
    intros b' Eb. injection Eb as <-. lia.
  - apply ok_inj in H. split; [lia|]. discriminate.
Qed.

Definition blocks_of (x : list R) (perm : list nat) (B : nat) : list (list R) :=
  cut (block_sizes (List.length x) B) (map (fun i => nth i x 0) perm).

Lemma blocks_facts x perm B : Permutation perm (seq 0 (List.length x)) -> (1 <= B <= List.length x)%nat ->
  Permutation (List.concat (blocks_of x perm B)) x /\ List.length (blocks_of x perm B) = B /\
  forall blk, In blk (blocks_of x perm B) -> blk <> [] /\ incl blk x.
Proof.
  intros HP HB. unfold blocks_of. set (y := map (fun i => nth i x 0) perm).
  assert (Hy : Permutation y x) by (apply (take_perm 0 x perm HP)).
  assert (Hl : total_size (block_sizes (List.length x) B) = List.length y) by (rewrite block_sizes_total by lia; symmetry; apply Permutation_length; exact Hy).
  assert (HL := cut_lengths _ y Hl). split; [|split].
  - rewrite cut_concat by exact Hl. exact Hy.
  - rewrite <- (map_length (@List.length R)), HL. unfold block_sizes. rewrite map_length, seq_length. reflexivity.
  - intros blk Hb. split.
    + assert (Hs : In (List.length blk) (block_sizes (List.length x) B)) by (rewrite <- HL; apply in_map; exact Hb).
      apply block_sizes_pos in Hs; [|lia]. destruct blk; simpl in *; [lia|congruence].
    + intros a Ha. apply (Permutation_in _ Hy). rewrite <- (cut_concat _ y Hl). apply in_concat. eauto.
Qed.

Lemma rmean_bounds l lo hi : l <> [] -> (forall a, In a l -> lo <= a <= hi) -> lo <= rmean l <= hi.
Proof.
  intros Hne Hb. assert (Hn : 0 < INR (List.length l)) by (apply lt_0_INR; destruct l; [congruence|simpl; lia]).
  assert (L : INR (List.length l) * lo <= rsum l).
  { rewrite <- (rsum_const lo l). rewrite <- (map_id l) at 2. apply rsum_le. intros; apply Hb; auto. }
  assert (U : rsum l <= INR (List.length l) * hi).
  { rewrite <- (rsum_const hi l). rewrite <- (map_id l) at 1. apply rsum_le. intros; apply Hb; auto. }
  unfold rmean. split; apply Rmult_le_reg_r with (INR (List.length l)); auto; unfold Rdiv; rewrite Rmult_assoc, Rinv_l by lra; lra.
Qed.
Lemma rmean_affine l k c : l <> [] -> rmean (map (fun x => k * x + c) l) = k * rmean l + c.
Proof.
  intros Hne. unfold rmean. rewrite map_length, (rsum_plus (fun x => k * x)), rsum_scale, rsum_const, map_id.
  assert (Hn : 0 < INR (List.length l)) by (apply lt_0_INR; destruct l; [congruence|simpl; lia]). field. lra.
Qed.

Lemma mom_value x perm nb auto out : median_of_means x perm nb auto = Ok out -> x <> [] ->
  exists B, mom_blocks (List.length x) nb auto = Ok B /\ (1 <= B <= List.length x)%nat /\ out = median (map rmean (blocks_of x perm B)).
Proof.
  unfold median_of_means. intros H Hne. apply bind_ok in H as (B & E & H). injection H as <-. exists B.
  assert (HT : (1 <= List.length x)%nat) by (destruct x; [congruence|simpl; lia]).
  split; [exact E|]. split; [apply (mom_blocks_range _ _ _ _ E HT)|reflexivity].
Qed.

Lemma mom_within x perm nb auto out : median_of_means x perm nb auto = Ok out -> x <> [] ->
  Permutation perm (seq 0 (List.length x)) -> within x out.
Proof.
  intros H Hne HP. destruct (mom_value _ _ _ _ _ H Hne) as (B & _ & HB & ->).
  destruct (blocks_facts x perm B HP HB) as (_ & HL & Hb).
  assert (Hne' : map rmean (blocks_of x perm B) <> []) by (intros E; apply (f_equal (@List.length R)) in E; rewrite map_length, HL in E; simpl in E; lia).
  apply bounds_within; [exact Hne|]. intros lo hi Hx. apply (within_bounds _ _ (median_within _ Hne')).
  intros a Ha. apply in_map_iff in Ha as (blk & <- & Hk). destruct (Hb blk Hk) as (Hn & Hi). apply rmean_bounds; auto.
Qed.

Lemma cut_map {A B} (f : A -> B) sizes : forall l, cut sizes (map f l) = map (map f) (cut sizes l).
Proof. induction sizes as [|s ss IH]; intros l; [reflexivity|]. cbn [cut map]. rewrite <- firstn_map, skipn_map, IH. reflexivity. Qed.

Lemma mom_affine x perm nb auto out k c : median_of_means x perm nb auto = Ok out -> x <> [] -> 0 < k ->
  Permutation perm (seq 0 (List.length x)) ->
  median_of_means (map (fun v => k * v + c) x) perm nb auto = Ok (k * out + c).
Proof.
  intros H Hne Hk HP. destruct (mom_value _ _ _ _ _ H Hne) as (B & E & HB & ->).
  unfold median_of_means. rewrite map_length, E. cbn [bind]. f_equal.
  destruct (blocks_facts x perm B HP HB) as (_ & HL & Hb).
  assert (Hne' : map rmean (blocks_of x perm B) <> []) by (intros E'; apply (f_equal (@List.length R)) in E'; rewrite map_length, HL in E'; simpl in E'; lia).
  rewrite <- median_affine by auto. f_equal.
  assert (Ey : map (fun i => nth i (map (fun v => k * v + c) x) 0) perm = map (fun v => k * v + c) (map (fun i => nth i x 0) perm)).
  { rewrite map_map. apply map_ext_in. intros i Hi. apply (Permutation_in _ HP) in Hi. apply in_seq in Hi.
    apply (nth_map_lt (fun v => k * v + c)). lia. }
  rewrite Ey, cut_map, !map_map. fold (blocks_of x perm B). apply map_ext_in. intros blk Hk'. apply rmean_affine. apply (Hb blk Hk').
Qed.

(** Breakdown: a strict minority of blocks cannot move the estimate out of the range of the others. *)
Lemma count_le_bad (f bad : list R -> bool) bs : (forall b, In b bs -> f b = true -> bad b = true) ->
  (List.length (filter f bs) <= List.length (filter bad bs))%nat.
Proof.
  induction bs as [|b bs IH]; simpl; intros H; [lia|]. assert (IH' := IH (fun b' Hb => H b' (or_intror Hb))).
  pose proof (H b (or_introl eq_refl)). destruct (f b); [rewrite H0 by auto; simpl; lia|]. destruct (bad b); simpl; lia.
Qed.
Lemma count_map_mean g bs : count g (map rmean bs) = List.length (filter (fun b => g (rmean b)) bs).
Proof. unfold count. induction bs as [|b bs IH]; [reflexivity|]. cbn [map filter]. destruct (g (rmean b)); simpl; rewrite IH; reflexivity. Qed.

Lemma mom_breakdown x perm nb auto out lo hi B : median_of_means x perm nb auto = Ok out -> x <> [] ->
  Permutation perm (seq 0 (List.length x)) -> mom_blocks (List.length x) nb auto = Ok B ->
  (exists bad : list R -> bool, (2 * List.length (filter bad (blocks_of x perm B)) < B)%nat /\
     forall blk, In blk (blocks_of x perm B) -> bad blk = false -> forall a, In a blk -> lo <= a <= hi) ->
  lo <= out <= hi.
Proof.
  intros H Hne HP EB (bad & Hmaj & Hgood). destruct (mom_value _ _ _ _ _ H Hne) as (B' & E & HB & ->).
  rewrite EB in E. injection E as <-.
  destruct (blocks_facts x perm B HP HB) as (_ & HL & Hb).
  assert (Hne' : map rmean (blocks_of x perm B) <> []) by (intros E'; apply (f_equal (@List.length R)) in E'; rewrite map_length, HL in E'; simpl in E'; lia).
  assert (Hm : forall blk, In blk (blocks_of x perm B) -> bad blk = false -> lo <= rmean blk <= hi).
  { intros blk Hk Hbad. apply rmean_bounds; [apply (Hb blk Hk)|]. eauto. }
  split; [apply median_lower|apply median_upper]; auto; rewrite map_length, HL, count_map_mean.
  - assert (List.length (filter (fun b => Rltb (rmean b) lo) (blocks_of x perm B)) <= List.length (filter bad (blocks_of x perm B)))%nat; [|lia].
    apply count_le_bad. intros b Hk Hl. apply Rltb_true in Hl. destruct (bad b) eqn:Eb; [reflexivity|]. specialize (Hm b Hk Eb). lra.
  - assert (List.length (filter (fun b => Rltb hi (rmean b)) (blocks_of x perm B)) <= List.length (filter bad (blocks_of x perm B)))%nat; [|lia].
    apply count_le_bad. intros b Hk Hl. apply Rltb_true in Hl. destruct (bad b) eqn:Eb; [reflexivity|]. specialize (Hm b Hk Eb). lra.
Qed.
