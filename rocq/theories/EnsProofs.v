(** Proofs about blending. *)
From Verif Require Import RBase QpBase ConsModel EnsModel EnsSpec.
Open Scope R_scope.
Open Scope list_scope.

Lemma finite_all_spec l rs : finite_all l = Some rs <-> l = map Fin rs.
Proof.
  split.
  - revert rs. induction l as [|x l IH]; simpl; intros rs H; [injection H as <-; reflexivity|].
    destruct x; try discriminate. destruct (finite_all l) eqn:E; [|discriminate]. injection H as <-. simpl. f_equal. auto.
  - intros ->. induction rs as [|r rs IH]; simpl; [auto|]. rewrite IH. reflexivity.
Qed.

Lemma assoc_in {A} k (l : list (string * A)) v : assoc k l = Some v -> In (k, v) l.
Proof.
  induction l as [|[k' v'] l IH]; simpl; [discriminate|]. destruct (String.eqb_spec k k'); [|auto].
  intros H. injection H as ->. subst. auto.
Qed.
Lemma assoc_nodup {A} k (l : list (string * A)) v : NoDup (map fst l) -> In (k, v) l -> assoc k l = Some v.
Proof.
  induction l as [|[k' v'] l IH]; simpl; [easy|]. intros HN [H|H].
  - injection H as -> ->. rewrite String.eqb_refl. reflexivity.
  - inversion HN; subst. destruct (String.eqb_spec k k'); [|auto]. subst. exfalso. apply H2.
    apply in_map_iff. exists (k', v). auto.
Qed.
Lemma assoc_perm {A} k (l l' : list (string * A)) : NoDup (map fst l) -> Permutation l l' -> assoc k l = assoc k l'.
Proof.
  intros HN HP. assert (HN' : NoDup (map fst l')) by (eapply Permutation_NoDup; [apply Permutation_map, HP|exact HN]).
  destruct (assoc k l) as [v|] eqn:E.
  - symmetry. apply assoc_nodup; auto. eapply Permutation_in; [exact HP|]. apply assoc_in; auto.
  - destruct (assoc k l') as [v|] eqn:E'; [|reflexivity]. apply assoc_in in E'.
    apply (Permutation_in _ (Permutation_sym HP)) in E'. apply (assoc_nodup k l v HN) in E'. congruence.
Qed.

Lemma reindex_spec l ks v : reindex l ks = Ok v ->
  List.length v = List.length ks /\ forall j, (j < List.length ks)%nat -> assoc (nth j ks EmptyString) l = Some (nth j v NaN).
Proof.
  revert v. induction ks as [|k ks IH]; simpl; intros v H.
  - injection H as <-. split; [reflexivity|]. simpl. lia.
  - destruct (assoc k l) as [x|] eqn:E; [|discriminate].
    assert (Hx : (let* vs := reindex l ks in Ok (x :: vs)) = Ok v) by (destruct x; auto; discriminate).
    apply bind_ok in Hx as (vs & E1 & E2). injection E2 as <-. destruct (IH vs E1) as [I1 I2].
    split; [simpl; auto|]. intros [|j] Hj; simpl; [exact E|]. apply I2. lia.
Qed.

Lemma reindex_perm l l' ks : NoDup (map fst l) -> Permutation l l' -> reindex l ks = reindex l' ks.
Proof.
  intros HN HP. induction ks as [|k ks IH]; simpl; [reflexivity|]. rewrite (assoc_perm k l l' HN HP), IH. reflexivity.
Qed.

Definition wfinish (num : nat) (v : list pyf) : res (list R) :=
  if negb (Nat.eqb (List.length v) num) then Err ValueError
  else match finite_all v with
       | None => Err ValueError
       | Some rs => if Rleb (rsum rs) 0 then Err ValueError else Ok (map (fun x => x / rsum rs) rs)
       end.

Lemma wfinish_ok num v ws : wfinish num v = Ok ws <->
  exists rs, v = map Fin rs /\ List.length rs = num /\ 0 < rsum rs /\ ws = map (fun x => x / rsum rs) rs.
Proof.
  unfold wfinish. destruct (Nat.eqb_spec (List.length v) num) as [HL|HL]; cbn [negb].
  - destruct (finite_all v) as [rs|] eqn:E.
    + apply finite_all_spec in E. subst v. rewrite map_length in HL. destruct (Rleb_spec (rsum rs) 0).
      * split; [discriminate|]. intros (rs' & E1 & _ & H & _). apply (f_equal (map value_of)) in E1. rewrite !map_map in E1. simpl in E1.
        rewrite !map_id in E1. subst. lra.
      * split.
        -- intros H. injection H as <-. exists rs. repeat split; auto. lra.
        -- intros (rs' & E1 & _ & H & ->). apply (f_equal (map value_of)) in E1. rewrite !map_map in E1. simpl in E1.
           rewrite !map_id in E1. subst. reflexivity.
    + split; [discriminate|]. intros (rs & -> & _). rewrite (proj2 (finite_all_spec _ rs) eq_refl) in E. discriminate.
  - split; [discriminate|]. intros (rs & -> & H & _). rewrite map_length in HL. congruence.
Qed.

Lemma rsum_repeat n x : rsum (repeat x n) = INR n * x.
Proof. induction n as [|n IH]; [simpl; lra|]. rewrite S_INR. simpl rsum. rewrite IH. lra. Qed.

Lemma nth_map_Fin rs j : value_of (nth j (map Fin rs) NaN) = nth j rs 0.
Proof. revert j. induction rs as [|r rs IH]; intros [|j]; simpl; auto. Qed.

(** The result: supplied values over their (positive) sum. *)
Lemma normalize_weights_ok w num names ws :
  labels_fit w num names ->
  normalize_weights w num names = Ok ws ->
  (0 < num)%nat /\ List.length ws = num /\ rsum ws = 1 /\
  0 < sumn num (supplied w num names) /\
  forall j, (j < num)%nat -> nth j ws 0 = supplied w num names j / sumn num (supplied w num names).
Proof.
  intros Hnm. unfold normalize_weights. destruct (Nat.eqb_spec num 0) as [|Hn]; [discriminate|].
  assert (HF : forall v, (forall rs, v = map Fin rs -> List.length rs = num -> forall j, (j < num)%nat -> supplied w num names j = nth j rs 0) ->
     wfinish num v = Ok ws -> (0 < num)%nat /\ List.length ws = num /\ rsum ws = 1 /\
       0 < sumn num (supplied w num names) /\
       forall j, (j < num)%nat -> nth j ws 0 = supplied w num names j / sumn num (supplied w num names)).
  { intros v HS H. apply wfinish_ok in H as (rs & Ev & HL & Hpos & ->). specialize (HS rs Ev HL).
    assert (Es : sumn num (supplied w num names) = rsum rs).
    { rewrite rsum_sumn, HL. apply sumn_ext. exact HS. }
    split; [lia|]. split; [rewrite map_length; auto|]. split; [|split].
    - rewrite rsum_div, map_id. field. lra.
    - lra.
    - intros j Hj. rewrite (nth_map_lt (fun x => x / rsum rs) rs j 0 0) by lia. rewrite Es, HS by auto. reflexivity. }
  fold (wfinish num).
  assert (HN0 : INR num <> 0) by (apply not_0_INR; auto).
  destruct w as [|l|l].
  - intros H. injection H as <-. split; [lia|]. split; [apply repeat_length|]. split; [rewrite rsum_repeat; field; auto|].
    assert (Es : sumn num (supplied WNone num names) = INR num).
    { rewrite (sumn_ext _ _ (fun _ => 1)) by reflexivity. rewrite sumn_const. lra. }
    rewrite Es. split; [apply lt_0_INR; lia|]. intros j Hj. simpl.
    assert (E : forall x m k, (k < m)%nat -> nth k (repeat x m) 0 = x) by (clear; intros x; induction m; intros [|k] H; simpl; try lia; auto; apply IHm; lia).
    apply E. auto.
  - apply HF. intros rs -> HL j Hj. simpl. apply nth_map_Fin.
  - destruct names as [ks|].
    + intros H. apply bind_ok in H as (v & E & H). apply reindex_spec in E as [E1 E2]. specialize (Hnm l ks eq_refl eq_refl).
      apply (HF v); [|exact H]. intros rs -> HL j Hj. simpl. rewrite E2 by lia. apply nth_map_Fin.
    + apply HF. intros rs E HL j Hj. simpl. rewrite E. apply nth_map_Fin.
Qed.

(** ** Combination *)
Lemma combine_cols_spec cols ws : List.length ws = List.length cols -> is_combination cols ws (combine_cols cols ws).
Proof.
  intros HL i. unfold combine_cols. rewrite (rsum_map2_sumn _ cols ws (fun _ => 0) 0 (List.length cols)); auto.
  apply sumn_ext. intros; ring.
Qed.

Lemma combination_dot N g cols ws v : is_combination cols ws v ->
  dot N g v = sumn (List.length cols) (fun j => nth j ws 0 * dot N g (nth j cols (fun _ => 0))).
Proof.
  intros H. unfold dot. rewrite (sumn_ext N _ (fun i => sumn (List.length cols) (fun j => nth j ws 0 * (g i * nth j cols (fun _ => 0) i)))).
  - rewrite sumn_swap. apply sumn_ext. intros j Hj. rewrite sumn_scale. reflexivity.
  - intros i Hi. rewrite H, <- sumn_scale. apply sumn_ext. intros; ring.
Qed.

Lemma wsum_nth ws n : List.length ws = n -> rsum ws = sumn n (fun j => nth j ws 0).
Proof. intros <-. apply rsum_sumn. Qed.

Lemma combination_le N g h cols ws v : convex_weights (List.length cols) ws -> is_combination cols ws v ->
  (forall c, In c cols -> holds_le N g h c) -> holds_le N g h v.
Proof.
  intros (HL & H1 & H0) HC HG. unfold holds_le. rewrite (combination_dot N g cols ws v HC).
  replace h with (sumn (List.length cols) (fun j => nth j ws 0 * h)).
  - apply sumn_le. intros j Hj. apply Rmult_le_compat_l; [apply H0, nth_In; lia|]. apply HG, nth_In. exact Hj.
  - rewrite sumn_scale_r, <- (wsum_nth ws _ HL), H1. lra.
Qed.

Lemma combination_eq N g b cols ws v : List.length ws = List.length cols -> rsum ws = 1 -> is_combination cols ws v ->
  (forall c, In c cols -> dot N g c = b) -> dot N g v = b.
Proof.
  intros HL H1 HC HG. rewrite (combination_dot N g cols ws v HC).
  rewrite (sumn_ext _ _ (fun j => nth j ws 0 * b)).
  - rewrite sumn_scale_r, <- (wsum_nth ws _ HL), H1. lra.
  - intros j Hj. rewrite HG by (apply nth_In; auto). reflexivity.
Qed.

Lemma combination_bounds cols ws v i lo hi : convex_weights (List.length cols) ws -> is_combination cols ws v ->
  (forall c, In c cols -> lo <= c i <= hi) -> lo <= v i <= hi.
Proof.
  intros (HL & H1 & H0) HC HG. rewrite HC.
  assert (E : forall x, sumn (List.length cols) (fun j => nth j ws 0 * x) = x) by (intros x; rewrite sumn_scale_r, <- (wsum_nth ws _ HL), H1; lra).
  split; [rewrite <- (E lo)|rewrite <- (E hi)]; apply sumn_le; intros j Hj;
    (apply Rmult_le_compat_l; [apply H0, nth_In; lia|]; apply HG, nth_In; exact Hj).
Qed.

(** ** Average *)
Lemma average_ok p w v nm :
  (match pn_samples p with Some ks => List.length ks = List.length (pn_cols p) | None => True end) ->
  average_exposures p w = Ok (v, nm) ->
  nm = pn_assets p /\ exists ws, normalize_weights w (List.length (pn_cols p)) (pn_samples p) = Ok ws /\
    List.length ws = List.length (pn_cols p) /\ rsum ws = 1 /\ is_combination (pn_cols p) ws v.
Proof.
  intros Hs H. unfold average_exposures in H. apply bind_ok in H as (p' & E & H).
  assert (p' = p) as -> by (unfold ensure_samples in E; destruct (Nat.eqb _ 0); [discriminate|congruence]).
  apply bind_ok in H as (ws & E2 & H). injection H as <- <-. split; [reflexivity|]. exists ws. split; [exact E2|].
  apply normalize_weights_ok in E2 as (_ & HL & H1 & _).
  - split; [exact HL|]. split; [exact H1|]. apply combine_cols_spec. exact HL.
  - intros l ks _ E'. rewrite E' in Hs. exact Hs.
Qed.

(** ** Folds *)
Lemma skipn_seq k n s : skipn k (seq s n) = seq (s + k) (n - k).
Proof.
  revert n s. induction k as [|k IH]; intros n s.
  - simpl. rewrite Nat.sub_0_r, Nat.add_0_r. reflexivity.
  - destruct n as [|n]; [reflexivity|]. cbn [skipn seq]. rewrite IH. replace (S s + k)%nat with (s + S k)%nat by lia. reflexivity.
Qed.
Lemma firstn_seq k n s : firstn k (seq s n) = seq s (Nat.min k n).
Proof. revert n s. induction k as [|k IH]; intros [|n] s; simpl; auto. f_equal. apply IH. Qed.

Lemma concat_blocks size m n : (m * size <= n)%nat ->
  List.concat (map (fun part => slice (part * size) ((part + 1) * size) (seq 0 n)) (seq 0 m)) = seq 0 (m * size).
Proof.
  induction m as [|m IH]; intros H; [reflexivity|].
  rewrite seq_S, map_app, concat_app, IH by (simpl in H; lia). simpl. rewrite app_nil_r.
  unfold slice. rewrite skipn_seq, firstn_seq.
  replace (Nat.min ((m + 1) * size - m * size) (n - m * size)) with size by (simpl in H; nia).
  replace (size + m * size)%nat with (m * size + size)%nat by lia. rewrite seq_app. reflexivity.
Qed.

Lemma div_size n L : (2 <= L <= n)%nat -> let size := (n / L)%nat in (1 <= size /\ L * size <= n /\ n < L * (size + 1))%nat.
Proof.
  intros H size. assert (HL : L <> 0%nat) by lia. pose proof (Nat.mul_div_le n L HL) as A. pose proof (Nat.mul_succ_div_gt n L HL) as B.
  fold size in A, B. split; [|split; [exact A|lia]]. destruct size; [lia|lia].
Qed.

Lemma partitions_spec n L : (2 <= L <= n)%nat ->
  List.concat (partitions n L) = seq 0 n /\ List.length (partitions n L) = L /\
  Forall (fun f => f <> [] /\ (n / L <= List.length f <= n / L + (L - 1))%nat) (partitions n L).
Proof.
  intros H. destruct (div_size n L H) as (S1 & S2 & S3). unfold partitions. set (size := (n / L)%nat) in *.
  assert (HM : ((L - 1) * size <= n)%nat) by nia.
  split; [|split].
  - rewrite concat_app, concat_blocks by exact HM. simpl. rewrite app_nil_r, skipn_seq. simpl.
    rewrite <- seq_app. f_equal. lia.
  - rewrite app_length, map_length, seq_length. simpl. lia.
  - apply Forall_app. split.
    + apply Forall_forall. intros f Hf. apply in_map_iff in Hf as (k & <- & Hk). apply in_seq in Hk.
      unfold slice. rewrite skipn_seq, firstn_seq.
      replace (Nat.min ((k + 1) * size - k * size) (n - k * size)) with size by nia.
      rewrite seq_length. split; [destruct size; [lia|discriminate]|lia].
    + constructor; [|constructor]. rewrite skipn_seq, seq_length.
      assert (size <= n - (L - 1) * size)%nat by nia.
      split; [|nia]. intros E. apply (f_equal (@List.length nat)) in E. rewrite seq_length in E. simpl in E. lia.
Qed.

(** ** The objective *)
Lemma memb_in j s : memb j s = true <-> In j s.
Proof.
  unfold memb. rewrite existsb_exists. split.
  - intros (x & Hx & E). apply Nat.eqb_eq in E. subst. exact Hx.
  - intros H. exists j. split; [exact H|]. apply Nat.eqb_refl.
Qed.

Lemma outside_masked cols s w t : outside cols s w t = sumn (List.length cols) (fun j => masked cols s j t * w j).
Proof.
  unfold outside. apply sumn_ext. intros j Hj. unfold masked. destruct (in_dec Nat.eq_dec j s) as [H|H].
  - apply memb_in in H. rewrite H. ring.
  - destruct (memb j s) eqn:E; [apply memb_in in E; contradiction|]. ring.
Qed.

Lemma rsum_swap_sumn {A} (l : list A) n (f : A -> nat -> R) :
  rsum (map (fun a => sumn n (f a)) l) = sumn n (fun i => rsum (map (fun a => f a i) l)).
Proof. induction l as [|a l IH]; simpl; [rewrite sumn_zero; reflexivity|]. rewrite IH, <- sumn_plus. reflexivity. Qed.

Lemma filter_all {A} (f : A -> bool) l : (forall x, In x l -> f x = true) -> filter f l = l.
Proof. induction l as [|x l IH]; intros H; simpl; [auto|]. rewrite (H x (or_introl eq_refl)), IH; auto. intros y Hy. apply H. now right. Qed.

(** The programme minimises the cross-validated residual (up to a constant). *)
Lemma stack_obj N cols L w : (2 <= L <= List.length cols)%nat ->
  qp_obj (stack_qp N cols L) w =
  cv_residual N cols (partitions (List.length cols) L) w -
  rsum (map (fun f => sumn N (fun t => (fold_mean cols f t) ^ 2)) (partitions (List.length cols) L)).
Proof.
  intros HL. destruct (partitions_spec _ L HL) as (_ & _ & HF). rewrite Forall_forall in HF.
  unfold qp_obj, stack_qp. cbn [qp_n qp_P qp_q]. rewrite quad_scale, dot_scale_l.
  set (parts := partitions (List.length cols) L) in *. set (n := List.length cols) in *.
  assert (EP : filter nonempty parts = parts).
  { apply filter_all. intros f Hf. destruct (HF f Hf) as [Hne _]. unfold nonempty. destruct f; [congruence|reflexivity]. }
  unfold cv_residual. rewrite <- rsum_minus.
  assert (EQ : quad n (gram N cols parts) w = rsum (map (fun s => sumn N (fun t => outside cols s w t ^ 2)) parts)).
  { transitivity (rsum (map (fun s => quad n (fun i j => sumn N (fun t => masked cols s i t * masked cols s j t)) w) parts)).
    - unfold gram. rewrite EP. unfold quad.
      rewrite rsum_swap_sumn. apply sumn_ext. intros i Hi. rewrite rsum_swap_sumn. apply sumn_ext. intros j Hj.
      rewrite Rmult_assoc, <- rsum_scale_r. apply rsum_ext. intros s _. ring.
    - apply rsum_ext. intros s _. rewrite quad_gram. apply sumn_ext. intros t Ht. cbv zeta.
      rewrite outside_masked. unfold n. ring. }
  assert (EL : dot n (linear N cols parts) w = rsum (map (fun s => sumn N (fun t => outside cols s w t * fold_mean cols s t)) parts)).
  { unfold linear. rewrite EP. unfold dot.
    rewrite (sumn_ext n _ (fun j => rsum (map (fun s => sumn N (fun t => masked cols s j t * w j * fold_mean cols s t)) parts))).
    - rewrite <- rsum_swap_sumn. apply rsum_ext. intros s _. rewrite sumn_swap. apply sumn_ext. intros t Ht.
      rewrite outside_masked. fold n. rewrite sumn_scale_r. reflexivity.
    - intros j Hj. rewrite <- rsum_scale_r. apply rsum_ext. intros s Hs. destruct (HF s Hs) as [Hne _].
      assert (Hm : Nat.max (List.length s) 1 = List.length s) by (destruct s; [congruence|simpl; lia]). rewrite Hm.
      unfold Rdiv. rewrite <- sumn_scale_r, <- sumn_scale_r. apply sumn_ext. intros t Ht. unfold fold_mean, summed. unfold Rdiv. ring. }
  rewrite EQ, EL.
  replace (2 * rsum (map (fun s => sumn N (fun t => outside cols s w t ^ 2)) parts) / 2) with (rsum (map (fun s => sumn N (fun t => outside cols s w t ^ 2)) parts)) by field.
  rewrite <- rsum_scale, <- rsum_plus. apply rsum_ext. intros s _.
  rewrite <- sumn_scale, <- sumn_plus, <- sumn_minus. apply sumn_ext. intros t Ht. ring.
Qed.

Lemma stack_feasible N cols L w : qp_feasible (stack_qp N cols L) w <->
  convex_weights (List.length cols) (map w (seq 0 (List.length cols))).
Proof.
  unfold qp_feasible, stack_qp, convex_weights. cbn [qp_n qp_ineq qp_eq]. set (n := List.length cols).
  assert (Ed : dot n (fun _ => 1) w = rsum (map w (seq 0 n))).
  { rewrite rsum_seq. apply sumn_ext. intros; simpl; ring. }
  split.
  - intros [H1 H2]. split; [rewrite map_length, seq_length; reflexivity|]. split.
    + rewrite <- Ed. apply H2. simpl; auto.
    + intros x Hx. apply in_map_iff in Hx as (i & <- & Hi). pose proof Hi as Hi'. apply in_seq in Hi.
      assert (H := H1 (fun j => - delta i j) 0). cbv beta in H.
      assert (Hd : dot n (fun j => - delta i j) w = - w i).
      { unfold dot. rewrite (sumn_ext _ _ (fun j => - (delta i j * w j))) by (intros; ring). rewrite sumn_opp, sumn_delta_r by lia. reflexivity. }
      rewrite Hd in H. assert (- w i <= 0); [|lra]. apply H. apply in_map_iff. exists i. auto.
  - intros (_ & H1 & H2). split.
    + intros g h Hin. apply in_map_iff in Hin as (i & E & Hi). injection E as <- <-. pose proof Hi as Hi'. apply in_seq in Hi.
      assert (Hd : dot n (fun j => - delta i j) w = - w i).
      { unfold dot. rewrite (sumn_ext _ _ (fun j => - (delta i j * w j))) by (intros; ring). rewrite sumn_opp, sumn_delta_r by lia. reflexivity. }
      rewrite Hd. assert (0 <= w i); [|lra]. apply H2. apply in_map. exact Hi'.
    + intros a b [E|F]; [|destruct F]. injection E as <- <-. rewrite Ed. exact H1.
Qed.

Lemma stack_psd N cols L : psd (qp_n (stack_qp N cols L)) (qp_P (stack_qp N cols L)).
Proof.
  cbn [stack_qp qp_n qp_P]. apply psd_scale; [lra|]. intros x. unfold gram.
  set (l := filter nonempty (partitions (List.length cols) L)). induction l as [|s l IH].
  - simpl. unfold quad. rewrite (sumn_0 (List.length cols)); [lra|]. intros i Hi. apply sumn_0. intros; unfold rsum; simpl; ring.
  - simpl. rewrite (quad_plus _ (fun i j => sumn N (fun t => masked cols s i t * masked cols s j t))).
    pose proof (gram_psd (List.length cols) N (masked cols s) x) as HG. apply Rplus_le_le_0_compat; [exact HG|exact IH].
Qed.

Lemma stacking_ok solver p L v nm w :
  exposure_stacking solver p L = Ok (v, nm) ->
  solver (stack_qp (pn_n p) (pn_cols p) (Z.to_nat L)) = Some w ->
  qp_optimum (stack_qp (pn_n p) (pn_cols p) (Z.to_nat L)) w ->
  let n := List.length (pn_cols p) in
  nm = pn_assets p /\ (2 <= L <= Z.of_nat n)%Z /\
  convex_weights n (map w (seq 0 n)) /\ is_combination (pn_cols p) (map w (seq 0 n)) v /\
  forall u, convex_weights n (map u (seq 0 n)) ->
    cv_residual (pn_n p) (pn_cols p) (partitions n (Z.to_nat L)) w <= cv_residual (pn_n p) (pn_cols p) (partitions n (Z.to_nat L)) u.
Proof.
  intros H Hs [Hf Ho] n. unfold exposure_stacking in H. apply bind_ok in H as (p' & E & H).
  assert (p' = p) as -> by (unfold ensure_samples in E; destruct (Nat.eqb _ 0); [discriminate|congruence]).
  destruct (Z.ltb_spec L 2); [discriminate|]. fold n in H. destruct (Z.ltb_spec (Z.of_nat n) L); [discriminate|].
  rewrite Hs in H. injection H as <- <-.
  split; [reflexivity|]. split; [lia|]. apply stack_feasible in Hf. split; [exact Hf|].
  split; [apply combine_cols_spec; rewrite map_length, seq_length; reflexivity|].
  intros u Hu. apply stack_feasible with (N := pn_n p) (L := Z.to_nat L) in Hu. specialize (Ho u Hu).
  rewrite !stack_obj in Ho by (fold n; lia). fold n in Ho. lra.
Qed.

(** ** Collecting *)
Lemma argmin_from_spec l best bi i :
  let k := argmin_from best bi i l in
  (k = bi /\ forall x, In x l -> best <= x) \/
  ((i <= k < i + List.length l)%nat /\ nth (k - i)%nat l 0 < best /\ (forall x, In x l -> nth (k - i)%nat l 0 <= x) /\
    forall j, (j < k - i)%nat -> nth (k - i)%nat l 0 < nth j l 0).
Proof.
  revert best bi i. induction l as [|x l IH]; intros best bi i; simpl.
  - left. split; auto. easy.
  - destruct (Rltb_spec x best) as [E|E].
    + destruct (IH x i (S i)) as [[-> H]|(H1 & H2 & H3 & H4)]; right.
      * rewrite Nat.sub_diag. split; [lia|]. split; [exact E|]. split; [intros y [<-|Hy]; [lra|auto]|]. intros; lia.
      * set (k := argmin_from x i (S i) l) in *. replace (k - i)%nat with (S (k - S i)) by lia. simpl.
        split; [lia|]. split; [lra|]. split; [intros y [<-|Hy]; [lra|auto]|]. intros [|j] Hj; [lra|]. apply H4. lia.
    + destruct (IH best bi (S i)) as [[-> H]|(H1 & H2 & H3 & H4)].
      * left. split; auto. intros y [<-|Hy]; [lra|auto].
      * right. set (k := argmin_from best bi (S i) l) in *. replace (k - i)%nat with (S (k - S i)) by lia. simpl.
        split; [lia|]. split; [lra|]. split; [intros y [<-|Hy]; [lra|auto]|]. intros [|j] Hj; [lra|]. apply H4. lia.
Qed.

Lemma argmin_spec l k : argmin l = Ok k ->
  (k < List.length l)%nat /\ (forall i, (i < List.length l)%nat -> nth k l 0 <= nth i l 0) /\ (forall i, (i < k)%nat -> nth k l 0 < nth i l 0).
Proof.
  destruct l as [|x l]; [discriminate|]. unfold argmin. intros H. injection H as <-.
  destruct (argmin_from_spec l x 0 1) as [[E H]|(H1 & H2 & H3 & H4)].
  - rewrite E. simpl. split; [lia|]. split; [|intros; lia]. intros [|i] Hi; [lra|]. apply H, nth_In. lia.
  - set (k := argmin_from x 0 1 l) in *. destruct k as [|k]; [lia|]. simpl in *. rewrite Nat.sub_0_r in *.
    split; [lia|]. split.
    + intros [|i] Hi; [lra|]. apply H3, nth_In. lia.
    + intros [|i] Hi; [lra|]. apply H4. lia.
Qed.

Lemma wrap_index_spec n k i : wrap_index n k = Some i -> (i < n)%nat /\ (k = Z.of_nat i \/ k = Z.of_nat i - Z.of_nat n)%Z.
Proof.
  unfold wrap_index. destruct ((0 <=? k) && (k <? Z.of_nat n))%Z eqn:E.
  - apply andb_true_iff in E as [E1 E2]. apply Z.leb_le in E1. apply Z.ltb_lt in E2. intros H. injection H as <-. split; lia.
  - destruct ((- Z.of_nat n <=? k) && (k <? 0))%Z eqn:E'; [|discriminate].
    apply andb_true_iff in E' as [E1 E2]. apply Z.leb_le in E1. apply Z.ltb_lt in E2. intros H. injection H as <-. split; lia.
Qed.

Lemma entry_cols_spec e sel cols d nm : entry_cols e sel = Ok (cols, d, nm) ->
  (match e with EFrontier f => List.length (f_risks f) = List.length (f_cols f) | _ => True end) ->
  contributes e sel cols /\ d = entry_dim e /\ nm = entry_labels e.
Proof.
  intros H Hw. destruct e as [f|p]; unfold entry_cols in H.
  - apply bind_ok in H as (k & E & H). apply bind_ok in H as (c & E2 & H). injection H as <- <- <-.
    split; [|split; reflexivity]. unfold select_col in E2. destruct (wrap_index _ k) as [i|] eqn:Ew; [|discriminate].
    injection E2 as <-. apply wrap_index_spec in Ew as [W1 W2].
    exists i. split; [exact W1|]. split; [reflexivity|].
    destruct sel as [[|z [|z' s]]|]; try discriminate.
    + injection E as ->. exists k. auto.
    + apply bind_ok in E as (a & E & E'). injection E' as <-. apply argmin_spec in E as (A1 & A2 & A3).
      assert (i = a) as -> by (destruct W2; lia). split; [exact A1|]. auto.
  - apply bind_ok in H as (p' & E & H). injection H as <- <- <-. unfold ensure_samples in E.
    destruct (Nat.eqb_spec (List.length (pn_cols p)) 0); [discriminate|]. injection E as <-. split; [|split; reflexivity].
    split; [reflexivity|]. intros E. rewrite E in n. apply n. reflexivity.
Qed.

Definition labelled (o : option (list string)) : option (list string) :=
  match o with Some (x :: l) => Some (x :: l) | _ => None end.

Definition well_shaped (e : entry) : Prop :=
  match e with EFrontier f => List.length (f_risks f) = List.length (f_cols f) | _ => True end.

Lemma collect_spec es : Forall well_shaped (map fst es) ->
  forall names dim cols names' dim', collect es names dim = Ok (cols, names', dim') ->
  exists pieces, Forall2 (fun es c => contributes (fst es) (snd es) c) es pieces /\ cols = List.concat pieces /\
    (forall e s, In (e, s) es -> forall l, labelled (entry_labels e) = Some l -> names' = Some l) /\
    (forall l, names = Some l -> names' = Some l) /\
    (forall l, names' = Some l -> names = Some l \/ exists e s, In (e, s) es /\ labelled (entry_labels e) = Some l) /\
    (forall d, dim = Some d -> dim' = Some d) /\
    (forall e s, In (e, s) es -> dim' = Some (entry_dim e)).
Proof.
  induction es as [|[e s] es IH]; simpl; intros Hws names dim cols names' dim' H.
  - injection H as <- <- <-. exists []. repeat split; auto; try easy.
  - inversion Hws as [|? ? Hw Hws']; subst.
    apply bind_ok in H as ([[c d] nm] & E1 & H). apply bind_ok in H as (n1 & E2 & H).
    apply bind_ok in H as ([[cs n2] d2] & E3 & H).
    destruct (match dim with Some x => Nat.eqb x d | None => true end) eqn:Ed; [|discriminate].
    injection H as <- <- <-. apply entry_cols_spec in E1 as (C1 & C2 & C3); [|exact Hw].
    destruct (IH Hws' _ _ _ _ _ E3) as (ps & P1 & P2 & P3 & P4 & P5 & P6 & P7). subst d nm.
    exists (c :: ps). split; [constructor; auto|]. split; [simpl; congruence|].
    assert (HM : (forall l, labelled (entry_labels e) = Some l -> n1 = Some l) /\ (forall l, names = Some l -> n1 = Some l) /\
                 (forall l, n1 = Some l -> names = Some l \/ labelled (entry_labels e) = Some l)).
    { unfold merge_asset_names in E2. destruct (entry_labels e) as [[|x l]|]; simpl.
      - destruct names as [nl|]; [destruct (Nat.eqb _ _); [|discriminate]|]; injection E2 as <-; repeat split; auto; discriminate.
      - destruct names as [nl|].
        + destruct (list_eq_dec string_dec nl (x :: l)); [|discriminate]. injection E2 as <-. subst. repeat split; auto.
        + injection E2 as <-. repeat split; auto; discriminate.
      - destruct names as [nl|]; [destruct (Nat.eqb _ _); [|discriminate]|]; injection E2 as <-; repeat split; auto; discriminate. }
    destruct HM as (M1 & M2 & M3). split; [|split; [|split; [|split]]].
    + intros e' s' [E|Hin] l Hl; [injection E as <- <-; auto|eauto].
    + auto.
    + intros l Hl. destruct (P5 l Hl) as [H|(e' & s' & Hin & H)]; [|right; eauto].
      destruct (M3 l H); [auto|]. right. exists e, s. auto.
    + intros d Hd. apply P6. rewrite Hd. reflexivity.
    + intros e' s' [E|Hin]; [|eauto]. injection E as <- <-. apply P6.
      destruct dim as [x|]; [apply Nat.eqb_eq in Ed; subst; reflexivity|reflexivity].
Qed.

Lemma combine_fst {A B} (l : list A) (m : list B) : List.length l = List.length m -> map fst (combine l m) = l.
Proof. revert m. induction l as [|x l IH]; intros [|y m] H; simpl in *; try discriminate; auto. f_equal. auto. Qed.

Lemma in_combine_l' {A B} (l : list A) (m : list B) x : List.length l = List.length m -> In x l -> exists y, In (x, y) (combine l m).
Proof.
  revert m. induction l as [|a l IH]; intros [|b m] H; simpl in *; try discriminate; [intros F; destruct F|].
  intros [->|Hx]; [eauto|]. destruct (IH m ltac:(lia) Hx) as (y & Hy). eauto.
Qed.

Lemma collect_samples_ok entries selections p :
  Forall well_shaped entries -> collect_samples entries selections = Ok p ->
  exists sels pieces,
    match selections with Some s => sels = s | None => sels = repeat None (List.length entries) end /\
    List.length sels = List.length entries /\
    Forall2 (fun es c => contributes (fst es) (snd es) c) (combine entries sels) pieces /\
    pn_cols p = List.concat pieces /\ pn_cols p <> [] /\
    (forall e, In e entries -> entry_dim e = pn_n p) /\
    (forall e l, In e entries -> labelled (entry_labels e) = Some l -> pn_assets p = Some l) /\
    (forall l, pn_assets p = Some l -> exists e, In e entries /\ labelled (entry_labels e) = Some l).
Proof.
  intros Hw H. unfold collect_samples in H. destruct (Nat.eqb_spec (List.length entries) 0); [discriminate|].
  apply bind_ok in H as (sels & E & H). apply bind_ok in H as ([[cols names] dim] & E2 & H).
  assert (HS : match selections with Some s => sels = s | None => sels = repeat None (List.length entries) end /\ List.length sels = List.length entries).
  { destruct selections as [s|].
    - destruct (Nat.eqb_spec (List.length s) (List.length entries)); [|discriminate]. injection E as <-. auto.
    - injection E as <-. split; [reflexivity|apply repeat_length]. }
  destruct HS as [HS1 HS2].
  destruct (collect_spec (combine entries sels)) with (names := @None (list string)) (dim := @None nat) (cols := cols) (names' := names) (dim' := dim)
    as (ps & P1 & P2 & P3 & P4 & P5 & P6 & P7).
  - rewrite combine_fst by auto. exact Hw.
  - exact E2.
  - destruct dim as [[|d]|]; try discriminate. destruct (Nat.eqb_spec (List.length cols) 0); [discriminate|]. injection H as <-.
    exists sels, ps. cbn [pn_cols pn_n pn_assets]. split; [exact HS1|]. split; [exact HS2|]. split; [exact P1|]. split; [exact P2|].
    split; [destruct cols; [simpl in *; congruence|discriminate]|].
    split; [|split].
    + intros e He. destruct (in_combine_l' entries sels e ltac:(lia) He) as (s & Hs). specialize (P7 e s Hs). congruence.
    + intros e l He Hl. destruct (in_combine_l' entries sels e ltac:(lia) He) as (s & Hs). eauto.
    + intros l Hl. destruct (P5 l Hl) as [?|(e & s & Hin & Hl')]; [discriminate|]. exists e. split; [|auto].
      eapply in_combine_l; eauto.
Qed.

(** ** Solver options *)
Lemma opt_run_app st es es' : opt_run st (es ++ es') = opt_run (opt_run st es) es'.
Proof. apply fold_left_app. Qed.

Definition same_saved (a b : nat -> list options) : Prop := forall t, a t = b t.

Lemma inside_saved es : inside_context es -> forall g s, same_saved (snd (opt_run (g, s) es)) s.
Proof.
  induction 1 as [|o es H IH|t ov es es' H IH H' IH']; intros g s.
  - intros u. reflexivity.
  - apply IH.
  - rewrite app_comm_cons, opt_run_app. change (opt_run (g, s) (Enter t ov :: es)) with (opt_run (update g ov, set_saved s t (g :: s t)) es).
    specialize (IH (update g ov) (set_saved s t (g :: s t))).
    destruct (opt_run (update g ov, set_saved s t (g :: s t)) es) as [g1 s1]. cbn [snd] in IH.
    assert (Ht : s1 t = g :: s t) by (rewrite IH; unfold set_saved; rewrite Nat.eqb_refl; reflexivity).
    change (opt_run (g1, s1) (Leave t :: es')) with (opt_run (opt_step (g1, s1) (Leave t)) es').
    cbn [opt_step]. rewrite Ht. intros u. rewrite IH'. unfold set_saved. destruct (Nat.eqb_spec u t) as [->|Hu]; [reflexivity|].
    rewrite IH. unfold set_saved. destruct (Nat.eqb_spec u t); [contradiction|reflexivity].
Qed.

Lemma nested_restores es : nested_uses es -> forall g s, fst (opt_run (g, s) es) = g.
Proof.
  induction 1 as [|t ov es es' H H' IH]; intros g s; [reflexivity|].
  rewrite app_comm_cons, opt_run_app. change (opt_run (g, s) (Enter t ov :: es)) with (opt_run (update g ov, set_saved s t (g :: s t)) es).
  pose proof (inside_saved es H (update g ov) (set_saved s t (g :: s t))) as HS.
  destruct (opt_run (update g ov, set_saved s t (g :: s t)) es) as [g1 s1]. cbn [snd] in HS.
  assert (Ht : s1 t = g :: s t) by (rewrite HS; unfold set_saved; rewrite Nat.eqb_refl; reflexivity).
  change (opt_run (g1, s1) (Leave t :: es')) with (opt_run (opt_step (g1, s1) (Leave t)) es').
  cbn [opt_step]. rewrite Ht. apply IH.
Qed.

Lemma assoc_app {A} k (l m : list (string * A)) : assoc k (l ++ m) = match assoc k l with Some v => Some v | None => assoc k m end.
Proof. induction l as [|[k' v] l IH]; simpl; [reflexivity|]. destruct (String.eqb k k'); auto. Qed.

Lemma assoc_update g ov k : assoc k (update g ov) = match assoc k ov with Some v => Some v | None => assoc k g end.
Proof.
  unfold update. rewrite assoc_app. destruct (assoc k ov) eqn:E; [reflexivity|].
  assert (HN : existsb (fun kv' : string * R => String.eqb k (fst kv')) ov = false).
  { clear g. induction ov as [|[k' v] ov IH]; simpl in *; [reflexivity|]. destruct (String.eqb k k'); [discriminate|]. auto. }
  induction g as [|[k' v] g IH]; simpl; [reflexivity|]. destruct (String.eqb_spec k k') as [->|Hk].
  - rewrite HN. simpl. rewrite String.eqb_refl. reflexivity.
  - destruct (existsb (fun kv' : string * R => String.eqb k' (fst kv')) ov); simpl; [exact IH|]. destruct (String.eqb_spec k k'); [contradiction|exact IH].
Qed.

(** ** Acceptance of weights *)
Definition weight_list (w : warg) (names : option (list string)) : res (list pyf) :=
  match w with
  | WNone => Ok []
  | WSeq l => Ok l
  | WSeries l => match names with None => Ok (map snd l) | Some ks => reindex l ks end
  end.

Lemma normalize_weights_accept w num names : w <> WNone -> (0 < num)%nat ->
  ((exists ws, normalize_weights w num names = Ok ws) <->
   exists rs, weight_list w names = Ok (map Fin rs) /\ List.length rs = num /\ 0 < rsum rs).
Proof.
  intros Hw Hn. unfold normalize_weights. destruct (Nat.eqb_spec num 0) as [|_]; [lia|]. fold (wfinish num).
  assert (A : forall v, (exists ws, wfinish num v = Ok ws) <-> exists rs, v = map Fin rs /\ List.length rs = num /\ 0 < rsum rs).
  { intros v. split.
    - intros [ws H]. apply wfinish_ok in H as (rs & H1 & H2 & H3 & _). eauto.
    - intros (rs & H1 & H2 & H3). exists (map (fun x => x / rsum rs) rs). apply wfinish_ok. exists rs. auto. }
  destruct w as [|l|l]; [congruence| |]; cbn [weight_list].
  - change ((exists ws, wfinish num l = Ok ws) <-> exists rs, Ok l = Ok (map Fin rs) /\ List.length rs = num /\ 0 < rsum rs).
    rewrite A. split; intros (rs & H1 & H2); exists rs; split; auto; congruence.
  - destruct names as [ks|].
    + destruct (reindex l ks) as [v|e]; simpl.
      * change ((exists ws, wfinish num v = Ok ws) <-> exists rs, Ok v = Ok (map Fin rs) /\ List.length rs = num /\ 0 < rsum rs).
        rewrite A. split; intros (rs & H1 & H2); exists rs; split; auto; congruence.
      * split; [intros [ws H]; discriminate|intros (rs & H & _); discriminate].
    + change ((exists ws, wfinish num (map snd l) = Ok ws) <-> exists rs, Ok (map snd l) = Ok (map Fin rs) /\ List.length rs = num /\ 0 < rsum rs).
      rewrite A. split; intros (rs & H1 & H2); exists rs; split; auto; congruence.
Qed.

Lemma normalize_weights_errors w num names e : normalize_weights w num names = Err e -> e = ValueError.
Proof.
  unfold normalize_weights. destruct (Nat.eqb num 0); [congruence|]. fold (wfinish num).
  assert (A : forall v e, wfinish num v = Err e -> e = ValueError).
  { intros v e'. unfold wfinish. destruct (negb _); [congruence|]. destruct (finite_all v); [|congruence]. destruct (Rleb _ _); congruence. }
  assert (B : forall l ks e, reindex l ks = Err e -> e = ValueError).
  { intros l. induction ks as [|k ks IH]; simpl; intros e'; [discriminate|]. destruct (assoc k l) as [x|]; [|congruence].
    destruct x; try congruence; (destruct (reindex l ks) eqn:E; simpl; [discriminate|]; intros H; injection H as <-; eauto). }
  destruct w as [|l|l]; [discriminate|apply A|]. destruct names as [ks|]; [|apply A].
  destruct (reindex l ks) eqn:E; simpl; [apply A|]. intros H. injection H as <-. eauto.
Qed.

Lemma supplied_nonneg_weights w num names ws :
  labels_fit w num names ->
  normalize_weights w num names = Ok ws -> (forall j, (j < num)%nat -> 0 <= supplied w num names j) ->
  convex_weights num ws.
Proof.
  intros Hn H Hp. pose proof (normalize_weights_ok w num names ws Hn H) as (N0 & HL & H1 & Hs & Hj).
  split; [exact HL|]. split; [exact H1|]. intros x Hx. apply In_nth with (d := 0) in Hx as (j & Hj' & <-).
  rewrite Hj by lia. apply Rmult_le_pos; [apply Hp; lia|]. apply Rlt_le, Rinv_0_lt_compat. exact Hs.
Qed.
