(** Proofs about the constraint builder. *)
From Verif Require Import RBase ConsModel ConsSpec.
Open Scope R_scope.

Definition block_ok (n : nat) (R_ : R -> R -> Prop) (b : block) (P : list R -> Prop) : Prop :=
  List.length (fst b) = List.length (snd b) /\
  (forall row, In row (fst b) -> List.length row = n) /\
  forall w, List.length w = n ->
    (Forall2 (fun row rhs => row_rel R_ row rhs w) (fst b) (snd b) <-> P w).

Lemma block_ok_ext n R_ b P Q : (forall w, List.length w = n -> (P w <-> Q w)) ->
  block_ok n R_ b P -> block_ok n R_ b Q.
Proof. intros H (H1 & H2 & H3). repeat split; auto; intros HH; apply H, H3 || apply H3, H; auto. Qed.

Lemma forall2_length {A B} (P : A -> B -> Prop) l m : Forall2 P l m -> List.length l = List.length m.
Proof. induction 1; simpl; auto. Qed.

Lemma forall2_cons_inv {A B} (P : A -> B -> Prop) x y l m : Forall2 P (x :: l) (y :: m) -> P x y /\ Forall2 P l m.
Proof. intros H. inversion H; auto. Qed.

Lemma forall2_app_iff {A B} (P : A -> B -> Prop) l l' m m' : List.length l = List.length m ->
  (Forall2 P (l ++ l') (m ++ m') <-> Forall2 P l m /\ Forall2 P l' m').
Proof.
  revert m. induction l as [|x l IH]; destruct m as [|y m]; simpl; intros H; try discriminate.
  - split; [auto|tauto].
  - injection H as H. split.
    + intros HF. inversion HF; subst. apply IH in H5; auto. intuition.
    + intros [HF HF']. inversion HF; subst. constructor; auto. apply IH; auto.
Qed.

Lemma block_ok_nil n R_ : block_ok n R_ ([], []) (fun _ => True).
Proof. repeat split; simpl; auto; try easy. Qed.

Lemma block_ok_app n R_ a b P Q : block_ok n R_ a P -> block_ok n R_ b Q ->
  block_ok n R_ (app_block a b) (fun w => P w /\ Q w).
Proof.
  intros (A1 & A2 & A3) (B1 & B2 & B3). unfold app_block; split; [|split]; simpl.
  - rewrite !app_length. lia.
  - intros row H. apply in_app_iff in H as [H|H]; auto.
  - intros w Hw. rewrite forall2_app_iff by auto. rewrite A3, B3 by auto. tauto.
Qed.

Lemma block_ok_one n R_ row rhs : List.length row = n ->
  block_ok n R_ ([row], [rhs]) (fun w => row_rel R_ row rhs w).
Proof.
  intros H. split; [reflexivity|]. split.
  - intros r [<-|[]]; auto.
  - intros w _. split; intros HH; [inversion HH; auto|repeat constructor; auto].
Qed.

Lemma blocks_ok {A} n R_ (f : A -> res block) (P : A -> list R -> Prop) l b :
  (forall x b, In x l -> f x = Ok b -> block_ok n R_ b (P x)) ->
  blocks f l = Ok b -> block_ok n R_ b (fun w => forall x, In x l -> P x w).
Proof.
  revert b. induction l as [|x l IH]; simpl; intros b H HB.
  - injection HB as <-. eapply block_ok_ext; [|apply block_ok_nil]. intros; split; auto; intros _ x [].
  - apply bind_ok in HB as (a & Ha & HB). apply bind_ok in HB as (c & Hc & HB). injection HB as <-.
    eapply block_ok_ext; [|apply block_ok_app; [apply H; eauto|apply IH; [|exact Hc]; eauto]].
    intros w _. split.
    + intros [H1 H2] y [<-|Hy]; auto.
    + intros HH. split; auto.
Qed.

Lemma blocks_succeeds {A} (f : A -> res block) l :
  (exists b, blocks f l = Ok b) <-> forall x, In x l -> exists b, f x = Ok b.
Proof.
  induction l as [|x l IH]; simpl.
  - split; [intros _ x []|eauto].
  - split.
    + intros [b HB]. apply bind_ok in HB as (a & Ha & HB). apply bind_ok in HB as (c & Hc & HB).
      intros y [<-|Hy]; [eauto|]. apply IH; eauto.
    + intros H. destruct (H x (or_introl eq_refl)) as [a Ha]. rewrite Ha. cbn [bind].
      destruct (proj2 IH (fun y Hy => H y (or_intror Hy))) as [c Hc]. rewrite Hc. simpl. eauto.
Qed.

(** * Rows *)
Lemma setitem_length r i v : List.length (setitem r i v) = List.length r.
Proof. revert i; induction r as [|x r IH]; intros [|i]; simpl; auto. Qed.

Lemma nth_setitem r i v j : (j < List.length r)%nat ->
  nth j (setitem r i v) 0 = if Nat.eqb j i then v else nth j r 0.
Proof.
  revert i j; induction r as [|x r IH]; intros [|i] [|j] H; simpl in *; auto; try lia.
  apply IH. lia.
Qed.

Lemma nth_zeros n j : nth j (zeros n) 0 = 0.
Proof. unfold zeros. apply nth_repeat. Qed.

Lemma zeros_length n : List.length (zeros n) = n.
Proof. apply repeat_length. Qed.

Lemma rdot_setitem r i v w n : List.length r = n -> List.length w = n -> (i < n)%nat ->
  rdot (setitem r i v) w = rdot r w + (v - nth i r 0) * nth i w 0.
Proof.
  intros Hr Hw Hi. rewrite !(rdot_sumn _ w n) by (rewrite ?setitem_length; auto).
  rewrite <- (sumn_delta n i (fun j => (v - nth j r 0) * nth j w 0)) by auto.
  rewrite <- sumn_plus. apply sumn_ext. intros j Hj. rewrite nth_setitem by lia.
  unfold delta. destruct (Nat.eqb_spec j i); subst; ring.
Qed.

Lemma rdot_zeros n w : List.length w = n -> rdot (zeros n) w = 0.
Proof.
  intros H. rewrite (rdot_sumn _ w n) by auto using zeros_length. apply sumn_0.
  intros i _. rewrite nth_zeros. ring.
Qed.

Lemma rdot_unit n i v w : List.length w = n -> (i < n)%nat -> rdot (setitem (zeros n) i v) w = v * nth i w 0.
Proof.
  intros Hw Hi. rewrite (rdot_setitem _ _ _ _ n) by auto using zeros_length.
  rewrite rdot_zeros, nth_zeros by auto. ring.
Qed.

Lemma frow_length r : List.length (frow r) = List.length r.
Proof. apply map_length. Qed.

Lemma row_rel_frow R_ r rhs w : row_rel R_ (frow r) rhs w <-> R_ (rdot r w) rhs.
Proof.
  split.
  - intros (r' & E & H). unfold frow in E.
    assert (r = r') as ->; auto. clear H. revert r' E. induction r as [|x r IH]; intros [|y r'] E; try discriminate; auto.
    injection E as -> E. f_equal. apply IH. exact E.
  - intros H. exists r. auto.
Qed.

(** * Blocks *)
Lemma check_number_ok x r : check_number x = Ok r <-> x = Num (Fin r).
Proof. destruct x as [[]|]; simpl; split; intros H; try discriminate; congruence. Qed.

Lemma check_opt_ok x y : check_opt x = Ok y ->
  match y with None => x = None | Some r => x = Some (Num (Fin r)) end.
Proof.
  destruct x as [x|]; simpl; intros H.
  - apply bind_ok in H as (r & Hr & H). injection H as <-. apply check_number_ok in Hr. congruence.
  - injection H as <-. reflexivity.
Qed.

Lemma check_opt_succeeds x : (forall v, x = Some v -> finite_num v) <-> exists y, check_opt x = Ok y.
Proof.
  destruct x as [x|]; simpl.
  - split.
    + intros H. destruct (H x eq_refl) as [r ->]. simpl. eauto.
    + intros [y H] v E. injection E as <-. apply bind_ok in H as (r & Hr & _). apply check_number_ok in Hr. exists r; auto.
  - split; [eauto|discriminate].
Qed.

Lemma check_pair_ok lo hi l u : check_pair lo hi = Ok (l, u) -> check_opt lo = Ok l /\ check_opt hi = Ok u.
Proof.
  unfold check_pair. intros H. apply bind_ok in H as (l' & Hl & H). apply bind_ok in H as (u' & Hu & H).
  destruct l', u'; try (injection H as <- <-; auto; fail).
  destruct (Rltb _ _); [discriminate|]. injection H as <- <-. auto.
Qed.

Lemma check_pair_succeeds lo hi : (exists p, check_pair lo hi = Ok p) <-> good_pair [lo; hi].
Proof.
  split.
  - intros [[l u] H]. pose proof (check_pair_ok _ _ _ _ H) as [Hl Hu].
    exists lo, hi. split; [reflexivity|]. split; [apply check_opt_succeeds; eauto|].
    split; [apply check_opt_succeeds; eauto|].
    intros a b -> ->. simpl in Hl, Hu. injection Hl as <-. injection Hu as <-.
    unfold check_pair in H. simpl in H. destruct (Rltb_spec b a); [discriminate|lra].
  - intros (lo' & hi' & E & H1 & H2 & H3). injection E as <- <-.
    apply check_opt_succeeds in H1 as [l Hl]. apply check_opt_succeeds in H2 as [u Hu].
    unfold check_pair. rewrite Hl, Hu. cbn [bind].
    apply check_opt_ok in Hl, Hu. destruct l as [l|], u as [u|]; eauto.
    destruct (Rltb_spec u l); eauto. specialize (H3 l u Hl Hu). lra.
Qed.

Lemma fin_le_opt lo l x : check_opt lo = Ok l -> (fin_le lo x <-> match l with Some a => a <= x | None => True end).
Proof. intros H. apply check_opt_ok in H. destruct l; subst; simpl; tauto. Qed.
Lemma fin_ge_opt lo l x : check_opt lo = Ok l -> (fin_ge lo x <-> match l with Some a => x <= a | None => True end).
Proof. intros H. apply check_opt_ok in H. destruct l; subst; simpl; tauto. Qed.

Lemma asset_bound_ok n i lo hi lu : (i < n)%nat -> check_pair lo hi = Ok lu ->
  block_ok n Rle (asset_bound n i lu) (fun w => bound_ok [lo; hi] (wt w i)).
Proof.
  intros Hi H. destruct lu as [l u]. apply check_pair_ok in H as [Hl Hu].
  apply block_ok_ext with (P := fun w => match l with Some a => a <= wt w i | None => True end
    /\ match u with Some a => wt w i <= a | None => True end); [|apply block_ok_app].
  - intros w Hw. simpl. rewrite (fin_le_opt _ _ _ Hl), (fin_ge_opt _ _ _ Hu). reflexivity.
  - simpl. destruct l as [l|]; [|apply block_ok_nil].
    eapply block_ok_ext; [|apply block_ok_one; rewrite frow_length, setitem_length; apply zeros_length].
    intros w Hw. rewrite row_rel_frow, (rdot_unit n) by auto. unfold wt. split; intros; lra.
  - simpl. destruct u as [u|]; [|apply block_ok_nil].
    eapply block_ok_ext; [|apply block_ok_one; rewrite frow_length, setitem_length; apply zeros_length].
    intros w Hw. rewrite row_rel_frow, (rdot_unit n) by auto. unfold wt. split; intros; lra.
Qed.

Lemma eye_block n k c : block_ok n Rle (map frow (eye k n), repeat c n)
  (fun w => forall i, (i < n)%nat -> k * wt w i <= c).
Proof.
  unfold eye. split; [|split]; simpl.
  - rewrite !map_length, seq_length, repeat_length. reflexivity.
  - intros row H. rewrite map_map in H. apply in_map_iff in H as (i & <- & _).
    rewrite frow_length, setitem_length. apply zeros_length.
  - intros w Hw. rewrite map_map.
    assert (G : forall m s, (s + m <= n)%nat ->
      (Forall2 (fun row rhs => row_rel Rle row rhs w) (map (fun x => frow (setitem (zeros n) x k)) (seq s m)) (repeat c m)
       <-> forall i, (s <= i < s + m)%nat -> k * wt w i <= c)).
    { induction m as [|m IH]; intros s Hs; simpl.
      - split; [intros _ i Hi; lia|constructor].
      - split.
        + intros H i Hi. apply forall2_cons_inv in H as [H3 H5]. destruct (Nat.eq_dec i s) as [->|].
          * cbv beta in H3. rewrite row_rel_frow in H3. rewrite (rdot_unit n) in H3 by (auto; lia). exact H3.
          * apply (proj1 (IH (S s) ltac:(lia)) H5). lia.
        + intros H. constructor.
          * cbv beta. rewrite row_rel_frow. rewrite (rdot_unit n) by (auto; lia). apply H. lia.
          * apply IH; [lia|]. intros i Hi. apply H. lia. }
    rewrite (G n 0%nat) by lia. split; intros H i Hi; apply H; lia.
Qed.

Lemma tuple_bounds_ok n t b : tuple_bounds n t = Ok b ->
  block_ok n Rle b (fun w => forall i, (i < n)%nat -> bound_ok t (wt w i)).
Proof.
  destruct t as [|lo [|hi [|]]]; simpl; try discriminate. intros H.
  apply bind_ok in H as ([l u] & Hp & H). injection H as <-. apply check_pair_ok in Hp as [Hl Hu].
  eapply block_ok_ext; [|apply block_ok_app].
  2:{ instantiate (1 := fun w => match l with Some a => forall i, (i < n)%nat -> a <= wt w i | None => True end).
      simpl. destruct l; [|apply block_ok_nil]. eapply block_ok_ext; [|apply eye_block].
      intros w _. split; intros H i Hi; specialize (H i Hi); lra. }
  2:{ instantiate (1 := fun w => match u with Some a => forall i, (i < n)%nat -> wt w i <= a | None => True end).
      simpl. destruct u; [|apply block_ok_nil]. eapply block_ok_ext; [|apply eye_block].
      intros w _. split; intros H i Hi; specialize (H i Hi); lra. }
  intros w _. simpl. split.
  - intros [A B] i Hi. rewrite (fin_le_opt _ _ _ Hl), (fin_ge_opt _ _ _ Hu). destruct l, u; auto.
  - intros H. split; [destruct l|destruct u]; auto; intros i Hi; specialize (H i Hi);
    rewrite (fin_le_opt _ _ _ Hl), (fin_ge_opt _ _ _ Hu) in H; tauto.
Qed.

Lemma tuple_bounds_succeeds n t : (exists b, tuple_bounds n t = Ok b) <-> good_pair t.
Proof.
  assert (HN : (List.length t <> 2%nat) -> ~ good_pair t).
  { intros H (lo & hi & -> & _). simpl in H. lia. }
  destruct t as [|lo [|hi [|]]]; simpl; try (split; [intros [? ?]; discriminate|intros H; exfalso; apply HN in H; simpl; auto]).
  rewrite <- check_pair_succeeds. split.
  - intros [b H]. apply bind_ok in H as (p & Hp & _). eauto.
  - intros [p Hp]. rewrite Hp. simpl. eauto.
Qed.

Lemma in_range_iff n i : in_range n i = true <-> good_index n i.
Proof. unfold in_range, good_index. rewrite andb_true_iff, Z.leb_le, Z.ltb_lt. tauto. Qed.

Lemma dict_bound_ok n e b : dict_bound n e = Ok b ->
  block_ok n Rle b (fun w => bound_ok (snd e) (wt w (Z.to_nat (fst e)))).
Proof.
  destruct e as [i lu]. unfold dict_bound; simpl. destruct (in_range n i) eqn:E; simpl; [|discriminate].
  apply in_range_iff in E. unfold good_index in E.
  destruct lu as [|lo [|hi [|]]]; simpl; try discriminate. intros H.
  apply bind_ok in H as (p & Hp & H). injection H as <-. apply asset_bound_ok; auto. lia.
Qed.

Lemma not_pair_not_good t : (List.length t <> 2%nat) -> ~ good_pair t.
Proof. intros H (lo & hi & -> & _). simpl in H. lia. Qed.

Lemma dict_bound_succeeds n e : (exists b, dict_bound n e = Ok b) <-> good_index n (fst e) /\ good_pair (snd e).
Proof.
  destruct e as [i lu]. unfold dict_bound; simpl. rewrite <- in_range_iff. destruct (in_range n i) eqn:E; simpl.
  - destruct lu as [|lo [|hi [|]]]; simpl;
      try (split; [intros [? ?]; discriminate|intros [_ H]; exfalso; apply not_pair_not_good in H; simpl; auto]).
    rewrite <- check_pair_succeeds. split.
    + intros [b H]. apply bind_ok in H as (p & Hp & _). eauto.
    + intros [_ [p Hp]]. rewrite Hp. simpl. eauto.
  - split; [intros [? ?]; discriminate|intros [? _]; discriminate].
Qed.

Lemma seq_bound_ok n e b : (fst e < n)%nat -> seq_bound n e = Ok b ->
  block_ok n Rle b (fun w => bound_ok (snd e) (wt w (fst e))).
Proof.
  destruct e as [i lu]. unfold seq_bound; simpl. intros Hi.
  destruct lu as [|lo [|hi [|]]]; simpl; try discriminate. intros H.
  apply bind_ok in H as (p & Hp & H). injection H as <-. apply asset_bound_ok; auto.
Qed.

Lemma seq_bound_succeeds n e : (exists b, seq_bound n e = Ok b) <-> good_pair (snd e).
Proof.
  destruct e as [i lu]. unfold seq_bound; simpl.
  destruct lu as [|lo [|hi [|]]]; simpl;
    try (split; [intros [? ?]; discriminate|intros H; exfalso; apply not_pair_not_good in H; simpl; auto]).
  rewrite <- check_pair_succeeds. split.
  - intros [b H]. apply bind_ok in H as (p & Hp & _). eauto.
  - intros [p Hp]. rewrite Hp. simpl. eauto.
Qed.

Lemma in_combine_seq {A} (s : list A) k i x d : In (i, x) (combine (seq k (List.length s)) s) <->
  (k <= i < k + List.length s)%nat /\ nth (i - k) s d = x.
Proof.
  revert k. induction s as [|y s IH]; intros k; simpl; [split; [easy|lia]|].
  rewrite IH. split.
  - intros [E|[H1 H2]].
    + injection E as <- <-. rewrite Nat.sub_diag. split; [lia|reflexivity].
    + split; [lia|]. destruct (i - k)%nat as [|m] eqn:Em; [lia|]. replace (i - S k)%nat with m in H2 by lia. exact H2.
  - intros [H1 H2]. destruct (i - k)%nat as [|m] eqn:Em.
    + left. f_equal; [lia|exact H2].
    + right. split; [lia|]. replace (i - S k)%nat with m by lia. exact H2.
Qed.

Lemma bounds_block_ok n bd b : bounds_block n bd = Ok b -> block_ok n Rle b (bounds_hold n bd).
Proof.
  destruct bd as [[t|d|s]|]; simpl.
  - apply tuple_bounds_ok.
  - intros H. eapply block_ok_ext; [|eapply blocks_ok; [|exact H]].
    2:{ intros x b0 _ Hx. apply (dict_bound_ok n x). exact Hx. }
    intros w _. split.
    + intros HH i lu Hin. apply (HH (i, lu) Hin).
    + intros HH [i lu] Hin. apply HH. exact Hin.
  - destruct (Nat.eqb_spec (List.length s) n) as [E|]; simpl; [|discriminate]. intros H.
    eapply block_ok_ext; [|eapply blocks_ok; [|exact H]].
    2:{ intros x b0 Hx HH. apply (seq_bound_ok n x); auto. destruct x as [i x]. apply in_combine_l in Hx. apply in_seq in Hx. simpl. lia. }
    intros w _. split.
    + intros HH i Hi. rewrite <- E in HH. apply (HH (i, nth i s [])). apply (in_combine_seq s 0 i _ []).
      split; [lia|]. f_equal. lia.
    + intros HH [i x] Hx. rewrite <- E in Hx. apply (in_combine_seq s 0 i x []) in Hx as [H1 H2].
      simpl. rewrite <- H2. rewrite Nat.sub_0_r. apply HH. lia.
  - intros H. injection H as <-. apply block_ok_nil.
Qed.

Lemma bounds_block_succeeds n bd : (exists b, bounds_block n bd = Ok b) <-> good_bounds n bd.
Proof.
  destruct bd as [[t|d|s]|]; simpl.
  - apply tuple_bounds_succeeds.
  - rewrite blocks_succeeds. split.
    + intros H i lu Hin. apply (dict_bound_succeeds n (i, lu)). auto.
    + intros H [i lu] Hin. apply dict_bound_succeeds. apply H. exact Hin.
  - destruct (Nat.eqb_spec (List.length s) n) as [E|NE]; simpl.
    + rewrite blocks_succeeds. split.
      * intros H. split; [exact E|]. intros lu Hin. apply (In_nth _ _ []) in Hin as (i & Hi & <-).
        apply (seq_bound_succeeds n (i, nth i s [])). apply H. rewrite <- E. apply (in_combine_seq s 0 i _ []).
        split; [lia|]. f_equal. lia.
      * intros [_ H] [i x] Hx. apply seq_bound_succeeds. apply H. simpl. apply in_combine_r in Hx. exact Hx.
    + split; [intros [? ?]; discriminate|intros [? _]; congruence].
  - split; eauto.
Qed.

Lemma rel_block_ok n e b : rel_block n e = Ok b -> block_ok n Rle b (rel_hold e).
Proof.
  destruct e as [i j k|]; simpl; [|discriminate].
  destruct (in_range n i) eqn:Ei; simpl; [|discriminate].
  destruct (in_range n j) eqn:Ej; simpl; [|discriminate].
  apply in_range_iff in Ei, Ej. unfold good_index in *.
  destruct (Z.eqb_spec i j) as [|Hne]; [discriminate|]. intros H.
  apply bind_ok in H as (r & Hr & H). injection H as <-. apply check_number_ok in Hr. subst k.
  eapply block_ok_ext; [|apply block_ok_one; rewrite frow_length, !setitem_length; apply zeros_length].
  intros w Hw. rewrite row_rel_frow. assert (L : List.length (setitem (zeros n) (Z.to_nat i) 1) = n) by (rewrite setitem_length; apply zeros_length).
  rewrite (rdot_setitem _ (Z.to_nat j) (-1) w n L Hw) by lia.
  rewrite (rdot_unit n) by (auto; lia). rewrite nth_setitem by (rewrite zeros_length; lia).
  destruct (Nat.eqb_spec (Z.to_nat j) (Z.to_nat i)); [lia|]. rewrite nth_zeros. simpl. unfold wt. split; intros; lra.
Qed.

Lemma rel_block_succeeds n e : (exists b, rel_block n e = Ok b) <-> good_rel n e.
Proof.
  destruct e as [i j k|]; simpl; [|split; [intros [? ?]; discriminate|easy]].
  rewrite <- !in_range_iff.
  destruct (in_range n i) eqn:Ei; simpl; [|split; [intros [? ?]; discriminate|intros (? & _); discriminate]].
  destruct (in_range n j) eqn:Ej; simpl; [|split; [intros [? ?]; discriminate|intros (_ & ? & _); discriminate]].
  destruct (Z.eqb_spec i j) as [|Hne]; [split; [intros [? ?]; discriminate|tauto]|]. split.
  - intros [b H]. apply bind_ok in H as (r & Hr & H). apply check_number_ok in Hr. repeat split; auto. exists r; auto.
  - intros (_ & _ & _ & r & ->). simpl. eauto.
Qed.

Lemma set_many_length r idx v : List.length (set_many r idx v) = List.length r.
Proof. unfold set_many. revert r. induction idx as [|i idx IH]; intros r; simpl; auto. rewrite IH. apply setitem_length. Qed.

Lemma nth_set_many r idx v j n : List.length r = n -> (forall i, In i idx -> good_index n i) -> (j < n)%nat ->
  nth j (set_many r idx v) 0 = if existsb (Z.eqb (Z.of_nat j)) idx then v else nth j r 0.
Proof.
  unfold set_many. revert r. induction idx as [|i idx IH]; intros r Hr Hg Hj; simpl; auto.
  rewrite IH; [|rewrite setitem_length; auto|intros; apply Hg; now right|auto].
  rewrite nth_setitem by lia. assert (good_index n i) by (apply Hg; now left). unfold good_index in H.
  destruct (existsb _ idx); [rewrite orb_true_r; auto|]. rewrite orb_false_r.
  destruct (Nat.eqb_spec j (Z.to_nat i)), (Z.eqb_spec (Z.of_nat j) i); auto; lia.
Qed.

Lemma rdot_group n idx v w : List.length w = n -> (forall i, In i idx -> good_index n i) ->
  rdot (set_many (zeros n) idx v) w = v * group_weight n idx w.
Proof.
  intros Hw Hg. rewrite (rdot_sumn _ w n) by (rewrite ?set_many_length, ?zeros_length; auto).
  unfold group_weight. rewrite <- sumn_scale. apply sumn_ext. intros i Hi.
  rewrite (nth_set_many _ _ _ _ n) by auto using zeros_length. rewrite nth_zeros. unfold wt.
  destruct existsb; ring.
Qed.

Lemma forallb_range n idx : forallb (in_range n) idx = true <-> forall i, In i idx -> good_index n i.
Proof. rewrite forallb_forall. split; intros H i Hi; apply in_range_iff, H, Hi. Qed.

Lemma group_block_ok n e b : group_block n e = Ok b -> block_ok n Rle b (group_hold n e).
Proof.
  destruct e as [name [[idx lo] hi]]. unfold group_block.
  destruct (forallb (in_range n) idx) eqn:Ei; simpl; [|discriminate].
  pose proof (proj1 (forallb_range n idx) Ei) as Hg. intros H.
  apply bind_ok in H as (l & Hl & H). apply bind_ok in H as (h & Hh & H).
  apply check_number_ok in Hl, Hh. subst lo hi.
  destruct (Rltb_spec h l); [discriminate|]. injection H as <-.
  eapply block_ok_ext;
    [|apply (block_ok_app n Rle ([_], [_]) ([_], [_])); apply block_ok_one; rewrite frow_length, set_many_length; apply zeros_length].
  intros w Hw. cbv beta. rewrite !row_rel_frow. rewrite !(rdot_group n) by auto. simpl. split; intros; lra.
Qed.

Lemma group_block_succeeds n e : (exists b, group_block n e = Ok b) <-> good_group n e.
Proof.
  destruct e as [name [[idx lo] hi]]. unfold group_block, good_group. rewrite <- forallb_range.
  destruct (forallb (in_range n) idx) eqn:Ei; simpl; [|split; [intros [? ?]; discriminate|intros (? & _); discriminate]].
  split.
  - intros [b H]. apply bind_ok in H as (l & Hl & H). apply bind_ok in H as (h & Hh & H).
    apply check_number_ok in Hl, Hh. destruct (Rltb_spec h l); [discriminate|]. split; [auto|]. exists l, h. repeat split; auto. lra.
  - intros (_ & l & h & -> & -> & Hle). simpl. destruct (Rltb_spec h l); [lra|]. eauto.
Qed.

Lemma extra_block_ok n R_ e b : extra_block n e = Ok b -> block_ok n R_ b (extra_hold R_ e).
Proof.
  destruct e as [row rhs]. unfold extra_block, extra_hold; simpl.
  destruct (Nat.eqb_spec (List.length row) n); simpl; [|discriminate]. intros H.
  apply bind_ok in H as (r & Hr & H). injection H as <-. apply check_number_ok in Hr. subst rhs.
  apply block_ok_one; auto.
Qed.

Lemma extra_block_succeeds n e : (exists b, extra_block n e = Ok b) <-> good_extra n e.
Proof.
  destruct e as [row rhs]. unfold extra_block, good_extra; simpl.
  destruct (Nat.eqb_spec (List.length row) n); simpl; [|split; [intros [? ?]; discriminate|tauto]].
  split.
  - intros [b H]. apply bind_ok in H as (r & Hr & H). apply check_number_ok in Hr. split; auto. exists r; auto.
  - intros (_ & r & ->). simpl. eauto.
Qed.

Lemma total_ok n tw t : check_opt tw = Ok t ->
  block_ok n eq (match t with Some t => ([frow (repeat 1 n)], [t]) | None => ([], []) end) (total_hold tw).
Proof.
  intros H. apply check_opt_ok in H. destruct t as [t|]; subst; simpl; [|apply block_ok_nil].
  eapply block_ok_ext; [|apply block_ok_one; rewrite frow_length; apply repeat_length].
  intros w Hw. rewrite row_rel_frow. rewrite (rdot_sumn _ w n) by (rewrite ?repeat_length; auto).
  rewrite (sumn_ext _ _ (fun i => nth i w 0)).
  - simpl. rewrite (rsum_sumn w), Hw. tauto.
  - intros i Hi. rewrite (nth_indep _ 0 1) by (rewrite repeat_length; auto). rewrite nth_repeat. ring.
Qed.

Lemma none_block n R_ b P : block_ok n R_ b P ->
  shaped n (none_if_empty (fst b)) (none_if_empty (snd b)) /\
  forall w, List.length w = n -> (block_holds R_ (none_if_empty (fst b)) (none_if_empty (snd b)) w <-> P w).
Proof.
  intros (H1 & H2 & H3). destruct b as [[|r g] [|v h]]; simpl in *; try discriminate.
  - split; auto. intros w Hw. rewrite <- H3 by auto. split; auto.
  - split; [|intros w Hw; apply H3; auto]. split; [discriminate|]. auto.
Qed.

Lemma to_matrices_l c n m ws : to_matrices c n = Ok (m, ws) ->
  shaped (Z.to_nat n) (m_G m) (m_h m) /\ shaped (Z.to_nat n) (m_A m) (m_b m) /\
  forall w, List.length w = Z.to_nat n -> (feasible m w <-> satisfies c (Z.to_nat n) w).
Proof.
  unfold to_matrices. destruct (Z.leb_spec n 0); [discriminate|]. intros H0. set (N := Z.to_nat n) in *.
  apply bind_ok in H0 as (tw & Htw & H0). apply bind_ok in H0 as (bd & Hbd & H0).
  apply bind_ok in H0 as (rel & Hrel & H0). apply bind_ok in H0 as (grp & Hgrp & H0).
  apply bind_ok in H0 as (exG & HexG & H0). apply bind_ok in H0 as (exA & HexA & H0).
  injection H0 as <- <-.
  assert (Blo : block_ok N Rle (if c_long_only c then (map frow (eye (-1) N), repeat 0 N) else ([], []))
     (fun w => c_long_only c = true -> forall i, (i < N)%nat -> 0 <= wt w i)).
  { destruct (c_long_only c).
    - eapply block_ok_ext; [|apply eye_block]. intros w _. split.
      + intros HH _ i Hi. specialize (HH i Hi). lra.
      + intros HH i Hi. specialize (HH eq_refl i Hi). lra.
    - eapply block_ok_ext; [|apply block_ok_nil]. intros; split; auto; discriminate. }
  pose proof (bounds_block_ok _ _ _ Hbd) as Bbd.
  pose proof (blocks_ok N Rle _ _ _ _ (fun x b _ Hx => rel_block_ok N x b Hx) Hrel) as Brel.
  pose proof (blocks_ok N Rle _ _ _ _ (fun x b _ Hx => group_block_ok N x b Hx) Hgrp) as Bgrp.
  pose proof (blocks_ok N Rle _ _ _ _ (fun x b _ Hx => extra_block_ok N Rle x b Hx) HexG) as BexG.
  pose proof (blocks_ok N eq _ _ _ _ (fun x b _ Hx => extra_block_ok N eq x b Hx) HexA) as BexA.
  pose proof (total_ok N _ _ Htw) as Btot.
  pose proof (block_ok_app _ _ _ _ _ _ Blo (block_ok_app _ _ _ _ _ _ Bbd (block_ok_app _ _ _ _ _ _ Brel (block_ok_app _ _ _ _ _ _ Bgrp BexG)))) as BG.
  pose proof (block_ok_app _ _ _ _ _ _ Btot BexA) as BA.
  destruct (none_block _ _ _ _ BG) as [SG FG]. destruct (none_block _ _ _ _ BA) as [SA FA].
  split; [exact SG|]. split; [exact SA|]. intros w Hw. unfold feasible, satisfies. cbn [m_G m_h m_A m_b].
  rewrite (FG w Hw), (FA w Hw). tauto.
Qed.

Lemma to_matrices_succeeds c n : (exists r, to_matrices c n = Ok r) <-> well_formed c n.
Proof.
  unfold to_matrices, well_formed. destruct (Z.leb_spec n 0); [split; [intros [? ?]; discriminate|lia]|].
  set (N := Z.to_nat n).
  rewrite check_opt_succeeds, <- bounds_block_succeeds.
  assert (E : forall A (f : A -> res block) (g : A -> Prop) l, (forall x, (exists b, f x = Ok b) <-> g x) ->
    ((forall x, In x l -> g x) <-> exists b, blocks f l = Ok b)).
  { intros A f g l Hf. rewrite blocks_succeeds. split; intros HH x Hx; apply Hf, HH, Hx. }
  rewrite (E _ _ _ (opt_list (c_relative c)) (rel_block_succeeds N)).
  rewrite (E _ _ _ (opt_list (c_groups c)) (group_block_succeeds N)).
  rewrite (E _ _ _ (opt_list (c_extra_G c)) (extra_block_succeeds N)).
  rewrite (E _ _ _ (opt_list (c_extra_A c)) (extra_block_succeeds N)).
  split.
  - intros [r H0].
    apply bind_ok in H0 as (tw & Htw & H0). apply bind_ok in H0 as (bd & Hbd & H0).
    apply bind_ok in H0 as (rel & Hrel & H0). apply bind_ok in H0 as (grp & Hgrp & H0).
    apply bind_ok in H0 as (exG & HexG & H0). apply bind_ok in H0 as (exA & HexA & H0). repeat split; eauto.
  - intros (_ & [tw H1] & [bd H2] & [rel H3] & [grp H4] & [exG H5] & [exA H6]).
    rewrite H1. cbn [bind]. rewrite H2. cbn [bind]. rewrite H3. cbn [bind]. rewrite H4. cbn [bind].
    rewrite H5. cbn [bind]. rewrite H6. cbn [bind]. eauto.
Qed.

(** * Errors raised *)
Definition cons_error (e : pyerr) := e = ValueError \/ e = TypeError \/ e = IndexError.

Lemma bind_err {A B} (x : res A) (f : A -> res B) e : bind x f = Err e -> x = Err e \/ exists a, x = Ok a /\ f a = Err e.
Proof. destruct x; simpl; intros H; [right; eauto|left; congruence]. Qed.

Ltac cerr := repeat match goal with
  | H : bind _ _ = Err _ |- _ => apply bind_err in H as [H|(? & ? & H)]
  | H : (if ?b then _ else _) = Err _ |- _ => destruct b
  | H : Ok _ = Err _ |- _ => discriminate
  | H : Err _ = Err _ |- _ => injection H as <-
  end.

Lemma check_number_err x e : check_number x = Err e -> cons_error e.
Proof. unfold cons_error. destruct x as [[]|]; simpl; intros H; inversion H; auto. Qed.
Lemma check_opt_err x e : check_opt x = Err e -> cons_error e.
Proof. destruct x; simpl; intros H; cerr. eauto using check_number_err. Qed.
Lemma check_pair_err a b e : check_pair a b = Err e -> cons_error e.
Proof.
  unfold check_pair. intros H. apply bind_err in H as [H|(? & _ & H)]; [eauto using check_opt_err|].
  apply bind_err in H as [H|(? & _ & H)]; [eauto using check_opt_err|].
  destruct x, x0; cerr; unfold cons_error; auto.
Qed.
Lemma blocks_err {A} (f : A -> res block) l e : (forall x e, f x = Err e -> cons_error e) -> blocks f l = Err e -> cons_error e.
Proof. intros Hf. induction l as [|x l IH]; simpl; intros H; cerr; eauto. Qed.
Lemma dict_bound_err n x e : dict_bound n x = Err e -> cons_error e.
Proof.
  unfold dict_bound. destruct (negb _); [intros H; inversion H; unfold cons_error; auto|].
  destruct (snd x) as [|a [|b [|]]]; intros H; try (inversion H; unfold cons_error; auto; fail). cerr. eauto using check_pair_err.
Qed.
Lemma seq_bound_err n x e : seq_bound n x = Err e -> cons_error e.
Proof.
  unfold seq_bound.
  destruct (snd x) as [|a [|b [|]]]; intros H; try (inversion H; unfold cons_error; auto; fail). cerr. eauto using check_pair_err.
Qed.
Lemma bounds_block_err n b e : bounds_block n b = Err e -> cons_error e.
Proof.
  destruct b as [[t|d|s]|]; simpl; intros H; try discriminate.
  - destruct t as [|x [|y [|]]]; simpl in H; try (inversion H; unfold cons_error; auto; fail). cerr. eauto using check_pair_err.
  - eapply blocks_err; [|exact H]. apply dict_bound_err.
  - destruct (negb _); [inversion H; unfold cons_error; auto|]. eapply blocks_err; [|exact H]. apply seq_bound_err.
Qed.
Lemma rel_block_err n x e : rel_block n x = Err e -> cons_error e.
Proof. destruct x; simpl; intros H; cerr; eauto using check_number_err; unfold cons_error; auto. Qed.
Lemma group_block_err n x e : group_block n x = Err e -> cons_error e.
Proof. destruct x as [? [[? ?] ?]]; simpl; intros H; cerr; eauto using check_number_err; unfold cons_error; auto. Qed.
Lemma extra_block_err n x e : extra_block n x = Err e -> cons_error e.
Proof. unfold extra_block; intros H; cerr; eauto using check_number_err; unfold cons_error; auto. Qed.

Lemma to_matrices_err c n e : to_matrices c n = Err e -> cons_error e.
Proof.
  unfold to_matrices. destruct (Z.leb n 0); [intros H; inversion H; unfold cons_error; auto|]. intros H.
  apply bind_err in H as [H|(? & _ & H)]; [eauto using check_opt_err|].
  apply bind_err in H as [H|(? & _ & H)]; [eauto using bounds_block_err|].
  apply bind_err in H as [H|(? & _ & H)]; [eapply blocks_err; [|exact H]; apply rel_block_err|].
  apply bind_err in H as [H|(? & _ & H)]; [eapply blocks_err; [|exact H]; apply group_block_err|].
  apply bind_err in H as [H|(? & _ & H)]; [eapply blocks_err; [|exact H]; apply extra_block_err|].
  apply bind_err in H as [H|(? & _ & H)]; [eapply blocks_err; [|exact H]; apply extra_block_err|]. discriminate.
Qed.

(** * Dictionaries *)
Lemma from_dict_unknown d : from_dict d = from_dict (filter (fun e => match e with Known _ => true | Unknown _ => false end) d).
Proof.
  unfold from_dict. generalize default_constraints. induction d as [|[f|k] d IH]; intros c; simpl; auto.
Qed.

(** * Default constraints and the unboundedness warning *)
Lemma default_simplex n m ws w : to_matrices default_constraints n = Ok (m, ws) -> List.length w = Z.to_nat n ->
  (feasible m w <-> (forall x, In x w -> 0 <= x) /\ rsum w = 1).
Proof.
  intros H Hw. destruct (to_matrices_l _ _ _ _ H) as (_ & _ & HF). rewrite (HF w Hw).
  unfold satisfies, default_constraints; simpl. split.
  - intros (H1 & _ & _ & _ & _ & H2 & _). split; auto. intros x Hx. apply (In_nth _ _ 0) in Hx as (i & Hi & <-).
    apply H1; auto. lia.
  - intros [H1 H2]. repeat split; auto; try easy. intros _ i Hi. apply H1, nth_In. lia.
Qed.

Lemma warn_unbounded_iff c : In WUnbounded (warnings_of c) <->
  c_long_only c = false /\ c_bounds c = None /\ opt_list (c_relative c) = [] /\ opt_list (c_extra_G c) = [].
Proof.
  unfold warnings_of. rewrite in_app_iff.
  assert (~ In WUnbounded (match c_bounds c with
      | Some (BTuple (Some (Num (Fin l)) :: _)) => if c_long_only c && Reqb l 0 then [WRedundantLower] else []
      | _ => [] end)).
  { destruct (c_bounds c) as [[[|[[[]|]|] ?]|?|?]|]; simpl; auto.
    destruct (c_long_only c && Reqb r 0); simpl; intuition discriminate. }
  destruct (c_long_only c), (c_bounds c), (opt_list (c_relative c)), (opt_list (c_extra_G c)); simpl; intuition discriminate.
Qed.

Lemma rsum_repeat0 n : rsum (repeat 0 n) = 0.
Proof. induction n; simpl; [reflexivity|]. rewrite IHn. lra. Qed.

Lemma unbounded_l c n m ws K : to_matrices c n = Ok (m, ws) -> In WUnbounded ws -> (2 <= n)%Z ->
  opt_list (c_groups c) = [] -> opt_list (c_extra_A c) = [] ->
  exists w, List.length w = Z.to_nat n /\ feasible m w /\ K < wt w 0.
Proof.
  intros H Hw Hn Hg HA. destruct (to_matrices_l _ _ _ _ H) as (_ & _ & HF).
  assert (ws = warnings_of c).
  { unfold to_matrices in H. destruct (n <=? 0)%Z; [discriminate|].
    repeat (apply bind_ok in H as (? & _ & H)). injection H as _ <-. reflexivity. }
  subst ws. apply warn_unbounded_iff in Hw as (H1 & H2 & H3 & H4).
  set (t := match c_total c with Some (Num (Fin t)) => t | _ => 0 end).
  exists ((K + 1) :: (t - (K + 1)) :: repeat 0 (Z.to_nat n - 2)).
  assert (L : List.length ((K + 1) :: (t - (K + 1)) :: repeat 0 (Z.to_nat n - 2)) = Z.to_nat n)
    by (simpl; rewrite repeat_length; lia).
  split; [exact L|]. split; [|unfold wt; simpl; lra].
  apply HF; auto. unfold satisfies. rewrite H1, H2, H3, H4, Hg, HA. simpl. repeat split; try easy.
  unfold total_hold. subst t. destruct (c_total c) as [[[]|]|]; auto.
  rewrite !rsum_cons, rsum_repeat0. lra.
Qed.
