From Coq Require Import String Classical_Prop.
From Verif Require Import RBase QpBase SortLib RiskModel RiskSpec RiskProofs ConsModel ConsSpec ConsProofs ConsProperties
  MomModel DistModel DistSpec DistProofs DistProofs2 DistProofs3 ConvModel OptModel OptSpec OptProofs OptProofs2 OptProofs3 OptProofs4 FrModel FrSpec FrProofs2 WrModel WrSpec WrProofs AxSpec AwSpec.
Open Scope R_scope.
Open Scope list_scope.

(** * The matrices, up to [d], are the constraints, up to [d] *)
Section Near.
Context (d : R).
Let LE := fun x y : R => x <= y + d.
Let EQ := fun x y : R => Rabs (x - y) <= d.

Lemma near_asset_bound n i lu lo hi : (i < n)%nat -> check_pair lo hi = Ok lu ->
  block_ok n LE (asset_bound n i lu) (fun w => near_bound d [lo; hi] (wt w i)).
Proof.
  intros Hi H. destruct lu as [l u]. apply check_pair_ok in H as [Hl Hu].
  apply block_ok_ext with (P := fun w => match l with Some a => a <= wt w i + d | None => True end
    /\ match u with Some a => wt w i - d <= a | None => True end); [|apply block_ok_app].
  - intros w Hw. simpl. rewrite (fin_le_opt _ _ _ Hl), (fin_ge_opt _ _ _ Hu). reflexivity.
  - simpl. destruct l as [l|]; [|apply block_ok_nil].
    eapply block_ok_ext; [|apply block_ok_one; rewrite frow_length, setitem_length; apply zeros_length].
    intros w Hw. rewrite row_rel_frow, (rdot_unit n) by auto. unfold wt, LE. split; intros; lra.
  - simpl. destruct u as [u|]; [|apply block_ok_nil].
    eapply block_ok_ext; [|apply block_ok_one; rewrite frow_length, setitem_length; apply zeros_length].
    intros w Hw. rewrite row_rel_frow, (rdot_unit n) by auto. unfold wt, LE. split; intros; lra.
Qed.

Lemma near_eye n k c : block_ok n LE (map frow (ConsModel.eye k n), repeat c n)
  (fun w => forall i, (i < n)%nat -> k * wt w i <= c + d).
Proof.
  unfold ConsModel.eye. split; [|split]; simpl.
  - rewrite !map_length, seq_length, repeat_length. reflexivity.
  - intros row H. rewrite map_map in H. apply in_map_iff in H as (i & <- & _).
    rewrite frow_length, setitem_length. apply zeros_length.
  - intros w Hw. rewrite map_map.
    assert (G : forall m s, (s + m <= n)%nat ->
      (Forall2 (fun row rhs => row_rel LE row rhs w) (map (fun x => frow (setitem (zeros n) x k)) (seq s m)) (repeat c m)
       <-> forall i, (s <= i < s + m)%nat -> k * wt w i <= c + d)).
    { induction m as [|m IH]; intros s Hs; simpl.
      - split; [intros _ i Hi; lia|constructor].
      - split.
        + intros H i Hi. apply forall2_cons_inv in H as [H3 H5]. destruct (Nat.eq_dec i s) as [->|].
          * cbv beta in H3. rewrite row_rel_frow in H3. rewrite (rdot_unit n) in H3 by (auto; lia). exact H3.
          * apply (proj1 (IH (S s) ltac:(lia)) H5). lia.
        + intros H. constructor.
          * cbv beta. rewrite row_rel_frow. rewrite (rdot_unit n) by (auto; lia). apply H. lia.
          * apply IH; [lia|]. intros i Hi. apply H. lia. }
    rewrite (G n 0%nat) by lia. split; intros H i Hi; apply H; lia.
Qed.

Lemma near_tuple n t b : tuple_bounds n t = Ok b ->
  block_ok n LE b (fun w => forall i, (i < n)%nat -> near_bound d t (wt w i)).
Proof.
  destruct t as [|lo [|hi [|]]]; simpl; try discriminate. intros H.
  apply bind_ok in H as ([l u] & Hp & H). injection H as <-. apply check_pair_ok in Hp as [Hl Hu].
  eapply block_ok_ext; [|apply block_ok_app].
  2:{ instantiate (1 := fun w => match l with Some a => forall i, (i < n)%nat -> a <= wt w i + d | None => True end).
      simpl. destruct l; [|apply block_ok_nil]. eapply block_ok_ext; [|apply near_eye].
      intros w _. split; intros H i Hi; specialize (H i Hi); lra. }
  2:{ instantiate (1 := fun w => match u with Some a => forall i, (i < n)%nat -> wt w i - d <= a | None => True end).
      simpl. destruct u; [|apply block_ok_nil]. eapply block_ok_ext; [|apply near_eye].
      intros w _. split; intros H i Hi; specialize (H i Hi); lra. }
  intros w _. simpl. split.
  - intros [A B] i Hi. rewrite (fin_le_opt _ _ _ Hl), (fin_ge_opt _ _ _ Hu). destruct l, u; auto.
  - intros H. split; [destruct l|destruct u]; auto; intros i Hi; specialize (H i Hi);
    rewrite (fin_le_opt _ _ _ Hl), (fin_ge_opt _ _ _ Hu) in H; tauto.
Qed.

Lemma near_dict n e b : dict_bound n e = Ok b ->
  block_ok n LE b (fun w => near_bound d (snd e) (wt w (Z.to_nat (fst e)))).
Proof.
  destruct e as [i lu]. unfold dict_bound; simpl. destruct (in_range n i) eqn:E; simpl; [|discriminate].
  apply in_range_iff in E. unfold good_index in E.
  destruct lu as [|lo [|hi [|]]]; simpl; try discriminate. intros H.
  apply bind_ok in H as (p & Hp & H). injection H as <-. apply near_asset_bound; auto. lia.
Qed.
Lemma near_seq n e b : (fst e < n)%nat -> seq_bound n e = Ok b ->
  block_ok n LE b (fun w => near_bound d (snd e) (wt w (fst e))).
Proof.
  destruct e as [i lu]. unfold seq_bound; simpl. intros Hi.
  destruct lu as [|lo [|hi [|]]]; simpl; try discriminate. intros H.
  apply bind_ok in H as (p & Hp & H). injection H as <-. apply near_asset_bound; auto.
Qed.
Lemma near_bounds_block n bd b : bounds_block n bd = Ok b -> block_ok n LE b (near_bounds d n bd).
Proof.
  destruct bd as [[t|l|s]|]; simpl.
  - apply near_tuple.
  - intros H. eapply block_ok_ext; [|eapply blocks_ok; [|exact H]].
    2:{ intros x b0 _ Hx. apply (near_dict n x). exact Hx. }
    intros w _. split.
    + intros HH i lu Hin. apply (HH (i, lu) Hin).
    + intros HH [i lu] Hin. apply HH. exact Hin.
  - destruct (Nat.eqb_spec (List.length s) n) as [E|]; simpl; [|discriminate]. intros H.
    eapply block_ok_ext; [|eapply blocks_ok; [|exact H]].
    2:{ intros x b0 Hx HH. apply (near_seq n x); auto. destruct x as [i x]. apply in_combine_l in Hx. apply in_seq in Hx. simpl. lia. }
    intros w _. split.
    + intros HH i Hi. rewrite <- E in HH. apply (HH (i, nth i s [])). apply (in_combine_seq s 0 i _ []).
      split; [lia|]. f_equal. lia.
    + intros HH [i x] Hx. rewrite <- E in Hx. apply (in_combine_seq s 0 i x []) in Hx as [H1 H2].
      simpl. rewrite <- H2. rewrite Nat.sub_0_r. apply HH. lia.
  - intros H. injection H as <-. apply block_ok_nil.
Qed.
Lemma near_rel_block n e b : rel_block n e = Ok b -> block_ok n LE b (near_rel d e).
Proof.
  destruct e as [i j k|]; simpl; [|discriminate].
  destruct (in_range n i) eqn:Ei; simpl; [|discriminate].
  destruct (in_range n j) eqn:Ej; simpl; [|discriminate].
  apply in_range_iff in Ei, Ej. unfold good_index in *.
  destruct (Z.eqb_spec i j) as [|Hne]; [discriminate|]. intros H.
  apply bind_ok in H as (r & Hr & H). injection H as <-. apply check_number_ok in Hr. subst k.
  eapply block_ok_ext; [|apply block_ok_one; rewrite frow_length, !setitem_length; apply zeros_length].
  intros w Hw. rewrite row_rel_frow. assert (L : List.length (setitem (zeros n) (Z.to_nat i) 1) = n) by (rewrite setitem_length; apply zeros_length).
  rewrite (rdot_setitem _ (Z.to_nat j) (-1) w n L Hw) by lia.
  rewrite (rdot_unit n) by (auto; lia). rewrite nth_setitem by (rewrite zeros_length; lia).
  destruct (Nat.eqb_spec (Z.to_nat j) (Z.to_nat i)); [lia|]. rewrite nth_zeros. simpl. unfold wt, LE. split; intros; lra.
Qed.
Lemma near_group_block n e b : group_block n e = Ok b -> block_ok n LE b (near_group d n e).
Proof.
  destruct e as [name [[idx lo] hi]]. unfold group_block.
  destruct (forallb (in_range n) idx) eqn:Ei; simpl; [|discriminate].
  pose proof (proj1 (forallb_range n idx) Ei) as Hg. intros H.
  apply bind_ok in H as (l & Hl & H). apply bind_ok in H as (h & Hh & H).
  apply check_number_ok in Hl, Hh. subst lo hi.
  destruct (Rltb_spec h l); [discriminate|]. injection H as <-.
  eapply block_ok_ext;
    [|apply (block_ok_app n LE ([_], [_]) ([_], [_])); apply block_ok_one; rewrite frow_length, set_many_length; apply zeros_length].
  intros w Hw. cbv beta. rewrite !row_rel_frow. rewrite !(rdot_group n) by auto. unfold LE. simpl. split; intros; lra.
Qed.
Lemma near_total_block n tw t : check_opt tw = Ok t ->
  block_ok n EQ (match t with Some t => ([frow (repeat 1 n)], [t]) | None => ([], []) end) (near_total d tw).
Proof.
  intros H. apply check_opt_ok in H. destruct t as [t|]; subst; simpl; [|apply block_ok_nil].
  eapply block_ok_ext; [|apply block_ok_one; rewrite frow_length; apply repeat_length].
  intros w Hw. rewrite row_rel_frow. rewrite (rdot_sumn _ w n) by (rewrite ?repeat_length; auto).
  rewrite (sumn_ext _ _ (fun i => nth i w 0)).
  - unfold EQ. simpl. rewrite (rsum_sumn w), Hw. tauto.
  - intros i Hi. rewrite (nth_indep _ 0 1) by (rewrite repeat_length; auto). rewrite nth_repeat. ring.
Qed.

Lemma near_matrices c n m ws : to_matrices c n = Ok (m, ws) ->
  forall w, List.length w = Z.to_nat n ->
    (block_holds LE (m_G m) (m_h m) w /\ block_holds EQ (m_A m) (m_b m) w <-> near_satisfies d c (Z.to_nat n) w).
Proof.
  unfold to_matrices. destruct (Z.leb_spec n 0); [discriminate|]. intros H0. set (N := Z.to_nat n) in *.
  apply bind_ok in H0 as (tw & Htw & H0). apply bind_ok in H0 as (bd & Hbd & H0).
  apply bind_ok in H0 as (rel & Hrel & H0). apply bind_ok in H0 as (grp & Hgrp & H0).
  apply bind_ok in H0 as (exG & HexG & H0). apply bind_ok in H0 as (exA & HexA & H0).
  injection H0 as <- <-.
  assert (Blo : block_ok N LE (if c_long_only c then (map frow (ConsModel.eye (-1) N), repeat 0 N) else ([], []))
     (fun w => c_long_only c = true -> forall i, (i < N)%nat -> - d <= wt w i)).
  { destruct (c_long_only c).
    - eapply block_ok_ext; [|apply near_eye]. intros w _. split.
      + intros HH _ i Hi. specialize (HH i Hi). lra.
      + intros HH i Hi. specialize (HH eq_refl i Hi). lra.
    - eapply block_ok_ext; [|apply block_ok_nil]. intros; split; auto; discriminate. }
  pose proof (near_bounds_block _ _ _ Hbd) as Bbd.
  pose proof (blocks_ok N LE _ _ _ _ (fun x b _ Hx => near_rel_block N x b Hx) Hrel) as Brel.
  pose proof (blocks_ok N LE _ _ _ _ (fun x b _ Hx => near_group_block N x b Hx) Hgrp) as Bgrp.
  pose proof (blocks_ok N LE _ _ _ _ (fun x b _ Hx => extra_block_ok N LE x b Hx) HexG) as BexG.
  pose proof (blocks_ok N EQ _ _ _ _ (fun x b _ Hx => extra_block_ok N EQ x b Hx) HexA) as BexA.
  pose proof (near_total_block N _ _ Htw) as Btot.
  pose proof (block_ok_app _ _ _ _ _ _ Blo (block_ok_app _ _ _ _ _ _ Bbd (block_ok_app _ _ _ _ _ _ Brel (block_ok_app _ _ _ _ _ _ Bgrp BexG)))) as BG.
  pose proof (block_ok_app _ _ _ _ _ _ Btot BexA) as BA.
  destruct (none_block _ _ _ _ BG) as [SG FG]. destruct (none_block _ _ _ _ BA) as [SA FA].
  intros w Hw. unfold near_satisfies. cbn [m_G m_h m_A m_b].
  rewrite (FG w Hw), (FA w Hw). fold LE EQ. tauto.
Qed.

Lemma near_mats_bridge c N m ws x : d < 1 -> to_matrices c (Z.of_nat N) = Ok (m, ws) ->
  (near_constrained d N (rows_G m) (rows_A m) x <-> near_allowed d c N x).
Proof.
  intros Hd H. destruct (constraint_matrix_shapes _ _ _ _ H) as [S1 S2]. rewrite Nat2Z.id in S1, S2.
  pose proof (near_matrices _ _ _ _ H (to_list N x)) as K. rewrite Nat2Z.id in K.
  unfold near_allowed. rewrite <- (K (to_list_length N x)). unfold near_constrained, rows_G, rows_A.
  rewrite <- (block_bridge LE (-1) N (m_G m) (m_h m) x S1) by (unfold LE; lra).
  rewrite <- (block_bridge EQ 1 N (m_A m) (m_b m) x S2).
  - reflexivity.
  - unfold EQ. intros H1. replace (0 - 1) with (-1) in H1 by lra. rewrite Rabs_left in H1; lra.
Qed.
End Near.

Lemma near_satisfies_weaker d c n l : 0 <= d -> satisfies c n l -> near_satisfies d c n l.
Proof.
  intros D (H1 & H2 & H3 & H4 & H5 & H6 & H7).
  assert (NB : forall lu x, bound_ok lu x -> near_bound d lu x).
  { intros [|lo [|hi [|]]] x; simpl; auto. unfold fin_le, fin_ge. intros [A B]. split; [destruct lo as [[[]|]|]|destruct hi as [[[]|]|]]; auto; lra. }
  split; [intros E i Hi; specialize (H1 E i Hi); lra|]. split.
  { unfold bounds_hold in H2. unfold near_bounds. destruct (c_bounds c) as [[t|l0|s]|]; auto; intros; apply NB; auto. }
  split.
  { intros e He. specialize (H3 e He). unfold rel_hold in H3. unfold near_rel. destruct e as [i j [[]|]|]; auto. lra. }
  split.
  { intros e He. specialize (H4 e He). unfold group_hold in H4. unfold near_group. destruct e as [nm [[idx [[]|]] [[]|]]]; auto. lra. }
  split.
  { intros e He. specialize (H5 e He). unfold extra_hold in *. destruct (snd e) as [[]|]; auto. destruct H5 as (q & E & H5). exists q. split; [exact E|lra]. }
  split.
  { unfold total_hold in H6. unfold near_total. destruct (c_total c) as [[[]|]|]; auto. rewrite H6, Rminus_diag_eq, Rabs_R0; auto. }
  intros e He. specialize (H7 e He). unfold extra_hold in *. destruct (snd e) as [[]|]; auto. destruct H7 as (q & E & H7). exists q. split; [exact E|].
  rewrite H7, Rminus_diag_eq, Rabs_R0; auto.
Qed.

Lemma near_resolve d w c arg m x : 0 <= d < 1 -> good_wrapper w c -> resolve_mats w arg = Ok m ->
  near_constrained d (assets w) (rows_G m) (rows_A m) x -> near_allowed d (effective c arg) (assets w) x.
Proof.
  intros [D0 D1] G H Hx. destruct (resolve_inv w c arg m G H) as (e & ws & Hm & [-> |(-> & -> & Hv)]).
  - apply (near_mats_bridge d _ _ _ _ x D1 Hm). exact Hx.
  - apply near_satisfies_weaker; [exact D0|]. apply Hv. apply to_list_length.
Qed.
