(** Proofs about POET's factors. *)
From Coq Require Import List Lia Lra ZArith Permutation Sorted.
Import ListNotations.
From Verif Require Import Err RBase QpBase SortLib MomModel MomSpec MomProofs MomProofs3 GlModel GlSpec EigLib GlProofs PoModel PoSpec.
From Verif Require ExistSpec.
Open Scope R_scope.
Open Scope list_scope.

(** * Reordering an eigen-decomposition *)
Lemma perm_nth_lt n o r : Permutation o (seq 0 n) -> (r < n)%nat -> (nth r o 0 < n)%nat.
Proof.
  intros H Hr. assert (L : List.length o = n) by (apply Permutation_length in H; rewrite seq_length in H; exact H).
  assert (I : In (nth r o 0%nat) o) by (apply nth_In; lia). apply (Permutation_in _ H) in I. apply in_seq in I. lia.
Qed.
Lemma perm_nth_inj n o r s : Permutation o (seq 0 n) -> (r < n)%nat -> (s < n)%nat -> nth r o 0%nat = nth s o 0%nat -> r = s.
Proof.
  intros H Hr Hs E. assert (L : List.length o = n) by (apply Permutation_length in H; rewrite seq_length in H; exact H).
  assert (D : NoDup o) by (apply (Permutation_NoDup (Permutation_sym H)), seq_NoDup).
  apply (proj1 (NoDup_nth o 0%nat) D r s); lia.
Qed.
Lemma sumn_perm n o f : Permutation o (seq 0 n) -> sumn n (fun r => f (nth r o 0%nat)) = sumn n f.
Proof.
  intros H. assert (L : List.length o = n) by (apply Permutation_length in H; rewrite seq_length in H; exact H).
  pose proof (rsum_perm _ _ (Permutation_map f H)) as E. rewrite (rsum_seq f n 0) in E. simpl in E.
  transitivity (rsum (map f o)); [|exact E]. rewrite rsum_sumn, map_length, L. apply sumn_ext. intros r Hr. rewrite (nth_map_lt f o r 0%nat) by lia. reflexivity.
Qed.
Lemma decomposition_perm n K d Q o : Permutation o (seq 0 n) -> eigen_decomposition n K d Q ->
  eigen_decomposition n K (fun r => d (nth r o 0%nat)) (fun i r => Q i (nth r o 0%nat)).
Proof.
  intros H [H1 H2]. split.
  - intros i j Hi Hj. rewrite H1 by (apply perm_nth_lt; auto). unfold delta.
    destruct (Nat.eqb_spec i j) as [-> | N]; [rewrite Nat.eqb_refl; reflexivity|].
    destruct (Nat.eqb_spec (nth i o 0%nat) (nth j o 0%nat)) as [E|]; [|reflexivity]. exfalso. apply N. eapply perm_nth_inj; eauto.
  - intros i j Hi Hj. rewrite H2 by auto. symmetry. apply (sumn_perm n o (fun k => Q i k * d k * Q j k)). exact H.
Qed.

Lemma sorted_nth l i j : StronglySorted Rle l -> (i <= j)%nat -> (j < List.length l)%nat -> nth i l 0 <= nth j l 0.
Proof.
  intros H. revert i j. induction H as [|x l H IH F]; intros i j Hij Hj; [simpl in Hj; lia|].
  destruct i as [|i], j as [|j]; simpl in *; try lia; try lra.
  - rewrite Forall_forall in F. apply F. apply nth_In. lia.
  - apply IH; lia.
Qed.

Lemma order_descending (argsort : list R -> list nat) n (d : vec) : sorts Rle 0 argsort ->
  let order := rev (argsort (map d (seq 0 n))) in
  Permutation order (seq 0 n) /\ forall a b, (a <= b)%nat -> (b < n)%nat -> d (nth b order 0%nat) <= d (nth a order 0%nat).
Proof.
  intros HS order. destruct (HS (map d (seq 0 n))) as [P Q]. rewrite map_length, seq_length in P.
  set (o := argsort (map d (seq 0 n))) in *.
  assert (PO : Permutation order (seq 0 n)) by (unfold order; eapply perm_trans; [apply Permutation_sym, Permutation_rev|exact P]).
  split; [exact PO|]. intros a b Hab Hb.
  assert (L : List.length o = n) by (apply Permutation_length in P; rewrite seq_length in P; exact P).
  unfold order. rewrite !rev_nth by lia.
  pose proof (sorted_nth _ (List.length o - S b) (List.length o - S a) Q ltac:(lia) ltac:(rewrite take_length; lia)) as G.
  unfold take in G. rewrite !(nth_map_lt _ o _ 0%nat) in G by lia.
  rewrite !nth_map_seq in G by (apply perm_nth_lt; [exact P|lia]). exact G.
Qed.

(** * First [k] terms of a sum *)
Lemma sumn_first n k f : (k <= n)%nat -> sumn k f = sumn n (fun i => if Nat.ltb i k then f i else 0).
Proof.
  intros H. induction H as [|n H IH].
  - apply sumn_ext. intros i Hi. apply Nat.ltb_lt in Hi. rewrite Hi. reflexivity.
  - simpl. rewrite <- IH. replace (n <? k)%nat with false by (symmetry; apply Nat.ltb_ge; exact H). ring.
Qed.

Section Poet.
  Variables (T N : nat) (X : mat) (st : bool) (V : mat) (lam : vec) (k : nat).
  Hypothesis HT : (2 <= T)%nat.
  Hypothesis HD : eigen_decomposition N (poet_S T X st) lam V.
  Hypothesis Hdesc : forall a b, (a <= b)%nat -> (b < N)%nat -> lam b <= lam a.
  Hypothesis Hk : (k <= N)%nat.
  Let HV := proj1 HD.
  Let HS := proj2 HD.
  Let Z := poet_std T X st.

  Lemma Z_centred t i : center T Z t i = Z t i.
  Proof.
    assert (Hs : poet_scale T X st i <> 0) by (apply Rgt_not_eq, poet_scale_pos).
    unfold Z, poet_std. unfold center at 1. rewrite sumn_div, center_mean0 by lia. assert (HI : INR T <> 0) by (apply not_0_INR; lia). field. repeat split; assumption.
  Qed.
  Lemma poet_S_eq i j : poet_S T X st i j = sumn T (fun t => Z t i * Z t j) / INR (T - 1).
  Proof. unfold poet_S, np_cov. fold Z. f_equal. apply sumn_ext. intros t _. rewrite !Z_centred. reflexivity. Qed.
  Lemma poet_S_bilinear u w : dot N u (mv N (poet_S T X st) w) = sumn T (fun t => dot N (Z t) u * dot N (Z t) w) / INR (T - 1).
  Proof.
    assert (H0 : INR (T - 1) <> 0) by (apply not_0_INR; lia).
    unfold dot at 1, mv, dot at 1. rewrite (sumn_ext N _ (fun i => sumn N (fun j => sumn T (fun t => u i * (Z t i * Z t j * w j))) / INR (T - 1))).
    2: { intros i Hi. rewrite <- sumn_scale, <- sumn_div. apply sumn_ext. intros j Hj. rewrite poet_S_eq. rewrite sumn_scale, sumn_scale_r. field. exact H0. }
    rewrite sumn_div. f_equal. rewrite (sumn_ext N _ (fun i => sumn T (fun t => sumn N (fun j => u i * (Z t i * Z t j * w j))))) by (intros; apply sumn_swap).
    rewrite sumn_swap. apply sumn_ext. intros t Ht. unfold dot. rewrite <- sumn_scale_r. apply sumn_ext. intros i Hi. rewrite <- sumn_scale. apply sumn_ext. intros; ring.
  Qed.
  Lemma eigen_col r i : (r < N)%nat -> (i < N)%nat -> mv N (poet_S T X st) (fun a => V a r) i = lam r * V i r.
  Proof.
    intros Hr Hi. unfold mv, dot. rewrite (sumn_ext N _ (fun j => sumn N (fun q => V i q * lam q * (V j q * V j r)))).
    2: { intros j Hj. rewrite HS by auto. rewrite <- sumn_scale_r. apply sumn_ext. intros; ring. }
    rewrite sumn_swap. rewrite (sumn_ext N _ (fun q => delta q r * (V i q * lam q))).
    2: { intros q Hq. rewrite sumn_scale, HV by auto. ring. }
    rewrite sumn_delta by exact Hr. ring.
  Qed.
  Lemma lam_var r s : (r < N)%nat -> (s < N)%nat ->
    sumn T (fun t => dot N (Z t) (fun i => V i r) * dot N (Z t) (fun i => V i s)) / INR (T - 1) = delta r s * lam r.
  Proof.
    intros Hr Hs. rewrite <- poet_S_bilinear. rewrite (dot_ext N _ _ (fun i => V i r) (fun i => lam s * V i s)) by (auto; intros; apply eigen_col; auto).
    rewrite dot_scale_r. unfold dot. rewrite HV by auto. unfold delta. destruct (Nat.eqb_spec r s) as [->|]; ring.
  Qed.
  Lemma lam_nonneg r : (r < N)%nat -> 0 <= lam r.
  Proof.
    intros Hr. pose proof (lam_var r r Hr Hr) as E. unfold delta in E. rewrite Nat.eqb_refl, Rmult_1_l in E. rewrite <- E.
    apply Rmult_le_pos; [apply sumn_nonneg; intros; nra|]. left. apply Rinv_0_lt_compat, lt_0_INR. lia.
  Qed.

  Lemma poet_pca : principal T N Z k V lam.
  Proof.
    constructor.
    - intros f g Hf Hg. apply HV; lia.
    - intros f g Hf Hg. apply lam_var; lia.
    - intros f w Hf Hw Ho. unfold comb_var. rewrite (sumn_ext T _ (fun t => dot N (Z t) w * dot N (Z t) w)) by (intros; ring).
      rewrite <- poet_S_bilinear, <- quad_mv. rewrite (quad_ext N _ (conj N V lam) w w) by auto. rewrite conj_quad.
      assert (E1 : sumn N (fun r => dot N (fun i => V i r) w ^ 2) = 1).
      { rewrite <- Hw. transitivity (quad N (conj N V (fun _ => 1)) w).
        - rewrite conj_quad. apply sumn_ext. intros; ring.
        - rewrite (quad_ext N _ delta w w) by (auto; intros; apply conj_one; auto). rewrite quad_mv. apply dot_ext; [auto|]. intros i Hi. apply mv_delta. exact Hi. }
      apply Rle_trans with (sumn N (fun r => lam f * dot N (fun i => V i r) w ^ 2)); [|rewrite sumn_scale, E1; lra].
      apply sumn_le. intros r Hr. destruct (le_lt_dec f r) as [L|L].
      + apply Rmult_le_compat_r; [nra|]. apply Hdesc; lia.
      + rewrite (dot_comm N _ w), (Ho r L). simpl. lra.
  Qed.

  Let B : mat := fun i f => V i f * sqrt (Rmax (lam f) 0).
  Lemma factor_part i j : sumn k (fun f => B i f * B j f) = sumn N (fun f => V i f * (if Nat.ltb f k then lam f else 0) * V j f).
  Proof.
    rewrite (sumn_first N k) by exact Hk. apply sumn_ext. intros f Hf. destruct (f <? k)%nat; [|ring]. unfold B.
    rewrite Rmax_left by (apply lam_nonneg; exact Hf). pose proof (sqrt_sqrt (lam f) (lam_nonneg f Hf)). nra.
  Qed.
  Definition rest : vec := fun f => if Nat.ltb f k then 0 else lam f.
  Lemma residual_part i j : (i < N)%nat -> (j < N)%nat -> poet_S T X st i j - sumn k (fun f => B i f * B j f) = conj N V rest i j.
  Proof.
    intros Hi Hj. rewrite factor_part, HS by auto. rewrite <- sumn_minus. apply sumn_ext. intros f Hf. unfold rest. destruct (f <? k)%nat; ring.
  Qed.
  Lemma rest_psd : psd N (conj N V rest).
  Proof.
    intros x. rewrite conj_quad. apply sumn_nonneg. intros f Hf. apply Rmult_le_pos; [|nra]. unfold rest. destruct (f <? k)%nat; [lra|apply lam_nonneg; exact Hf].
  Qed.
  Lemma full_rank_rest i j : k = N -> conj N V rest i j = 0.
  Proof.
    intros E. apply sumn_0. intros f Hf. unfold rest. replace (f <? k)%nat with true by (symmetry; apply Nat.ltb_lt; lia). ring.
  Qed.
End Poet.

(** * argmax *)
Lemma argmax_at_spec l : forall best bi i,
  (argmax_at best bi i l = bi /\ (forall x, In x l -> x <= best)) \/
  (exists j, (j < List.length l)%nat /\ argmax_at best bi i l = (i + j)%nat /\ best < nth j l 0 /\ (forall x, In x l -> x <= nth j l 0) /\
     forall q, (q < j)%nat -> nth q l 0 < nth j l 0).
Proof.
  induction l as [|x l IH]; intros best bi i; cbn [argmax_at]; [left; split; [reflexivity|intros y []]|].
  destruct (Rltb_spec best x) as [L|L].
  - right. destruct (IH x i (S i)) as [[E H]|(j & Hj & E & H1 & H2 & H3)].
    + exists 0%nat. cbn [nth List.length]. split; [lia|]. split; [lia|]. split; [exact L|]. split; [intros y [<-|Hy]; [lra|auto]|intros; lia].
    + exists (S j). cbn [nth List.length]. split; [lia|]. split; [lia|]. split; [lra|]. split; [intros y [<-|Hy]; [lra|auto]|].
      intros [|q] Hq; cbn [nth]; [exact H1|apply H3; lia].
  - destruct (IH best bi (S i)) as [[E H]|(j & Hj & E & H1 & H2 & H3)].
    + left. split; [exact E|]. intros y [<-|Hy]; [lra|auto].
    + right. exists (S j). cbn [nth List.length]. split; [lia|]. split; [lia|]. split; [lra|]. split; [intros y [<-|Hy]; [lra|auto]|].
      intros [|q] Hq; cbn [nth]; [lra|apply H3; lia].
Qed.
Lemma argmax_r_spec l : l <> [] -> (argmax_r l < List.length l)%nat /\ (forall x, In x l -> x <= nth (argmax_r l) l 0) /\
  forall q, (q < argmax_r l)%nat -> nth q l 0 < nth (argmax_r l) l 0.
Proof.
  destruct l as [|x l]; [congruence|]. intros _. unfold argmax_r. destruct (argmax_at_spec l x 0 1) as [[E H]|(j & Hj & E & H1 & H2 & H3)].
  - rewrite E. cbn [nth List.length]. split; [lia|]. split; [intros y [<-|Hy]; [lra|auto]|intros; lia].
  - rewrite E. cbn [Nat.add nth List.length]. split; [lia|]. split; [intros y [<-|Hy]; [lra|auto]|].
    intros [|q] Hq; cbn [nth]; [exact H1|apply H3; lia].
Qed.
