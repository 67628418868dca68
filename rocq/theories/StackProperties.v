(** C178: when exposure stacking answers, what its answer lies between, and the order of the samples. *)
From Coq Require Import String.
From Verif Require Import RBase QpBase ExistLib OptSpec ConsModel EnsModel EnsSpec EnsProofs.
From Verif Require PoProofs OptProofs2 OptProofs7.
Open Scope R_scope.
Open Scope list_scope.

(** With a solver that finds an optimum whenever there is one, a panel of at least one sample is stacked exactly
    when the number of folds lies between 2 and the number of samples; otherwise ValueError.  A solver that
    gives up makes the call raise RuntimeError. *)
Theorem stacking_outcome : forall solver p L,
  let n := Z.of_nat (List.length (pn_cols p)) in
  ((0 < n)%Z -> (2 <= L <= n)%Z -> complete_qp solver -> exists v, exposure_stacking solver p L = Ok (v, pn_assets p)) /\
  (n = 0%Z \/ (L < 2)%Z \/ (n < L)%Z -> exposure_stacking solver p L = Err ValueError) /\
  ((2 <= L <= n)%Z -> (forall q, solver q = None) -> exposure_stacking solver p L = Err RuntimeError).
Proof.
  intros solver p L n. unfold exposure_stacking, ensure_samples.
  destruct (Nat.eqb_spec (List.length (pn_cols p)) 0) as [E0|E0]; cbn [bind].
  - split; [intros H; lia|]. split; [reflexivity|intros H; unfold n in H; lia].
  - fold n. destruct (Z.ltb_spec L 2) as [H2|H2]; [split; [intros; lia|]; split; [reflexivity|intros; lia]|].
    destruct (Z.ltb_spec n L) as [H3|H3]; [split; [intros; lia|]; split; [reflexivity|intros; lia]|].
    split; [|split; [intros [H|[H|H]]; unfold n in *; lia|intros _ Hs; rewrite Hs; reflexivity]].
    intros _ _ Hc. destruct (qp_attains (stack_qp (pn_n p) (pn_cols p) (Z.to_nat L)) 1) as [x Hx].
    + exists (fun j => if Nat.eqb j 0 then 1 else 0). apply stack_feasible. split; [rewrite map_length, seq_length; reflexivity|].
      split; [|intros y Hy; apply in_map_iff in Hy as (j & <- & _); destruct (Nat.eqb j 0); lra].
      rewrite OptProofs2.rsum_seq. destruct (List.length (pn_cols p)) as [|k]; [congruence|].
      rewrite sumn_shift. cbn [Nat.eqb]. rewrite sumn_0 by (intros; reflexivity). cbn. lra.
    + intros x Hx i Hi. cbn [stack_qp qp_n] in Hi. apply stack_feasible in Hx as (_ & H1 & H0).
      assert (HP : forall k, (k < List.length (pn_cols p))%nat -> 0 <= x k) by (intros k Hk; apply H0, in_map, in_seq; lia).
      rewrite OptProofs2.rsum_seq in H1. change (sumn (List.length (pn_cols p)) (fun t => x t) = 1) in H1.
      rewrite Rabs_pos_eq by auto. rewrite <- H1. apply (OptProofs7.sumn_term_le (List.length (pn_cols p)) i (fun t => x t)); auto.
    + specialize (Hc _ _ Hx). destruct (solver _) as [w|]; [eauto|congruence].
Qed.
Print Assumptions stacking_outcome.

(** Each stacked exposure lies between the smallest and the largest of the samples; so samples that agree on an
    asset are reproduced there. *)
Theorem stacking_within_range : forall solver p L v nm i lo hi, (forall q x, solver q = Some x -> qp_feasible q x) ->
  exposure_stacking solver p L = Ok (v, nm) ->
  (forall c, In c (pn_cols p) -> lo <= c i <= hi) -> lo <= v i <= hi.
Proof.
  intros solver p L v nm i lo hi Hs H Hr. unfold exposure_stacking in H. apply bind_ok in H as (p' & E & H).
  assert (p' = p) as -> by (unfold ensure_samples in E; destruct (Nat.eqb _ 0); [discriminate|congruence]).
  destruct (Z.ltb L 2); [discriminate|]. destruct (Z.ltb _ L); [discriminate|].
  destruct (solver _) as [w|] eqn:Ew; [|discriminate]. injection H as <- _.
  apply Hs, stack_feasible in Ew.
  assert (HC : is_combination (pn_cols p) (map w (seq 0 (List.length (pn_cols p)))) (combine_cols (pn_cols p) (map w (seq 0 (List.length (pn_cols p))))))
    by (apply combine_cols_spec; rewrite map_length, seq_length; reflexivity).
  assert (HD : forall c, dot (S i) (fun k => delta k i) c = c i).
  { intros c. unfold dot, delta. cbn [sumn]. rewrite sumn_0; [rewrite Nat.eqb_refl; ring|].
    intros k Hk. destruct (Nat.eqb_spec k i); [lia|ring]. }
  assert (HE : forall c, dot (S i) (fun k => - delta k i) c = - c i).
  { intros c. unfold dot, delta. cbn [sumn]. rewrite sumn_0; [rewrite Nat.eqb_refl; ring|].
    intros k Hk. destruct (Nat.eqb_spec k i); [lia|ring]. }
  split.
  - assert (G := combination_le (S i) (fun k => - delta k i) (- lo) (pn_cols p) _ _ Ew HC). unfold holds_le in G. rewrite HE in G.
    assert (- combine_cols (pn_cols p) (map w (seq 0 (List.length (pn_cols p)))) i <= - lo); [|lra]. apply G. intros c Hc. rewrite HE. specialize (Hr c Hc). lra.
  - assert (G := combination_le (S i) (fun k => delta k i) hi (pn_cols p) _ _ Ew HC). unfold holds_le in G. rewrite HD in G.
    apply G. intros c Hc. rewrite HD. apply (Hr c Hc).
Qed.
Print Assumptions stacking_within_range.

(** ** Order of the samples *)
(** Exposures a stacking of the samples into [L] folds may return. *)
Definition possible_stack (N : nat) (cols : list vec) (L : nat) (v : vec) : Prop :=
  exists w, qp_optimum (stack_qp N cols L) w /\ is_combination cols (map w (seq 0 (List.length cols))) v.

Lemma singleton_folds n : (1 <= n)%nat -> partitions n n = map (fun i => [i]) (seq 0 n).
Proof.
  intros Hn. unfold partitions. rewrite Nat.div_same by lia. rewrite Nat.mul_1_r.
  assert (E : seq 0 n = seq 0 (n - 1) ++ [(n - 1)%nat]).
  { replace n with (n - 1 + 1)%nat at 1 by lia. rewrite seq_app. reflexivity. }
  transitivity (map (fun i => [i]) (seq 0 (n - 1)) ++ map (fun i => [i]) [(n - 1)%nat]); [|rewrite <- map_app, <- E; reflexivity]. f_equal.
  - apply map_ext_in. intros i Hi. apply in_seq in Hi. unfold slice. rewrite !Nat.mul_1_r. replace (i + 1 - i)%nat with 1%nat by lia.
    rewrite skipn_seq. cbn [Nat.add]. destruct (n - i)%nat eqn:Ed; [lia|reflexivity].
  - rewrite skipn_seq. replace (n - (n - 1))%nat with 1%nat by lia. reflexivity.
Qed.

Definition loo (N n : nat) (x : nat -> vec) (w : vec) : R :=
  sumn n (fun i => sumn N (fun t => (sumn n (fun j => w j * x j t) - w i * x i t - x i t) ^ 2)).
Lemma cv_loo N cols w : (1 <= List.length cols)%nat ->
  cv_residual N cols (partitions (List.length cols) (List.length cols)) w = loo N (List.length cols) (fun j => nth j cols (fun _ => 0)) w.
Proof.
  intros Hn. rewrite singleton_folds by exact Hn. unfold cv_residual, loo. rewrite map_map, OptProofs2.rsum_seq.
  apply sumn_ext. intros i Hi. cbn [Nat.add]. apply sumn_ext. intros t _. f_equal. unfold outside, fold_mean. cbn [map List.length]. unfold rsum; cbn [fold_right]. change (INR 1) with 1.
  assert (E : sumn (List.length cols) (fun j => if in_dec Nat.eq_dec j [i] then 0 else w j * nth j cols (fun _ => 0) t) +
    sumn (List.length cols) (fun j => if Nat.eqb j i then w j * nth j cols (fun _ => 0) t else 0) = sumn (List.length cols) (fun j => w j * nth j cols (fun _ => 0) t)).
  { rewrite <- sumn_plus. apply sumn_ext. intros j _. destruct (in_dec Nat.eq_dec j [i]) as [[->|[]]|H]; [rewrite Nat.eqb_refl; ring|].
    destruct (Nat.eqb_spec j i) as [->|]; [exfalso; apply H; left; reflexivity|ring]. }
  assert (E2 : sumn (List.length cols) (fun j => if Nat.eqb j i then w j * nth j cols (fun _ => 0) t else 0) = w i * nth i cols (fun _ => 0) t).
  { assert (G : forall f n, sumn n (fun j => if Nat.eqb j i then f j else 0) = if (i <? n)%nat then f i else 0).
    { clear. intros f. induction n as [|n IH]; [reflexivity|]. cbn [sumn]. rewrite IH. destruct (Nat.ltb_spec i n), (Nat.ltb_spec i (S n)), (Nat.eqb_spec n i); subst; try lia; try ring. }
    rewrite (G (fun j => w j * nth j cols (fun _ => 0) t)). destruct (Nat.ltb_spec i (List.length cols)); [reflexivity|lia]. }
  rewrite E2 in E. rewrite <- E. field.
Qed.

Lemma reordered (cols cols' : list vec) : Permutation cols cols' ->
  exists o, Permutation o (seq 0 (List.length cols)) /\ forall j, (j < List.length cols)%nat -> nth j cols' (fun _ => 0) = nth (nth j o 0%nat) cols (fun _ => 0).
Proof.
  intros HP. apply (Permutation_nth cols cols' (fun _ => 0)) in HP as (HL & f & Hb & Hi & Hf). exists (map f (seq 0 (List.length cols))).
  split.
  - apply NoDup_Permutation_bis.
    + assert (ND : forall l, NoDup l -> (forall a b, In a l -> In b l -> f a = f b -> a = b) -> NoDup (map f l)).
      { induction l as [|a l IH]; intros H1 H2; cbn [map]; constructor; inversion H1; subst.
        - intros Hin. apply in_map_iff in Hin as (b & E & Hb'). apply H2 in E; [subst; contradiction|right; exact Hb'|left; reflexivity].
        - apply IH; [assumption|]. intros; apply H2; auto; right; assumption. }
      apply ND; [apply seq_NoDup|]. intros a b Ha Hb' E. apply in_seq in Ha, Hb'. apply Hi; [lia|lia|exact E].
    + rewrite map_length. lia.
    + intros k Hk. apply in_map_iff in Hk as (j & <- & Hj). apply in_seq in Hj. apply in_seq. specialize (Hb j ltac:(lia)). lia.
  - intros j Hj. rewrite (Hf j Hj). rewrite (nth_indep _ 0%nat (f 0%nat)) by (rewrite map_length, seq_length; exact Hj).
    rewrite map_nth, seq_nth by exact Hj. reflexivity.
Qed.

Lemma transported N (cols cols' : list vec) : (1 <= List.length cols)%nat -> Permutation cols cols' -> exists M : vec -> vec, forall w,
  (convex_weights (List.length cols) (map w (seq 0 (List.length cols))) -> convex_weights (List.length cols') (map (M w) (seq 0 (List.length cols')))) /\
  cv_residual N cols' (partitions (List.length cols') (List.length cols')) (M w) = cv_residual N cols (partitions (List.length cols) (List.length cols)) w /\
  (forall v, is_combination cols (map w (seq 0 (List.length cols))) v -> is_combination cols' (map (M w) (seq 0 (List.length cols'))) v).
Proof.
  intros Hn HP. destruct (reordered _ _ HP) as (o & Ho & Hx). pose proof (Permutation_length HP) as HL.
  exists (fun w j => w (nth j o 0%nat)). intros w. rewrite <- HL. set (n := List.length cols) in *.
  assert (Hlen : List.length o = n) by (rewrite (Permutation_length Ho); apply seq_length).
  assert (Hs : forall g : nat -> R, sumn n (fun j => g (nth j o 0%nat)) = sumn n g) by (intros g; apply PoProofs.sumn_perm; exact Ho).
  split; [|split].
  - intros (_ & H1 & H0). split; [rewrite map_length, seq_length; reflexivity|]. rewrite OptProofs2.rsum_seq in *. cbn [Nat.add] in *. split; [rewrite Hs; exact H1|].
    intros y Hy. apply in_map_iff in Hy as (j & <- & Hj). apply in_seq in Hj. apply H0, in_map. apply (Permutation_in _ Ho), nth_In. lia.
  - rewrite HL at 1 2. rewrite !cv_loo by lia. rewrite <- HL. fold n. unfold loo.
    rewrite <- (Hs (fun i => sumn N (fun t => (sumn n (fun j => w j * nth j cols (fun _ => 0) t) - w i * nth i cols (fun _ => 0) t - nth i cols (fun _ => 0) t) ^ 2))).
    apply sumn_ext. intros i Hi. apply sumn_ext. intros t _. rewrite (Hx i Hi).
    rewrite <- (Hs (fun j => w j * nth j cols (fun _ => 0) t)).
    rewrite (sumn_ext n (fun j => w (nth j o 0%nat) * nth j cols' (fun _ => 0) t) (fun j => w (nth j o 0%nat) * nth (nth j o 0%nat) cols (fun _ => 0) t)); [reflexivity|].
    intros j Hj. rewrite (Hx j Hj). reflexivity.
  - intros v Hv i. rewrite (Hv i). rewrite <- HL. fold n.
    assert (G : forall (u : vec) j, (j < n)%nat -> nth j (map u (seq 0 n)) 0 = u j).
    { intros u j Hj. rewrite (nth_indep _ 0 (u 0%nat)) by (rewrite map_length, seq_length; exact Hj). rewrite map_nth, seq_nth by exact Hj. reflexivity. }
    rewrite (sumn_ext n _ (fun j => w j * nth j cols (fun _ => 0) i)) by (intros j Hj; rewrite G by exact Hj; reflexivity).
    rewrite <- (Hs (fun j => w j * nth j cols (fun _ => 0) i)).
    apply sumn_ext. intros j Hj. rewrite G by exact Hj. rewrite (Hx j Hj). reflexivity.
Qed.

(** With as many folds as samples (leave one out) the order of the samples is irrelevant. *)
Theorem leave_one_out_order_irrelevant : forall N cols cols' v, (2 <= List.length cols)%nat -> Permutation cols cols' ->
  (possible_stack N cols (List.length cols) v <-> possible_stack N cols' (List.length cols') v).
Proof.
  assert (HX : forall N cols cols' v, (2 <= List.length cols)%nat -> Permutation cols cols' ->
    possible_stack N cols (List.length cols) v -> possible_stack N cols' (List.length cols') v).
  { intros N cols cols' v Hn HP (w & [HF HO] & HC). pose proof (Permutation_length HP) as HL.
    destruct (transported N cols cols') as [M HM]; [lia|exact HP|]. destruct (transported N cols' cols) as [M' HM']; [lia|symmetry; exact HP|].
    destruct (HM w) as (A1 & A2 & A3). exists (M w). split; [|apply A3; exact HC]. split.
    - apply stack_feasible, A1, stack_feasible with (N := N) (L := List.length cols). exact HF.
    - intros y Hy. apply stack_feasible in Hy. destruct (HM' y) as (B1 & B2 & _).
      assert (Hf : qp_feasible (stack_qp N cols (List.length cols)) (M' y)) by (apply stack_feasible, B1; exact Hy).
      specialize (HO _ Hf). rewrite !stack_obj in HO by lia. rewrite !stack_obj by lia. rewrite A2. rewrite B2 in HO. lra. }
  intros N cols cols' v Hn HP. split; apply HX; auto; [|symmetry; exact HP]. rewrite <- (Permutation_length HP). exact Hn.
Qed.
Print Assumptions leave_one_out_order_irrelevant.

(** With fewer folds it is not: three one-asset samples holding 1, 1 and 0 stack to 1 in this order and to 0 in
    the opposite one (two folds). *)
Definition three_cols : list vec := [fun _ => 1; fun _ => 1; fun _ => 0].
Theorem stacking_order_irrelevant_refuted :
  (exists v, possible_stack 1 three_cols 2 v) /\ (exists v, possible_stack 1 (rev three_cols) 2 v) /\
  (forall v, possible_stack 1 three_cols 2 v -> v 0%nat = 1) /\ (forall v, possible_stack 1 (rev three_cols) 2 v -> v 0%nat = 0).
Proof.
  assert (R1 : forall w, cv_residual 1 three_cols (partitions 3 2) w = (w 1%nat - 1) ^ 2 + (w 0%nat - 1 / 2) ^ 2).
  { intros w. unfold cv_residual, three_cols, outside, fold_mean. simpl. unfold rsum. simpl. field. }
  assert (R2 : forall w, cv_residual 1 (rev three_cols) (partitions 3 2) w = (w 1%nat + w 2%nat) ^ 2 + 1).
  { intros w. unfold cv_residual, three_cols, outside, fold_mean. simpl. unfold rsum. simpl. field. }
  assert (F : forall cols w, List.length cols = 3%nat -> (qp_feasible (stack_qp 1 cols 2) w <-> (0 <= w 0%nat /\ 0 <= w 1%nat /\ 0 <= w 2%nat) /\ w 0%nat + w 1%nat + w 2%nat = 1)).
  { intros cols w H. rewrite stack_feasible, H. unfold convex_weights. cbn. unfold rsum; cbn. split.
    - intros (_ & H1 & H0). split; [|lra]. repeat split; apply H0; auto.
    - intros [(H0 & H1 & H2) E]. split; [reflexivity|]. split; [lra|]. intros x [<-|[<-|[<-|[]]]]; assumption. }
  assert (HC : forall cols w v, List.length cols = 3%nat -> is_combination cols (map w (seq 0 (List.length cols))) v ->
     v 0%nat = w 0%nat * nth 0 cols (fun _ => 0) 0%nat + w 1%nat * nth 1 cols (fun _ => 0) 0%nat + w 2%nat * nth 2 cols (fun _ => 0) 0%nat).
  { intros cols w v H HI. specialize (HI 0%nat). rewrite H in HI. cbn in HI. rewrite HI. ring. }
  assert (O1 : forall w, qp_optimum (stack_qp 1 three_cols 2) w -> w 0%nat = 1 / 4 /\ w 1%nat = 3 / 4 /\ w 2%nat = 0).
  { intros w [Hf Ho]. apply F in Hf as [(H0 & H1 & H2) E]; [|reflexivity].
    set (y := fun j : nat => if Nat.eqb j 0 then 1 / 4 else if Nat.eqb j 1 then 3 / 4 else 0).
    assert (Hy : qp_feasible (stack_qp 1 three_cols 2) y) by (apply F; [reflexivity|]; unfold y; cbn; lra).
    specialize (Ho y Hy). rewrite !stack_obj in Ho by (cbn; lia). change (List.length three_cols) with 3%nat in Ho. rewrite !R1 in Ho.
    assert (Ey : y 0%nat = 1 / 4 /\ y 1%nat = 3 / 4) by (unfold y; cbn; split; reflexivity). destruct Ey as [Ey0 Ey1]. rewrite Ey0, Ey1 in Ho.
    set (a := w 0%nat - 1 / 4) in *. set (b := w 1%nat - 3 / 4) in *.
    assert (Ho' : a ^ 2 + b ^ 2 - (a + b) / 2 <= 0).
    { replace (w 1%nat - 1) with (b - 1 / 4) in Ho by (unfold b; lra). replace (w 0%nat - 1 / 2) with (a - 1 / 4) in Ho by (unfold a; lra). nra. }
    assert (Hs : a + b = - w 2%nat) by (unfold a, b; lra).
    pose proof (pow2_ge_0 a) as Pa. pose proof (pow2_ge_0 b) as Pb. assert (w 2%nat = 0) by lra.
    assert (Qa : a ^ 2 = 0) by lra. assert (Qb : b ^ 2 = 0) by lra.
    assert (a = 0) by (simpl in Qa; nra). assert (b = 0) by (simpl in Qb; nra). unfold a, b in *. lra. }
  assert (O2 : forall w, qp_optimum (stack_qp 1 (rev three_cols) 2) w -> w 0%nat = 1 /\ w 1%nat = 0 /\ w 2%nat = 0).
  { intros w [Hf Ho]. apply F in Hf as [(H0 & H1 & H2) E]; [|reflexivity].
    set (y := fun j : nat => if Nat.eqb j 0 then 1 else 0).
    assert (Hy : qp_feasible (stack_qp 1 (rev three_cols) 2) y) by (apply F; [reflexivity|]; unfold y; cbn; lra).
    specialize (Ho y Hy). rewrite !stack_obj in Ho by (cbn; lia). change (List.length (rev three_cols)) with 3%nat in Ho. rewrite !R2 in Ho.
    assert (Ey : y 1%nat = 0 /\ y 2%nat = 0) by (unfold y; cbn; split; reflexivity). destruct Ey as [Ey0 Ey1]. rewrite Ey0, Ey1 in Ho.
    assert (w 1%nat + w 2%nat = 0) by (assert (Q : (w 1%nat + w 2%nat) ^ 2 <= 0) by lra; simpl in Q; nra). lra. }
  assert (EX : forall cols, List.length cols = 3%nat -> exists v, possible_stack 1 cols 2 v).
  { intros cols Hc. destruct (qp_attains (stack_qp 1 cols 2) 1) as [x Hx].
    - exists (fun j => if Nat.eqb j 0 then 1 else 0). apply F; [exact Hc|]. cbn. lra.
    - intros x Hx i Hi. cbn [stack_qp qp_n] in Hi. rewrite Hc in Hi. apply F in Hx as [(H0 & H1 & H2) E]; [|exact Hc].
      destruct i as [|[|[|i]]]; [| | |lia]; apply Rabs_le; lra.
    - exists (combine_cols cols (map x (seq 0 (List.length cols)))). exists x. split; [exact Hx|]. apply combine_cols_spec. rewrite map_length, seq_length. reflexivity. }
  split; [apply EX; reflexivity|]. split; [apply EX; reflexivity|]. split; intros v (w & Ho & HI).
  - destruct (O1 w Ho) as (E0 & E1 & E2). rewrite (HC three_cols w v eq_refl HI), E0, E1, E2. cbn. lra.
  - destruct (O2 w Ho) as (E0 & E1 & E2). rewrite (HC (rev three_cols) w v eq_refl HI), E0, E1, E2. cbn. lra.
Qed.
Print Assumptions stacking_order_irrelevant_refuted.

(** Samples to which the theorems above apply: a panel of three samples is stacked, and three samples in three
    folds allow any order. *)
Example stacking_outcome_case : forall solver, complete_qp solver ->
  (exists v, exposure_stacking solver (mkPanel 1 three_cols None (Some ["x"]%string)) 2 = Ok (v, pn_assets (mkPanel 1 three_cols None (Some ["x"]%string)))) /\
  exposure_stacking solver (mkPanel 1 three_cols None None) 1 = Err ValueError /\
  (forall v, possible_stack 1 three_cols 3 v <-> possible_stack 1 (rev three_cols) 3 v).
Proof.
  intros solver Hc. split; [|split; [reflexivity|]].
  - apply stacking_outcome; [cbn; lia|cbn; lia|exact Hc].
  - intros v. apply (leave_one_out_order_irrelevant 1 three_cols (rev three_cols) v); [cbn; lia|apply Permutation_rev].
Qed.
