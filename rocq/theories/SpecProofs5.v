(** Blends of portfolios that satisfy common constraints satisfy them. *)
From Coq Require Import String.
From Verif Require Import RBase QpBase SortLib RiskModel ConsModel ConsSpec EnsModel EnsSpec EnsProofs AsmModel WrSpec.
Open Scope R_scope.
Open Scope list_scope.

(** [v] is the combination of the lists [cs] with weights [ws], entry by entry. *)
Definition mixes (n : nat) (cs : list (list R)) (ws : list R) (v : list R) : Prop :=
  List.length v = n /\ (forall c, In c cs -> List.length c = n) /\
  forall i, (i < n)%nat -> nth i v 0 = sumn (List.length cs) (fun j => nth j ws 0 * nth i (nth j cs []) 0).

Lemma rdot_wt n r l : List.length l = n -> rdot r l = sumn (Nat.min (List.length r) n) (fun i => nth i r 0 * wt l i).
Proof.
  intros <-. unfold rdot. revert l. induction r as [|x r IH]; intros [|y l]; cbn [map2 List.length Nat.min]; try reflexivity.
  rewrite sumn_shift. transitivity (x * y + rsum (map2 Rmult r l)); [reflexivity|]. rewrite IH. reflexivity.
Qed.
Section Mix.
Variables (n : nat) (cs : list (list R)) (ws v : list R).
Hypotheses (HM : mixes n cs ws v) (HW : convex_weights (List.length cs) ws).

Lemma mix_wt i : wt v i = sumn (List.length cs) (fun j => nth j ws 0 * wt (nth j cs []) i).
Proof.
  destruct HM as (Lv & Lc & E). destruct (Nat.lt_ge_cases i n) as [H|H]; [exact (E i H)|]. unfold wt. rewrite nth_overflow by lia.
  symmetry. apply sumn_0. intros j Hj. rewrite (nth_overflow (nth j cs [])); [ring|]. rewrite (Lc (nth j cs [])) by (apply nth_In; exact Hj). exact H.
Qed.
Lemma mix_sum m a : sumn m (fun i => a i * wt v i) = sumn (List.length cs) (fun j => nth j ws 0 * sumn m (fun i => a i * wt (nth j cs []) i)).
Proof.
  rewrite (sumn_ext _ (fun i => a i * wt v i) (fun i => sumn (List.length cs) (fun j => a i * (nth j ws 0 * wt (nth j cs []) i)))) by (intros i _; rewrite mix_wt, sumn_scale; reflexivity).
  rewrite sumn_swap. apply sumn_ext. intros j _. rewrite <- sumn_scale. apply sumn_ext. intros i _. ring.
Qed.
Lemma weights_nn j : 0 <= nth j ws 0.
Proof.
  destruct HW as (L & _ & N). destruct (Nat.lt_ge_cases j (List.length ws)) as [H|H]; [apply N, nth_In, H|rewrite nth_overflow by exact H; lra].
Qed.
Lemma weights_one : sumn (List.length cs) (fun j => nth j ws 0) = 1.
Proof. destruct HW as (L & S & _). rewrite <- L, <- rsum_sumn. exact S. Qed.
(** A linear quantity of the mix. *)
Lemma mix_le m a h : (forall c, In c cs -> sumn m (fun i => a i * wt c i) <= h) -> sumn m (fun i => a i * wt v i) <= h.
Proof.
  intros H. rewrite mix_sum. replace h with (sumn (List.length cs) (fun j => nth j ws 0 * h)) by (rewrite sumn_scale_r, weights_one; ring).
  apply sumn_le. intros j Hj. apply Rmult_le_compat_l; [apply weights_nn|]. apply H, nth_In, Hj.
Qed.
Lemma mix_ge m a h : (forall c, In c cs -> h <= sumn m (fun i => a i * wt c i)) -> h <= sumn m (fun i => a i * wt v i).
Proof.
  intros H. assert (G : sumn m (fun i => (- a i) * wt v i) <= - h).
  { apply mix_le. intros c I. specialize (H c I). rewrite (sumn_ext _ _ (fun i => - (a i * wt c i))) by (intros; ring). rewrite sumn_opp. lra. }
  rewrite (sumn_ext _ _ (fun i => - (a i * wt v i))) in G by (intros; ring). rewrite sumn_opp in G. lra.
Qed.
Lemma mix_eq m a h : (forall c, In c cs -> sumn m (fun i => a i * wt c i) = h) -> sumn m (fun i => a i * wt v i) = h.
Proof. intros H. apply Rle_antisym; [apply mix_le|apply mix_ge]; intros c I; rewrite (H c I); lra. Qed.

Lemma sum_single i (l : list R) : sumn (S i) (fun j => delta i j * wt l j) = wt l i.
Proof. rewrite sumn_delta_r by lia. reflexivity. Qed.
Lemma mix_wt_le i h : (forall c, In c cs -> wt c i <= h) -> wt v i <= h.
Proof. intros H. rewrite <- (sum_single i v). apply mix_le. intros c I. rewrite sum_single. auto. Qed.
Lemma mix_wt_ge i h : (forall c, In c cs -> h <= wt c i) -> h <= wt v i.
Proof. intros H. rewrite <- (sum_single i v). apply mix_ge. intros c I. rewrite sum_single. auto. Qed.
Lemma mix_bound lu i : (forall c, In c cs -> bound_ok lu (wt c i)) -> bound_ok lu (wt v i).
Proof.
  intros H. unfold bound_ok in *. destruct lu as [|lo [|hi [|x lu]]]; auto. split.
  - unfold fin_le. destruct lo as [[[l| | |]|]|]; auto. apply mix_wt_ge. intros c I. destruct (H c I) as [A _]. exact A.
  - unfold fin_ge. destruct hi as [[[l| | |]|]|]; auto. apply mix_wt_le. intros c I. destruct (H c I) as [_ A]. exact A.
Qed.
Lemma lengths c : In c cs -> List.length c = n.
Proof. apply (proj1 (proj2 HM)). Qed.
Lemma nonempty : exists c, In c cs.
Proof. pose proof weights_one as H. destruct cs as [|c cs']; [|exists c; left; reflexivity]. exfalso. cbn in H. lra. Qed.
Lemma mix_row (R_ : R -> R -> Prop) row rhs : (R_ = Rle \/ R_ = eq) -> (forall c, In c cs -> row_rel R_ row rhs c) -> row_rel R_ row rhs v.
Proof.
  intros HR H. destruct nonempty as (c0 & I0). destruct (H c0 I0) as (r & Er & _). exists r. split; [exact Er|].
  assert (Lv : List.length v = n) by exact (proj1 HM).
  assert (G : forall c, In c cs -> R_ (sumn (Nat.min (List.length r) n) (fun i => nth i r 0 * wt c i)) rhs).
  { intros c I. destruct (H c I) as (r' & Er' & Hr). assert (r' = r).
    { rewrite Er in Er'. clear - Er'. revert r' Er'. induction r as [|a r IH]; intros [|b r'] E; cbn in E; try discriminate; [reflexivity|]. injection E as -> E. f_equal. auto. }
    subst r'. rewrite <- (rdot_wt n r c (lengths c I)). exact Hr. }
  rewrite (rdot_wt n r v Lv). destruct HR as [-> | ->]; [apply mix_le|apply mix_eq]; exact G.
Qed.
Lemma group_wt idx (l : list R) : group_weight n idx l = sumn n (fun i => (if existsb (Z.eqb (Z.of_nat i)) idx then 1 else 0) * wt l i).
Proof. unfold group_weight. apply sumn_ext. intros i _. destruct (existsb _ _); ring. Qed.

Lemma satisfies_mix c : (forall l, In l cs -> satisfies c n l) -> satisfies c n v.
Proof.
  intros H. assert (Lv : List.length v = n) by exact (proj1 HM). split.
  { intros Hl i Hi. apply mix_wt_ge. intros l I. apply (H l I); auto. }
  split.
  { unfold bounds_hold. destruct (c_bounds c) as [[t|d|s]|] eqn:Eb; auto.
    - intros i Hi. apply mix_bound. intros l I. destruct (H l I) as (_ & B & _). rewrite Eb in B. apply B; exact Hi.
    - intros i lu Hin. apply mix_bound. intros l I. destruct (H l I) as (_ & B & _). rewrite Eb in B. eapply B; eauto.
    - intros i Hi. apply mix_bound. intros l I. destruct (H l I) as (_ & B & _). rewrite Eb in B. apply B; exact Hi. }
  split.
  { intros e He. unfold rel_hold. destruct e as [i j [[k| | |]|]|]; auto. set (a := Z.to_nat i). set (b := Z.to_nat j).
    assert (S1 : forall l, wt l a - wt l b = sumn (S (a + b)) (fun i => (delta a i - delta b i) * wt l i)).
    { intros l. rewrite (sumn_ext _ _ (fun i => delta a i * wt l i - delta b i * wt l i)) by (intros; ring). rewrite sumn_minus, !sumn_delta_r by lia. reflexivity. }
    rewrite S1. apply mix_le. intros l I. rewrite <- S1. destruct (H l I) as (_ & _ & R_ & _). exact (R_ _ He). }
  split.
  { intros e He. unfold group_hold. destruct e as [nm [[idx [[lo| | |]|]] [[hi| | |]|]]]; auto. rewrite group_wt. split.
    - apply mix_ge. intros l I. rewrite <- group_wt. destruct (H l I) as (_ & _ & _ & G & _). apply (G _ He).
    - apply mix_le. intros l I. rewrite <- group_wt. destruct (H l I) as (_ & _ & _ & G & _). apply (G _ He). }
  split.
  { intros e He. unfold extra_hold. destruct (snd e) as [[rhs| | |]|] eqn:Ee; auto. apply mix_row; [auto|]. intros l I. destruct (H l I) as (_ & _ & _ & _ & X & _).
    specialize (X e He). unfold extra_hold in X. rewrite Ee in X. exact X. }
  split.
  { unfold total_hold. destruct (c_total c) as [[[t| | |]|]|] eqn:Et; auto.
    assert (S1 : forall l, List.length l = n -> rsum l = sumn n (fun i => 1 * wt l i)) by (intros l <-; rewrite rsum_sumn; apply sumn_ext; intros; unfold wt; ring).
    rewrite S1 by exact Lv. apply mix_eq. intros l I. rewrite <- S1 by (apply lengths; exact I). destruct (H l I) as (_ & _ & _ & _ & _ & T_ & _). rewrite Et in T_. exact T_. }
  intros e He. unfold extra_hold. destruct (snd e) as [[rhs| | |]|] eqn:Ee; auto. apply mix_row; [auto|]. intros l I. destruct (H l I) as (_ & _ & _ & _ & _ & _ & X).
  specialize (X e He). unfold extra_hold in X. rewrite Ee in X. exact X.
Qed.
End Mix.
