(** The lower convex envelope of the CVaR frontier. *)
From Coq Require Import String.
From Verif Require Import RBase SortLib FrModel FrSpec FrProofs FrProofs2.
Open Scope R_scope.

Definition chord (x y : nat -> R) (a b j : nat) : R := y a + (y b - y a) / (x b - x a) * (x j - x a).

Section Env.
Variables (eps : R) (x y : nat -> R).
Definition stk (n : nat) : list nat := fold_left (fun st i => i :: pop_while eps x y i st) (seq 0 n) [].
Lemma stk_S n : stk (S n) = n :: pop_while eps x y n (stk n).
Proof. unfold stk. rewrite seq_S, fold_left_app. reflexivity. Qed.
Lemma envelope_stk n : envelope eps x y n = rev (stk n).
Proof. reflexivity. Qed.

Definition desc (st : list nat) : Prop := StronglySorted (fun a b => (b < a)%nat) st.
Definition turns (st : list nat) : Prop :=
  forall pre i3 i2 i1 post, st = (pre ++ i3 :: i2 :: i1 :: post)%list -> eps < cross x y i1 i2 i3.

Lemma turns_tail a st : turns (a :: st) -> turns st.
Proof. intros H pre i3 i2 i1 post E. apply (H (a :: pre) i3 i2 i1 post). rewrite E. reflexivity. Qed.
Lemma turns_cons i i2 i1 post : eps < cross x y i1 i2 i -> turns (i2 :: i1 :: post) -> turns (i :: i2 :: i1 :: post).
Proof.
  intros Hc H [|p pre] j3 j2 j1 post' E; simpl in E.
  - injection E as <- <- <- _. exact Hc.
  - injection E as _ E. apply (H pre j3 j2 j1 post'). exact E.
Qed.
Lemma desc_tail a st : desc (a :: st) -> desc st.
Proof. intros H. inversion H; assumption. Qed.
Lemma desc_skip a b st : desc (a :: b :: st) -> desc (a :: st).
Proof. intros H. inversion H as [|? ? H1 H2]; subst. inversion H1; subst. inversion H2; subst. constructor; assumption. Qed.

Lemma pop_spec i st : st <> [] -> desc (i :: st) -> turns st ->
  let st' := pop_while eps x y i st in
  st' <> [] /\ desc (i :: st') /\ turns (i :: st') /\ last st' 0%nat = last st 0%nat.
Proof.
  induction st as [|i2 st IH]; [congruence|]. intros _ Hd Ht. destruct st as [|i1 rest].
  - cbn [pop_while]. split; [discriminate|]. split; [exact Hd|]. split; [|reflexivity].
    intros [|p [|p' pre]] j3 j2 j1 post E; simpl in E; try discriminate E.
    injection E as _ _ E. destruct pre; discriminate E.
  - cbn [pop_while]. destruct (Rleb_spec (cross x y i1 i2 i) eps) as [Hc|Hc].
    + destruct IH as (A & B & C & D).
      * discriminate.
      * exact (desc_skip _ _ _ Hd).
      * exact (turns_tail _ _ Ht).
      * split; [exact A|]. split; [exact B|]. split; [exact C|]. exact D.
    + split; [discriminate|]. split; [exact Hd|]. split; [|reflexivity]. apply turns_cons; [lra|exact Ht].
Qed.

Lemma stk_spec n : (0 < n)%nat ->
  (exists st, stk n = (n - 1)%nat :: st) /\ desc (stk n) /\ turns (stk n) /\ last (stk n) 0%nat = 0%nat.
Proof.
  induction n as [|n IH]; [lia|]. intros _. rewrite stk_S. split; [exists (pop_while eps x y n (stk n)); f_equal; lia|].
  destruct n as [|n].
  - cbn. repeat split.
    + constructor; constructor.
    + intros [|p pre] j3 j2 j1 post E; simpl in E; [discriminate|]. injection E as _ E. destruct pre; discriminate.
  - destruct IH as ((st & E) & Hd & Ht & Hl); [lia|].
    destruct (pop_spec (S n) (stk (S n))) as (A & B & C & D).
    + rewrite E; discriminate.
    + constructor; [exact Hd|]. rewrite E in *. apply Forall_forall. intros k [<-|Hk]; [lia|].
      inversion Hd as [|? ? _ F]; subst. rewrite Forall_forall in F. specialize (F k Hk). lia.
    + exact Ht.
    + split; [exact B|]. split; [exact C|]. cbv zeta in D. rewrite <- D in Hl.
      destruct (pop_while eps x y (S n) (stk (S n))) as [|a l]; [congruence|]. exact Hl.
Qed.

(** Upper bound: with abscissae at least [g] apart every pop costs at most [eps / g]. *)
Section Upper.
Variables (g : R) (N : nat).
Hypothesis Hg : 0 < g.
Hypothesis Hgap : forall i j, (i < j < N)%nat -> g <= x j - x i.
Hypothesis Heps : 0 <= eps.
Let e := eps / g.
Lemma e_nonneg : 0 <= e.
Proof. apply Rmult_le_pos; [exact Heps|apply Rlt_le, Rinv_0_lt_compat; exact Hg]. Qed.

Definition below (st : list nat) (s : nat) : Prop :=
  forall pre b a post, st = (pre ++ b :: a :: post)%list -> forall j, (a <= j <= b)%nat -> chord x y a b j <= y j + INR s * e.

Lemma chord_mult a b j : x a < x b -> chord x y a b j * (x b - x a) = y a * (x b - x j) + y b * (x j - x a).
Proof. intros H. unfold chord. field. lra. Qed.

Lemma pop_bound i1 i2 i j : (i1 < i2)%nat -> (i2 < i)%nat -> (i < N)%nat -> (i1 <= j <= i)%nat -> cross x y i1 i2 i <= eps ->
  ((j <= i2)%nat -> chord x y i1 i j <= chord x y i1 i2 j + e) /\ ((i2 <= j)%nat -> chord x y i1 i j <= chord x y i2 i j + e).
Proof.
  intros H12 H2i HiN Hj Hc. unfold cross in Hc.
  assert (G1 : g <= x i2 - x i1) by (apply Hgap; lia). assert (G2 : g <= x i - x i2) by (apply Hgap; lia).
  assert (Je : e * g = eps) by (unfold e; field; lra). pose proof e_nonneg as E0.
  assert (J1 : x i1 <= x j). { destruct (Nat.eq_dec i1 j) as [->|]; [lra|]. assert (g <= x j - x i1) by (apply Hgap; lia). lra. }
  assert (J2 : x j <= x i). { destruct (Nat.eq_dec i j) as [->|]; [lra|]. assert (g <= x i - x j) by (apply Hgap; lia). lra. }
  pose proof (chord_mult i1 i j) as C1. pose proof (chord_mult i1 i2 j) as C2. pose proof (chord_mult i2 i j) as C3.
  set (c1 := chord x y i1 i j) in *. set (c2 := chord x y i1 i2 j) in *. set (c3 := chord x y i2 i j) in *.
  specialize (C1 ltac:(lra)). specialize (C2 ltac:(lra)). specialize (C3 ltac:(lra)).
  set (A := x i2 - x i1) in *. set (B := x i - x i2) in *.
  replace (x i - x i1) with (A + B) in * by (unfold A, B; lra).
  set (u := x j - x i1) in *. set (v := x i - x j) in *. assert (Huv : u + v = A + B) by (unfold u, v, A, B; lra).
  split; intros Hs.
  - assert (Hu : u <= A). { unfold u, A. destruct (Nat.eq_dec i2 j) as [->|]; [lra|]. assert (g <= x i2 - x j) by (apply Hgap; lia). lra. }
    replace (x i2 - x j) with (A - u) in C2 by (unfold A, u; lra).
    (* (c1 - c2) A (A+B) = u * cross *)
    assert (K : (c1 - c2) * (A * (A + B)) = u * (A * (y i - y i1) - (y i2 - y i1) * (A + B))).
    { replace ((c1 - c2) * (A * (A + B))) with (c1 * (A + B) * A - c2 * A * (A + B)) by ring. rewrite C1, C2.
      replace v with (A + B - u) by lra. ring. }
    destruct (Rle_dec c1 (c2 + e)) as [|Hn]; [assumption|]. exfalso.
    assert (K1 : e * (A * (A + B)) < (c1 - c2) * (A * (A + B))) by (apply Rmult_lt_compat_r; [nra|lra]).
    assert (0 <= u) by (unfold u; lra).
    assert (K2 : u * (A * (y i - y i1) - (y i2 - y i1) * (A + B)) <= A * eps).
    { apply Rle_trans with (u * eps); [apply Rmult_le_compat_l; [assumption|exact Hc]|apply Rmult_le_compat_r; assumption]. }
    assert (K3 : A * eps <= e * (A * (A + B))). { rewrite <- Je. assert (A * (e * g) <= A * (e * (A + B))) by (apply Rmult_le_compat_l; [lra|apply Rmult_le_compat_l; lra]). lra. }
    lra.
  - assert (Hv : v <= B). { unfold v, B. destruct (Nat.eq_dec i2 j) as [->|]; [lra|]. assert (g <= x j - x i2) by (apply Hgap; lia). lra. }
    replace (x j - x i2) with (B - v) in C3 by (unfold B, v; lra).
    assert (K : (c1 - c3) * (B * (A + B)) = v * (A * (y i - y i1) - (y i2 - y i1) * (A + B))).
    { replace ((c1 - c3) * (B * (A + B))) with (c1 * (A + B) * B - c3 * B * (A + B)) by ring. rewrite C1, C3.
      replace u with (A + B - v) by lra. ring. }
    destruct (Rle_dec c1 (c3 + e)) as [|Hn]; [assumption|]. exfalso.
    assert (K1 : e * (B * (A + B)) < (c1 - c3) * (B * (A + B))) by (apply Rmult_lt_compat_r; [nra|lra]).
    assert (0 <= v) by (unfold v; lra).
    assert (K2 : v * (A * (y i - y i1) - (y i2 - y i1) * (A + B)) <= B * eps).
    { apply Rle_trans with (v * eps); [apply Rmult_le_compat_l; [assumption|exact Hc]|apply Rmult_le_compat_r; assumption]. }
    assert (K3 : B * eps <= e * (B * (A + B))). { rewrite <- Je. assert (B * (e * g) <= B * (e * (A + B))) by (apply Rmult_le_compat_l; [lra|apply Rmult_le_compat_l; lra]). lra. }
    lra.
Qed.

Lemma pop_below i st s : (i < N)%nat -> st <> [] -> desc (i :: st) -> below (i :: st) s ->
  exists s', (s' + List.length (pop_while eps x y i st) = s + List.length st)%nat /\ below (i :: pop_while eps x y i st) s'.
Proof.
  intros Hi. revert s. induction st as [|i2 st IH]; [congruence|]. intros s _ Hd Hb. destruct st as [|i1 rest].
  - cbn [pop_while]. exists s. auto.
  - cbn [pop_while]. destruct (Rleb_spec (cross x y i1 i2 i) eps) as [Hc|Hc]; [|exists s; auto].
    assert (Hlt : (i1 < i2)%nat /\ (i2 < i)%nat).
    { inversion Hd as [|? ? H1 H2]; subst. inversion H1 as [|? ? _ H3]; subst. inversion H2; subst. inversion H3; subst. lia. }
    destruct (IH (S s)) as (s' & E & B); [discriminate|exact (desc_skip _ _ _ Hd)| |exists s'; split; [transitivity (S s + List.length (i1 :: rest))%nat; [exact E|simpl; lia]|exact B]].
    intros [|p pre] b a post E j Hj; simpl in E.
    + injection E as <- <- _. rewrite S_INR. destruct (pop_bound i1 i2 i j) as [P1 P2]; try lia; auto.
      destruct (le_lt_dec j i2) as [H|H].
      * specialize (P1 H). assert (chord x y i1 i2 j <= y j + INR s * e) by (apply (Hb [i] i2 i1 rest eq_refl); lia). lra.
      * specialize (P2 ltac:(lia)). assert (chord x y i2 i j <= y j + INR s * e) by (apply (Hb [] i i2 (i1 :: rest) eq_refl); lia). lra.
    + injection E as _ E. assert (chord x y a b j <= y j + INR s * e).
      { apply (Hb (i :: i2 :: pre) b a post); [rewrite E; reflexivity|exact Hj]. }
      pose proof e_nonneg. rewrite S_INR. lra.
Qed.

Lemma chord_ends a b : x a < x b -> chord x y a b a = y a /\ chord x y a b b = y b.
Proof. intros H. unfold chord. split; field; lra. Qed.

Lemma stk_below n : (n <= N)%nat -> exists s, (s + List.length (stk n) = n)%nat /\ below (stk n) s.
Proof.
  induction n as [|n IH]; intros Hn.
  - exists 0%nat. split; [reflexivity|]. intros pre b a post E. unfold stk in E. simpl in E. destruct pre; discriminate.
  - destruct IH as (s & E & B); [lia|]. rewrite stk_S. destruct n as [|n].
    + exists 0%nat. split; [reflexivity|]. intros [|p pre] b a post F; simpl in F; [discriminate|]. injection F as _ F. destruct pre; discriminate.
    + destruct (stk_spec (S n)) as ((st & F) & Hd & _ & _); [lia|].
      destruct (pop_below (S n) (stk (S n)) s) as (s' & E' & B').
      * lia.
      * rewrite F; discriminate.
      * constructor; [exact Hd|]. rewrite F in *. apply Forall_forall. intros k [<-|Hk]; [lia|].
        inversion Hd as [|? ? _ G]; subst. rewrite Forall_forall in G. specialize (G k Hk). lia.
      * intros [|p pre] b a post G j Hj.
        -- rewrite F in G. cbn [app] in G. injection G as Gb Ga _. assert (a = n) as -> by lia. subst b.
           assert (x n < x (S n)) by (assert (g <= x (S n) - x n) by (apply Hgap; lia); lra).
           destruct (chord_ends n (S n)) as [C1 C2]; [assumption|]. pose proof e_nonneg. pose proof (pos_INR s).
           assert (0 <= INR s * e) by (apply Rmult_le_pos; assumption).
           assert (j = n \/ j = S n) as [-> | ->] by lia; [rewrite C1|rewrite C2]; lra.
        -- injection G as _ G. apply (B pre b a post G j Hj).
      * exists s'. split; [cbn [List.length] in *; lia|exact B'].
Qed.
End Upper.

(** Nothing is dropped from a strictly convex sequence. *)
Lemma stk_all n : (forall i, (S (S i) < n)%nat -> eps < cross x y i (S i) (S (S i))) -> stk n = rev (seq 0 n).
Proof.
  induction n as [|n IH]; intros H; [reflexivity|]. rewrite stk_S, IH by (intros; apply H; lia).
  rewrite seq_S, rev_app_distr. simpl. f_equal. destruct n as [|n]; [reflexivity|]. rewrite seq_S, rev_app_distr. simpl.
  destruct n as [|n]; [reflexivity|]. rewrite seq_S, rev_app_distr. simpl.
  destruct (Rleb_spec (cross x y n (S n) (S (S n))) eps) as [Hc|Hc]; [|reflexivity].
  specialize (H n ltac:(lia)). lra.
Qed.
End Env.

(** * Interpolation *)
Definition incr_x (pts : list (R * R)) : Prop := StronglySorted (fun p q => fst p < fst q) pts.
Definition nodes_mono (pts : list (R * R)) : Prop := StronglySorted (fun p q => fst p <= fst q /\ snd p <= snd q) pts.

Lemma interp_cons2 x1 y1 x2 y2 rest q : interp ((x1, y1) :: (x2, y2) :: rest) q =
  if Rltb q x1 then y1 else if Rltb q x2 then y1 + (y2 - y1) / (x2 - x1) * (q - x1) else interp ((x2, y2) :: rest) q.
Proof. reflexivity. Qed.
Lemma interp_head x1 y1 rest : incr_x ((x1, y1) :: rest) -> interp ((x1, y1) :: rest) x1 = y1.
Proof.
  intros H. destruct rest as [|[x2 y2] rest]; [reflexivity|]. rewrite interp_cons2.
  destruct (Rltb_spec x1 x1) as [K|_]; [lra|]. inversion H as [|? ? _ F]; subst. inversion F; subst. cbn [fst snd] in *.
  destruct (Rltb_spec x1 x2) as [_|K]; [|lra]. replace (x1 - x1) with 0 by lra. lra.
Qed.

Lemma interp_seg pre : forall xa ya xb yb post q, incr_x (pre ++ (xa, ya) :: (xb, yb) :: post)%list -> xa <= q <= xb ->
  interp (pre ++ (xa, ya) :: (xb, yb) :: post)%list q = ya + (yb - ya) / (xb - xa) * (q - xa).
Proof.
  induction pre as [|[x1 y1] pre IH]; intros xa ya xb yb post q H Hq; cbn [app] in *.
  - rewrite interp_cons2. inversion H as [|? ? H1 F]; subst. inversion F; subst. cbn [fst snd] in *.
    destruct (Rltb_spec q xa) as [K|_]; [lra|]. destruct (Rltb_spec q xb) as [_|K]; [reflexivity|].
    assert (q = xb) as -> by lra. transitivity yb; [exact (interp_head xb yb post H1)|field; lra].
  - inversion H as [|? ? H1 F]; subst. rewrite Forall_forall in F.
    assert (G1 : x1 < xa). { apply (F (xa, ya)). apply in_elt. }
    assert (G2 : forall p, In p (pre ++ [(xa, ya)])%list -> fst p <= xa).
    { intros p Hp. apply in_app_iff in Hp as [Hp|[<-|[]]]; [|simpl; lra]. apply in_split in Hp as (u & v & ->).
      clear -H1. induction u as [|w u IH]; simpl in *.
      - inversion H1 as [|? ? _ F]; subst. rewrite Forall_forall in F. apply Rlt_le. apply (F (xa, ya)). apply in_elt.
      - apply IH. inversion H1; assumption. }
    specialize (IH xa ya xb yb post q H1 Hq). destruct pre as [|[x2 y2] pre]; cbn [app] in *.
    + rewrite interp_cons2. destruct (Rltb_spec q x1) as [K|_]; [lra|]. destruct (Rltb_spec q xa) as [K|_]; [lra|]. exact IH.
    + assert (x2 <= xa) by (apply (G2 (x2, y2)); simpl; auto).
      change (interp ((x1, y1) :: (x2, y2) :: (pre ++ (xa, ya) :: (xb, yb) :: post)%list) q = ya + (yb - ya) / (xb - xa) * (q - xa)).
      rewrite interp_cons2. destruct (Rltb_spec q x1) as [K|_]; [lra|]. destruct (Rltb_spec q x2) as [K|_]; [lra|]. exact IH.
Qed.

Lemma slope_nonneg a b : 0 <= a -> 0 < b -> 0 <= a / b.
Proof. intros. apply Rmult_le_pos; [assumption|apply Rlt_le, Rinv_0_lt_compat; assumption]. Qed.

Lemma seg_bounds x1 y1 x2 y2 q : x1 <= q < x2 -> y1 <= y2 -> y1 <= y1 + (y2 - y1) / (x2 - x1) * (q - x1) <= y2.
Proof.
  intros H Hy. assert (0 <= (y2 - y1) / (x2 - x1)) as K by (apply slope_nonneg; lra).
  assert (E : (y2 - y1) / (x2 - x1) * (x2 - x1) = y2 - y1) by (field; lra). split; nra.
Qed.

Lemma interp_ge_head x1 y1 rest q : nodes_mono ((x1, y1) :: rest) -> y1 <= interp ((x1, y1) :: rest) q.
Proof.
  revert x1 y1. induction rest as [|[x2 y2] rest IH]; intros x1 y1 H; [simpl; lra|]. rewrite interp_cons2.
  inversion H as [|? ? H1 F]; subst. inversion F as [|? ? [F1 F2] _]; subst. cbn [fst snd] in *.
  destruct (Rltb_spec q x1); [lra|]. destruct (Rltb_spec q x2); [apply seg_bounds; lra|]. specialize (IH x2 y2 H1). lra.
Qed.
Lemma interp_mono pts q q' : nodes_mono pts -> q <= q' -> interp pts q <= interp pts q'.
Proof.
  intros H Hq. induction pts as [|[x1 y1] rest IH]; [simpl; lra|]. destruct rest as [|[x2 y2] rest]; [simpl; lra|].
  inversion H as [|? ? H1 F]; subst. inversion F as [|? ? [F1 F2] _]; subst. simpl in F1, F2. specialize (IH H1).
  pose proof (interp_ge_head x2 y2 rest q' H1) as G.
  rewrite !interp_cons2. destruct (Rltb_spec q x1) as [K1|K1].
  - destruct (Rltb_spec q' x1); [lra|]. destruct (Rltb_spec q' x2); [apply seg_bounds; lra|]. lra.
  - destruct (Rltb_spec q' x1); [lra|]. destruct (Rltb_spec q x2) as [K2|K2].
    + pose proof (seg_bounds x1 y1 x2 y2 q ltac:(lra) F2) as B. destruct (Rltb_spec q' x2) as [K3|K3]; [|lra].
      assert (0 <= (y2 - y1) / (x2 - x1)) by (apply slope_nonneg; lra). nra.
    + destruct (Rltb_spec q' x2); [lra|]. exact IH.
Qed.

(** Convexity by supporting lines. *)
Fixpoint conv (s : R) (pts : list (R * R)) : Prop :=
  match pts with
  | (x1, y1) :: (((x2, y2) :: _) as rest) => x1 < x2 /\ s <= (y2 - y1) / (x2 - x1) /\ conv ((y2 - y1) / (x2 - x1)) rest
  | _ => True
  end.
Definition lastx (pts : list (R * R)) : R := fst (last pts (0, 0)).

Lemma conv_lastx x1 y1 rest s : conv s ((x1, y1) :: rest) -> x1 <= lastx ((x1, y1) :: rest).
Proof.
  revert x1 y1 s. induction rest as [|[x2 y2] rest IH]; intros x1 y1 s H; [unfold lastx; simpl; lra|].
  destruct H as (H1 & H2 & H3). specialize (IH x2 y2 _ H3). change (lastx ((x1, y1) :: (x2, y2) :: rest)) with (lastx ((x2, y2) :: rest)). lra.
Qed.
Lemma conv_head x1 y1 rest s : conv s ((x1, y1) :: rest) -> interp ((x1, y1) :: rest) x1 = y1.
Proof.
  destruct rest as [|[x2 y2] rest]; [reflexivity|]. intros (H & _). rewrite interp_cons2. destruct (Rltb_spec x1 x1); [lra|].
  destruct (Rltb_spec x1 x2); [|lra]. replace (x1 - x1) with 0 by lra. lra.
Qed.

Lemma support rest : forall x1 y1 s q, conv s ((x1, y1) :: rest) -> x1 <= q <= lastx ((x1, y1) :: rest) ->
  exists m, s <= m /\ forall q', x1 <= q' <= lastx ((x1, y1) :: rest) ->
    interp ((x1, y1) :: rest) q + m * (q' - q) <= interp ((x1, y1) :: rest) q'.
Proof.
  induction rest as [|[x2 y2] rest IH]; intros x1 y1 s q H Hq.
  - exists s. split; [lra|]. unfold lastx in *; simpl in *. intros q' Hq'. assert (q = x1) as -> by lra. assert (q' = x1) as -> by lra. lra.
  - pose proof H as (H1 & H2 & H3). pose proof (conv_head x2 y2 rest _ H3) as Eh. pose proof (conv_lastx x2 y2 rest _ H3) as El.
    change (lastx ((x1, y1) :: (x2, y2) :: rest)) with (lastx ((x2, y2) :: rest)) in *. set (L := lastx ((x2, y2) :: rest)) in *.
    assert (Es : (y2 - y1) / (x2 - x1) * (x2 - x1) = y2 - y1) by (field; lra). set (sl := (y2 - y1) / (x2 - x1)) in *.
    assert (Er : forall q0, x2 <= q0 -> interp ((x1, y1) :: (x2, y2) :: rest) q0 = interp ((x2, y2) :: rest) q0).
    { intros q0 K. rewrite interp_cons2. destruct (Rltb_spec q0 x1); [lra|]. destruct (Rltb_spec q0 x2); [lra|]. reflexivity. }
    assert (Ef : forall q0, x1 <= q0 < x2 -> interp ((x1, y1) :: (x2, y2) :: rest) q0 = y1 + sl * (q0 - x1)).
    { intros q0 K. rewrite interp_cons2. destruct (Rltb_spec q0 x1); [lra|]. destruct (Rltb_spec q0 x2); [reflexivity|lra]. }
    destruct (Rlt_dec q x2) as [K|K].
    + exists sl. split; [exact H2|]. intros q' Hq'. rewrite (Ef q) by lra. destruct (Rlt_dec q' x2) as [K'|K'].
      * rewrite (Ef q') by lra. lra.
      * rewrite (Er q') by lra. destruct (IH x2 y2 sl x2 H3) as (m & Hm & Hs); [fold L; lra|].
        specialize (Hs q' ltac:(fold L; lra)). rewrite Eh in Hs. nra.
    + destruct (IH x2 y2 sl q H3) as (m & Hm & Hs); [fold L; lra|]. exists m. split; [lra|]. intros q' Hq'.
      rewrite (Er q) by lra. destruct (Rlt_dec q' x2) as [K'|K'].
      * rewrite (Ef q') by lra. specialize (Hs x2 ltac:(fold L; lra)). rewrite Eh in Hs.
        assert (m * (q' - x2) <= sl * (q' - x2)) by nra. nra.
      * rewrite (Er q') by lra. apply Hs. fold L; lra.
Qed.

Lemma conv_range_head x1 y1 rest s : conv s ((x1, y1) :: rest) -> forall p, In p ((x1, y1) :: rest) -> x1 <= fst p.
Proof.
  revert x1 y1 s. induction rest as [|[x2 y2] rest IH]; intros x1 y1 s H p [<-|Hp]; simpl; try lra; [simpl in Hp; tauto|].
  destruct H as (H1 & _ & H3). specialize (IH x2 y2 _ H3 p Hp). lra.
Qed.

Lemma interp_convex x1 y1 rest s a b c : conv s ((x1, y1) :: rest) -> x1 <= a -> a < b -> b < c -> c <= lastx ((x1, y1) :: rest) ->
  let f := interp ((x1, y1) :: rest) in (f b - f a) * (c - a) <= (f c - f a) * (b - a).
Proof.
  intros H Ha Hab Hbc Hc f. destruct (support rest x1 y1 s b H) as (m & _ & Hs); [lra|].
  pose proof (Hs a ltac:(lra)) as A. pose proof (Hs c ltac:(lra)) as C. fold f in A, C.
  assert (A' : (c - b) * (f b + m * (a - b)) <= (c - b) * f a) by (apply Rmult_le_compat_l; lra).
  assert (C' : (b - a) * (f b + m * (c - b)) <= (b - a) * f c) by (apply Rmult_le_compat_l; lra). lra.
Qed.
