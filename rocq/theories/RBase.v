(** Real-number helpers shared by the R models: list sums, indexed sums. *)
From Coq Require Export List Arith ZArith Lia Bool Reals Lra Psatz.
From Coq Require Export Permutation Sorted.
From Verif Require Export Err.
Export ListNotations.
Open Scope R_scope.

Definition rsum (l : list R) : R := fold_right Rplus 0 l.

Fixpoint map2 {A B C} (f : A -> B -> C) (l : list A) (m : list B) : list C :=
  match l, m with
  | x :: xs, y :: ys => f x y :: map2 f xs ys
  | _, _ => []
  end.

Definition rdot (u v : list R) : R := rsum (map2 Rmult u v).

(** Decidable comparisons as booleans (classical reals). *)
Definition Rleb (a b : R) : bool := if Rle_dec a b then true else false.
Definition Rltb (a b : R) : bool := if Rlt_dec a b then true else false.
Definition Reqb (a b : R) : bool := if Req_EM_T a b then true else false.

Lemma Rleb_true a b : Rleb a b = true <-> a <= b.
Proof. unfold Rleb; destruct (Rle_dec a b); split; auto; discriminate. Qed.
Lemma Rleb_false a b : Rleb a b = false <-> b < a.
Proof. unfold Rleb; destruct (Rle_dec a b); split; intros; auto; try discriminate; lra. Qed.
Lemma Rltb_true a b : Rltb a b = true <-> a < b.
Proof. unfold Rltb; destruct (Rlt_dec a b); split; auto; discriminate. Qed.
Lemma Rltb_false a b : Rltb a b = false <-> b <= a.
Proof. unfold Rltb; destruct (Rlt_dec a b); split; intros; auto; try discriminate; lra. Qed.
Lemma Reqb_true a b : Reqb a b = true <-> a = b.
Proof. unfold Reqb; destruct (Req_EM_T a b); split; auto; discriminate. Qed.
Lemma Reqb_false a b : Reqb a b = false <-> a <> b.
Proof. unfold Reqb; destruct (Req_EM_T a b); split; intros; auto; try discriminate; congruence. Qed.
Lemma Rleb_spec a b : reflect (a <= b) (Rleb a b).
Proof. unfold Rleb; destruct (Rle_dec a b); constructor; auto. Qed.
Lemma Rltb_spec a b : reflect (a < b) (Rltb a b).
Proof. unfold Rltb; destruct (Rlt_dec a b); constructor; auto. Qed.
Lemma Reqb_spec a b : reflect (a = b) (Reqb a b).
Proof. unfold Reqb; destruct (Req_EM_T a b); constructor; auto. Qed.

(** numpy's isclose with default tolerances. *)
Definition risclose (a b : R) : bool :=
  Rleb (Rabs (a - b)) (1 / 100000000 + 1 / 100000 * Rabs b).

(** * List sums *)
Lemma rsum_cons x l : rsum (x :: l) = x + rsum l.
Proof. reflexivity. Qed.

Lemma rsum_app l m : rsum (l ++ m) = rsum l + rsum m.
Proof. induction l as [|x xs IH]; simpl; [lra|]. rewrite IH; lra. Qed.

Lemma rsum_perm l m : Permutation l m -> rsum l = rsum m.
Proof. induction 1; simpl; lra. Qed.

Lemma rsum_scale {A} k (f : A -> R) l : rsum (map (fun x => k * f x) l) = k * rsum (map f l).
Proof. induction l as [|x xs IH]; simpl; [lra|]. rewrite IH; lra. Qed.

Lemma rsum_scale_r {A} k (f : A -> R) l : rsum (map (fun x => f x * k) l) = rsum (map f l) * k.
Proof. induction l as [|x xs IH]; simpl; [lra|]. rewrite IH; lra. Qed.

Lemma rsum_div {A} k (f : A -> R) l : rsum (map (fun x => f x / k) l) = rsum (map f l) / k.
Proof. unfold Rdiv. apply rsum_scale_r. Qed.

Lemma rsum_plus {A} (f g : A -> R) l :
  rsum (map (fun x => f x + g x) l) = rsum (map f l) + rsum (map g l).
Proof. induction l as [|x xs IH]; simpl; [lra|]. rewrite IH; lra. Qed.

Lemma rsum_minus {A} (f g : A -> R) l :
  rsum (map (fun x => f x - g x) l) = rsum (map f l) - rsum (map g l).
Proof. induction l as [|x xs IH]; simpl; [lra|]. rewrite IH; lra. Qed.

Lemma rsum_const {A} k (l : list A) : rsum (map (fun _ => k) l) = INR (length l) * k.
Proof.
  induction l as [|x xs IH]; [simpl; lra|].
  cbn [map rsum fold_right length]. rewrite S_INR. unfold rsum in IH. rewrite IH. lra.
Qed.

Lemma rsum_ext {A} (f g : A -> R) l : (forall x, In x l -> f x = g x) ->
  rsum (map f l) = rsum (map g l).
Proof. intros H. rewrite (map_ext_in f g l H). reflexivity. Qed.

Lemma rsum_le {A} (f g : A -> R) l : (forall x, In x l -> f x <= g x) ->
  rsum (map f l) <= rsum (map g l).
Proof.
  induction l as [|x xs IH]; simpl; intros H; [lra|].
  assert (f x <= g x) by auto. assert (rsum (map f xs) <= rsum (map g xs)) by auto. lra.
Qed.

Lemma rsum_lt {A} (f g : A -> R) l : (forall x, In x l -> f x <= g x) ->
  (exists x, In x l /\ f x < g x) -> rsum (map f l) < rsum (map g l).
Proof.
  induction l as [|x xs IH]; simpl; intros H (y & Hy & Hlt); [tauto|].
  assert (rsum (map f xs) <= rsum (map g xs)) by (apply rsum_le; auto).
  destruct Hy as [<-|Hy]; [lra|].
  assert (f x <= g x) by auto.
  assert (rsum (map f xs) < rsum (map g xs)) by (apply IH; eauto). lra.
Qed.

Lemma rsum_nonneg l : (forall x, In x l -> 0 <= x) -> 0 <= rsum l.
Proof.
  intros H. replace 0 with (rsum (map (fun _ => 0) l)) by (rewrite rsum_const; lra).
  rewrite <- (map_id l) at 2. apply rsum_le; auto.
Qed.

Lemma rsum_pos l : l <> [] -> (forall x, In x l -> 0 < x) -> 0 < rsum l.
Proof.
  destruct l as [|x xs]; intros Hne H; [congruence|]. simpl.
  assert (0 < x) by (apply H; simpl; auto).
  assert (0 <= rsum xs) by (apply rsum_nonneg; intros; apply Rlt_le, H; simpl; auto). lra.
Qed.

Lemma rsum_nonneg_zero l : (forall x, In x l -> 0 <= x) -> rsum l = 0 ->
  forall x, In x l -> x = 0.
Proof.
  induction l as [|y ys IH]; simpl; intros H Hs x Hx; [tauto|].
  assert (0 <= y) by auto. assert (0 <= rsum ys) by (apply rsum_nonneg; auto).
  destruct Hx as [<-|Hx]; [lra|]. apply IH; auto. lra.
Qed.

Lemma rsum_ge_elem l x : (forall y, In y l -> 0 <= y) -> In x l -> x <= rsum l.
Proof.
  induction l as [|y ys IH]; simpl; intros H Hx; [tauto|].
  assert (0 <= y) by auto. assert (0 <= rsum ys) by (apply rsum_nonneg; auto).
  destruct Hx as [<-|Hx]; [lra|]. assert (x <= rsum ys) by (apply IH; auto). lra.
Qed.

(** * Indexed sums, for vectors and matrices given by their entries *)
Fixpoint sumn (n : nat) (f : nat -> R) : R :=
  match n with O => 0 | S m => sumn m f + f m end.

Lemma sumn_ext n f g : (forall i, (i < n)%nat -> f i = g i) -> sumn n f = sumn n g.
Proof. induction n as [|n IH]; simpl; intros H; [reflexivity|]. rewrite IH, H by auto with arith. reflexivity. Qed.

Lemma sumn_plus n f g : sumn n (fun i => f i + g i) = sumn n f + sumn n g.
Proof. induction n as [|n IH]; simpl; [lra|]. rewrite IH; lra. Qed.

Lemma sumn_minus n f g : sumn n (fun i => f i - g i) = sumn n f - sumn n g.
Proof. induction n as [|n IH]; simpl; [lra|]. rewrite IH; lra. Qed.

Lemma sumn_opp n f : sumn n (fun i => - f i) = - sumn n f.
Proof. induction n as [|n IH]; simpl; [lra|]. rewrite IH; lra. Qed.

Lemma sumn_scale n k f : sumn n (fun i => k * f i) = k * sumn n f.
Proof. induction n as [|n IH]; simpl; [lra|]. rewrite IH; lra. Qed.

Lemma sumn_scale_r n k f : sumn n (fun i => f i * k) = sumn n f * k.
Proof. induction n as [|n IH]; simpl; [lra|]. rewrite IH; lra. Qed.

Lemma sumn_div n k f : sumn n (fun i => f i / k) = sumn n f / k.
Proof. apply sumn_scale_r. Qed.

Lemma sumn_zero n : sumn n (fun _ => 0) = 0.
Proof. induction n as [|n IH]; simpl; [lra|]. rewrite IH; lra. Qed.

Lemma sumn_0 n f : (forall i, (i < n)%nat -> f i = 0) -> sumn n f = 0.
Proof. intros H. rewrite (sumn_ext n f (fun _ => 0) H). apply sumn_zero. Qed.

Lemma sumn_const n k : sumn n (fun _ => k) = INR n * k.
Proof. induction n as [|n IH]; [simpl; lra|]. cbn [sumn]. rewrite IH, S_INR. lra. Qed.

Lemma sumn_le n f g : (forall i, (i < n)%nat -> f i <= g i) -> sumn n f <= sumn n g.
Proof.
  induction n as [|n IH]; simpl; intros H; [lra|].
  assert (sumn n f <= sumn n g) by (apply IH; auto with arith).
  assert (f n <= g n) by auto with arith. lra.
Qed.

Lemma sumn_nonneg n f : (forall i, (i < n)%nat -> 0 <= f i) -> 0 <= sumn n f.
Proof. intros H. rewrite <- (sumn_zero n). apply sumn_le; auto. Qed.

Lemma sumn_swap n m (f : nat -> nat -> R) :
  sumn n (fun i => sumn m (fun j => f i j)) = sumn m (fun j => sumn n (fun i => f i j)).
Proof.
  induction n as [|n IH]; simpl.
  - symmetry. apply sumn_zero.
  - rewrite IH, sumn_plus. reflexivity.
Qed.

Lemma sumn_nonneg_zero n f : (forall i, (i < n)%nat -> 0 <= f i) -> sumn n f = 0 ->
  forall i, (i < n)%nat -> f i = 0.
Proof.
  induction n as [|n IH]; simpl; intros H Hs i Hi; [lia|].
  assert (0 <= sumn n f) by (apply sumn_nonneg; auto with arith).
  assert (0 <= f n) by auto with arith.
  destruct (Nat.eq_dec i n) as [->|]; [lra|]. apply IH; auto with arith; [lra|lia].
Qed.

(** Picking out one index. *)
Definition delta (i j : nat) : R := if Nat.eqb i j then 1 else 0.

Lemma sumn_delta n k f : (k < n)%nat -> sumn n (fun i => delta i k * f i) = f k.
Proof.
  induction n as [|n IH]; simpl; intros Hk; [lia|].
  unfold delta at 2. destruct (Nat.eqb_spec n k) as [->|Hne].
  - rewrite (sumn_0 k); [lra|]. intros i Hi. unfold delta.
    destruct (Nat.eqb_spec i k); [lia|lra].
  - rewrite IH by lia. lra.
Qed.

Lemma sumn_delta_r n k f : (k < n)%nat -> sumn n (fun i => delta k i * f i) = f k.
Proof.
  intros H. rewrite <- (sumn_delta n k f H). apply sumn_ext. intros i _.
  unfold delta. rewrite Nat.eqb_sym. reflexivity.
Qed.

(** * The basic logarithm inequality *)
Lemma ln_le_sub1 x : 0 < x -> ln x <= x - 1.
Proof.
  intros Hx. destruct (Req_dec x 1) as [->|Hne]; [rewrite ln_1; lra|].
  assert (Hl : ln x <> 0).
  { intros H. apply Hne. rewrite <- (exp_ln x Hx), H, exp_0. reflexivity. }
  pose proof (exp_ineq1 (ln x) Hl) as H. rewrite exp_ln in H by exact Hx. lra.
Qed.

Lemma ln_lt_sub1 x : 0 < x -> x <> 1 -> ln x < x - 1.
Proof.
  intros Hx Hne.
  assert (Hl : ln x <> 0).
  { intros H. apply Hne. rewrite <- (exp_ln x Hx), H, exp_0. reflexivity. }
  pose proof (exp_ineq1 (ln x) Hl) as H. rewrite exp_ln in H by exact Hx. lra.
Qed.

(** * Lists as indexed families *)
Lemma sumn_shift n f : sumn (S n) f = f 0%nat + sumn n (fun i => f (S i)).
Proof.
  induction n as [|n IH]; [simpl; lra|]. change (sumn (S (S n)) f) with (sumn (S n) f + f (S n)).
  rewrite IH. cbn [sumn]. lra.
Qed.

Lemma rsum_sumn l : rsum l = sumn (length l) (fun i => nth i l 0).
Proof.
  induction l as [|x xs IH]; [reflexivity|].
  cbn [length]. rewrite sumn_shift. cbn [nth]. rewrite <- IH. reflexivity.
Qed.

Lemma rdot_sumn u v n : length u = n -> length v = n ->
  rdot u v = sumn n (fun i => nth i u 0 * nth i v 0).
Proof.
  revert v n; induction u as [|a u IH]; destruct v as [|b v]; intros n Hu Hv; simpl in *; subst n;
    try discriminate; [reflexivity|].
  rewrite sumn_shift. cbn [nth]. rewrite <- (IH v (length u)) by lia. reflexivity.
Qed.

Lemma rsum_map2_sumn {A B} (f : A -> B -> R) l m da db n : length l = n -> length m = n ->
  rsum (map2 f l m) = sumn n (fun i => f (nth i l da) (nth i m db)).
Proof.
  revert m n; induction l as [|a u IH]; destruct m as [|b v]; intros n Hu Hv; simpl in *; subst n;
    try discriminate; [reflexivity|].
  rewrite sumn_shift. cbn [nth]. rewrite <- (IH v (length u)) by lia. reflexivity.
Qed.

Lemma rsum_seq f n k : rsum (map f (seq k n)) = sumn n (fun i => f (k + i)%nat).
Proof.
  revert k. induction n as [|n IH]; intros k; [reflexivity|].
  rewrite sumn_shift. cbn [seq map]. transitivity (f k + rsum (map f (seq (S k) n))); [reflexivity|].
  rewrite IH, Nat.add_0_r. f_equal. apply sumn_ext. intros i _. f_equal. lia.
Qed.

Lemma nth_map_lt {A B} (f : A -> B) l i da db : (i < length l)%nat -> nth i (map f l) db = f (nth i l da).
Proof.
  intros H. rewrite (nth_indep _ db (f da)) by (rewrite map_length; exact H). apply map_nth.
Qed.

Lemma nth_map_seq {B} (f : nat -> B) n i d : (i < n)%nat -> nth i (map f (seq 0 n)) d = f i.
Proof.
  intros H. rewrite (nth_map_lt f _ i 0%nat) by (rewrite seq_length; exact H). rewrite seq_nth by exact H. reflexivity.
Qed.
