(** Exact rational arithmetic helpers shared by the Q models. *)
From Coq Require Export List Arith ZArith QArith Qabs Qround Lia Lqa Bool.
From Coq Require Export Permutation Sorted.
From Verif Require Export Err.
Export ListNotations.
Open Scope Q_scope.

Definition qsum (l : list Q) : Q := fold_right Qplus 0 l.

Fixpoint map2 {A B C} (f : A -> B -> C) (l : list A) (m : list B) : list C :=
  match l, m with
  | x :: xs, y :: ys => f x y :: map2 f xs ys
  | _, _ => []
  end.

Definition qdot (u v : list Q) : Q := qsum (map2 Qmult u v).

(** numpy's [isclose(a,b)] with default [rtol=1e-5], [atol=1e-8]:
    [|a-b| <= atol + rtol*|b|]. *)
Definition q_rtol : Q := 1 # 100000.
Definition q_atol : Q := 1 # 100000000.
Definition isclose (a b : Q) : bool := Qle_bool (Qabs (a - b)) (q_atol + q_rtol * Qabs b).

Definition Qlt_bool (a b : Q) : bool := negb (Qle_bool b a).

Lemma Qlt_bool_iff a b : Qlt_bool a b = true <-> a < b.
Proof.
  unfold Qlt_bool. rewrite negb_true_iff. split; intros H.
  - apply Qnot_le_lt. intros Hc. apply Qle_bool_iff in Hc. congruence.
  - apply not_true_is_false. intros Hc. apply Qle_bool_iff in Hc. lra.
Qed.

Lemma Qle_bool_false a b : Qle_bool a b = false <-> b < a.
Proof.
  split; intros H.
  - apply Qnot_le_lt. intros Hc. apply Qle_bool_iff in Hc. congruence.
  - apply not_true_is_false. intros Hc. apply Qle_bool_iff in Hc. lra.
Qed.

Lemma Qlt_bool_false a b : Qlt_bool a b = false <-> b <= a.
Proof.
  unfold Qlt_bool. rewrite negb_false_iff. apply Qle_bool_iff.
Qed.

Lemma qsum_cons x l : qsum (x :: l) = x + qsum l.
Proof. reflexivity. Qed.

Lemma qsum_app l m : qsum (l ++ m) == qsum l + qsum m.
Proof. induction l as [|x xs IH]; simpl; [lra|]. rewrite IH. lra. Qed.

Lemma qsum_perm l m : Permutation l m -> qsum l == qsum m.
Proof. induction 1; simpl; lra. Qed.

Lemma qsum_scale k l : qsum (map (fun x => x * k) l) == qsum l * k.
Proof. induction l as [|x xs IH]; simpl; [lra|]. rewrite IH. lra. Qed.

Lemma qsum_scale_l k l : qsum (map (fun x => k * x) l) == k * qsum l.
Proof. induction l as [|x xs IH]; simpl; [lra|]. rewrite IH. lra. Qed.

Lemma qsum_nonneg l : Forall (fun x => 0 <= x) l -> 0 <= qsum l.
Proof. induction 1; simpl; lra. Qed.

Lemma qsum_ext {A} (f g : A -> Q) l : (forall x, In x l -> f x == g x) ->
  qsum (map f l) == qsum (map g l).
Proof.
  induction l as [|x xs IH]; simpl; intros H; [lra|].
  rewrite IH by auto. rewrite (H x) by auto. lra.
Qed.

Lemma qsum_le {A} (f g : A -> Q) l : (forall x, In x l -> f x <= g x) ->
  qsum (map f l) <= qsum (map g l).
Proof.
  induction l as [|x xs IH]; simpl; intros H; [lra|].
  assert (f x <= g x) by auto. assert (qsum (map f xs) <= qsum (map g xs)) by auto. lra.
Qed.

Lemma qsum_plus {A} (f g : A -> Q) l :
  qsum (map (fun x => f x + g x) l) == qsum (map f l) + qsum (map g l).
Proof. induction l as [|x xs IH]; simpl; [lra|]. rewrite IH. lra. Qed.

Lemma map2_length {A B C} (f : A -> B -> C) l m :
  length (map2 f l m) = Nat.min (length l) (length m).
Proof. revert m; induction l as [|x xs IH]; destruct m; simpl; auto. Qed.

Lemma Forall2_qsum l m : Forall2 Qeq l m -> qsum l == qsum m.
Proof. induction 1; simpl; lra. Qed.
