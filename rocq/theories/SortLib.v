(** [numpy.argsort] as any function returning a sorting permutation, and a concrete one. *)
From Coq Require Import List Arith Lia Permutation Sorted.
Import ListNotations.

Section Sort.
Context {A : Type}.

(** The elements of [l] in the order [o]. *)
Definition take (d : A) (l : list A) (o : list nat) : list A := map (fun i => nth i l d) o.

(** [o] is an ordering of [l]: a permutation of its indices along which [l] never decreases. *)
Definition is_argsort (le : A -> A -> Prop) (d : A) (l : list A) (o : list nat) : Prop :=
  Permutation o (seq 0 (length l)) /\ StronglySorted le (take d l o).

(** [f] behaves like argsort, whatever it does with ties. *)
Definition sorts (le : A -> A -> Prop) (d : A) (f : list A -> list nat) : Prop :=
  forall l, is_argsort le d l (f l).

Lemma take_seq d l : take d l (seq 0 (length l)) = l.
Proof.
  unfold take. induction l as [|x xs IH]; [reflexivity|].
  cbn [length seq map nth]. f_equal. rewrite <- seq_shift, map_map. exact IH.
Qed.

Lemma take_perm d l o : Permutation o (seq 0 (length l)) -> Permutation (take d l o) l.
Proof.
  intros H. rewrite <- (take_seq d l) at 2. apply Permutation_map. exact H.
Qed.

Lemma take_length d l o : length (take d l o) = length o.
Proof. apply map_length. Qed.

Lemma argsort_length le d l o : is_argsort le d l o -> length o = length l.
Proof. intros [H _]. apply Permutation_length in H. rewrite seq_length in H. exact H. Qed.

Lemma argsort_in le d l o i : is_argsort le d l o -> In i o -> i < length l.
Proof.
  intros [H _] Hi. apply (Permutation_in _ H) in Hi. apply in_seq in Hi. lia.
Qed.

(** A concrete argsort: insertion sort of the indices. *)
Section Concrete.
Variable leb : A -> A -> bool.
Variable d : A.
Variable l : list A.

Fixpoint ins (i : nat) (o : list nat) : list nat :=
  match o with
  | [] => [i]
  | j :: o' => if leb (nth i l d) (nth j l d) then i :: j :: o' else j :: ins i o'
  end.

Fixpoint isort (o : list nat) : list nat :=
  match o with [] => [] | i :: o' => ins i (isort o') end.

Lemma ins_perm i o : Permutation (ins i o) (i :: o).
Proof.
  induction o as [|j o IH]; simpl; [auto|]. destruct leb; [auto|].
  rewrite IH. apply perm_swap.
Qed.

Lemma isort_perm o : Permutation (isort o) o.
Proof. induction o as [|i o IH]; simpl; [auto|]. rewrite ins_perm. auto. Qed.

Variable le : A -> A -> Prop.
Hypothesis leb_le : forall x y, leb x y = true -> le x y.
Hypothesis leb_total : forall x y, leb x y = false -> le y x.
Hypothesis le_trans : forall x y z, le x y -> le y z -> le x z.

Lemma ins_sorted i o : StronglySorted le (take d l o) -> StronglySorted le (take d l (ins i o)).
Proof.
  induction o as [|j o IH]; simpl; intros H.
  - constructor; constructor.
  - inversion H as [|? ? Hs Hf]; subst. destruct (leb (nth i l d) (nth j l d)) eqn:E.
    + simpl. constructor; [exact H|]. constructor; [auto|].
      eapply Forall_impl; [|exact Hf]. intros a Ha. eapply le_trans; [|exact Ha]. auto.
    + simpl. constructor; [apply IH; exact Hs|].
      apply Forall_forall. intros a Ha. unfold take in Ha. apply in_map_iff in Ha as (k & <- & Hk).
      apply (Permutation_in _ (ins_perm i o)) in Hk. destruct Hk as [<-|Hk]; [auto|].
      rewrite Forall_forall in Hf. apply Hf. unfold take. apply in_map_iff. eauto.
Qed.

Lemma isort_sorted o : StronglySorted le (take d l (isort o)).
Proof. induction o as [|i o IH]; simpl; [constructor|]. apply ins_sorted. exact IH. Qed.

Lemma isort_argsort : is_argsort le d l (isort (seq 0 (length l))).
Proof. split; [apply isort_perm|apply isort_sorted]. Qed.
End Concrete.

Definition argsort_by (leb : A -> A -> bool) (d : A) (l : list A) : list nat :=
  isort leb d l (seq 0 (length l)).
End Sort.
