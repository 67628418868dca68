(** Exceptions as values: the outcome of a Python call. *)
From Coq Require Import List.
Import ListNotations.

(** The Python exception classes the modelled code raises. *)
Inductive pyerr : Set :=
| ValueError | TypeError | KeyError | IndexError | RuntimeError
| InfeasibleError | LinAlgError | ZeroDivisionError | ImportError | NameError | AttributeError.

(** Result of a call: a value or a raised exception. *)
Inductive res (A : Type) : Type :=
| Ok (a : A)
| Err (e : pyerr).
Arguments Ok {A} a.
Arguments Err {A} e.

Definition bind {A B} (x : res A) (f : A -> res B) : res B :=
  match x with Ok a => f a | Err e => Err e end.

Notation "'let*' x ':=' m 'in' k" := (bind m (fun x => k))
  (at level 200, x pattern, m at level 100, k at level 200, right associativity).

(** [guard b e k]: Python's [if not b: raise e]. *)
Definition guard {A} (b : bool) (e : pyerr) (k : res A) : res A :=
  if b then k else Err e.

Definition is_ok {A} (x : res A) : bool := match x with Ok _ => true | Err _ => false end.

Fixpoint mapM {A B} (f : A -> res B) (l : list A) : res (list B) :=
  match l with
  | [] => Ok []
  | x :: xs => bind (f x) (fun y => bind (mapM f xs) (fun ys => Ok (y :: ys)))
  end.

Lemma bind_ok {A B} (x : res A) (f : A -> res B) b :
  bind x f = Ok b -> exists a, x = Ok a /\ f a = Ok b.
Proof. destruct x as [a|e]; simpl; [eauto|discriminate]. Qed.

Lemma guard_ok {A} c e (k : res A) a : guard c e k = Ok a -> c = true /\ k = Ok a.
Proof. destruct c; simpl; [auto|discriminate]. Qed.

Lemma mapM_ok_forall2 {A B} (f : A -> res B) l out :
  mapM f l = Ok out -> Forall2 (fun x y => f x = Ok y) l out.
Proof.
  revert out; induction l as [|x xs IH]; simpl; intros out H.
  - injection H as <-; constructor.
  - apply bind_ok in H as (y & Hy & H). apply bind_ok in H as (ys & Hys & H).
    injection H as <-. constructor; auto.
Qed.
