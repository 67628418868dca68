(** Square linear systems: an injective matrix is invertible (Gaussian elimination), so an ideal
    [np.linalg.solve] exists. *)
From Coq Require Import Psatz ClassicalEpsilon.
From Verif Require Import RBase QpBase.
From Verif Require MomSpec.
Open Scope R_scope.

Definition injective_m (n : nat) (A : mat) : Prop :=
  forall x, (forall i, (i < n)%nat -> mv n A x i = 0) -> forall i, (i < n)%nat -> x i = 0.

Lemma mv_ext_l n A B x y i : (forall j, (j < n)%nat -> A i j = B i j) -> (forall j, (j < n)%nat -> x j = y j) -> mv n A x i = mv n B y i.
Proof. intros. unfold mv. apply dot_ext; auto. Qed.

Definition snoc (n : nat) (x : vec) (c : R) : vec := fun i => if (i =? n)%nat then c else x i.

Lemma mv_snoc n A x c i : mv (S n) A (snoc n x c) i = mv n A x i + A i n * c.
Proof.
  unfold mv, dot. simpl. f_equal.
  - apply sumn_ext. intros j Hj. unfold snoc. destruct (Nat.eqb_spec j n); [lia|reflexivity].
  - unfold snoc. rewrite Nat.eqb_refl. reflexivity.
Qed.

Lemma injective_solves n : forall A, injective_m n A -> forall b, exists x, forall i, (i < n)%nat -> mv n A x i = b i.
Proof.
  induction n as [|n IH]; intros A HA b; [exists (fun _ => 0); intros; lia|].
  assert (Hp : exists p, (p < S n)%nat /\ A p n <> 0).
  { destruct (excluded_middle_informative (exists p, (p < S n)%nat /\ A p n <> 0)) as [|N]; auto. exfalso.
    assert (E : snoc n (fun _ => 0) 1 n = 0).
    { apply HA; [|lia]. intros i Hi. rewrite mv_snoc. destruct (Req_dec (A i n) 0) as [->|]; [|exfalso; eauto].
      unfold mv, dot. rewrite sumn_0; [ring|]. intros; ring. }
    unfold snoc in E. rewrite Nat.eqb_refl in E. lra. }
  destruct Hp as (p & Hp & Hpn).
  (* rows with [p] and [n] exchanged *)
  set (sw := fun i => if (i =? p)%nat then n else if (i =? n)%nat then p else i).
  assert (swsw : forall i, sw (sw i) = i).
  { intros i. unfold sw. destruct (Nat.eqb_spec i p) as [->|].
    - destruct (Nat.eqb_spec n p); [congruence|]. rewrite Nat.eqb_refl. reflexivity.
    - destruct (Nat.eqb_spec i n) as [->|]; [rewrite Nat.eqb_refl; reflexivity|]. destruct (Nat.eqb_spec i p); [lia|]. destruct (Nat.eqb_spec i n); [lia|reflexivity]. }
  assert (swlt : forall i, (i < S n)%nat -> (sw i < S n)%nat).
  { intros i Hi. unfold sw. destruct (i =? p)%nat; [lia|]. destruct (i =? n)%nat; lia. }
  set (B := fun i j => A (sw i) j).
  assert (Bnn : B n n <> 0).
  { unfold B, sw. destruct (Nat.eqb_spec n p) as [->|]; [exact Hpn|]. rewrite Nat.eqb_refl. exact Hpn. }
  set (C := fun i j => B i j - B i n / B n n * B n j).
  assert (HC : forall x i, mv n C x i = mv n B x i - B i n / B n n * mv n B x n).
  { intros x i. unfold mv, dot, C. rewrite <- sumn_scale, <- sumn_minus. apply sumn_ext. intros; ring. }
  assert (IC : injective_m n C).
  { intros x Hx i Hi. set (c := - mv n B x n / B n n).
    assert (E : snoc n x c i = 0).
    { apply HA; [|lia]. intros q Hq. rewrite <- (swsw q). change (mv (S n) B (snoc n x c) (sw q) = 0). rewrite mv_snoc.
      pose proof (swlt q Hq) as Hs. destruct (Nat.eq_dec (sw q) n) as [->|Hne]; [unfold c; field; auto|].
      assert (Hs' : (sw q < n)%nat) by lia. specialize (Hx _ Hs'). rewrite HC in Hx. unfold c. replace (mv n B x (sw q)) with (B (sw q) n / B n n * mv n B x n) by lra. field. auto. }
    unfold snoc in E. destruct (Nat.eqb_spec i n); [lia|exact E]. }
  destruct (IH C IC (fun i => b (sw i) - B i n / B n n * b (sw n))) as [y Hy].
  set (c := (b (sw n) - mv n B y n) / B n n). exists (snoc n y c). intros q Hq. rewrite <- (swsw q) at 1. change (mv (S n) B (snoc n y c) (sw q) = b q). rewrite mv_snoc.
  pose proof (swlt q Hq) as Hs. rewrite <- (swsw q) at 3. destruct (Nat.eq_dec (sw q) n) as [->|Hne]; [unfold c; field; auto|].
  assert (Hs' : (sw q < n)%nat) by lia. specialize (Hy _ Hs'). rewrite HC in Hy. unfold c. replace (mv n B y (sw q)) with (b (sw (sw q)) - B (sw q) n / B n n * b (sw n) + B (sw q) n / B n n * mv n B y n) by lra. field. auto.
Qed.

(** The inverse of an injective matrix. *)
Lemma injective_inverse n A : injective_m n A -> exists B, MomSpec.is_inverse n A B.
Proof.
  intros HA. assert (H : forall j, exists x, forall i, (i < n)%nat -> mv n A x i = delta i j) by (intros j; apply injective_solves; auto).
  destruct (choice (fun j x => forall i, (i < n)%nat -> mv n A x i = delta i j) H) as [f Hf].
  exists (fun i j => f j i). intros i j Hi Hj.
  assert (R1 : forall i j, (i < n)%nat -> MomSpec.mmul n A (fun i j => f j i) i j = delta i j) by (intros a b Ha; exact (Hf b a Ha)).
  split; [apply R1; auto|].
  (* the left inverse: [A (B A - I) = 0] *)
  assert (E : (fun i => MomSpec.mmul n (fun i j => f j i) A i j - delta i j) i = 0).
  { apply (HA (fun i => MomSpec.mmul n (fun i j => f j i) A i j - delta i j)); auto. intros p Hp. unfold mv. rewrite dot_minus_r.
    rewrite (dot_comm n (A p) (fun i => delta i j)).
    assert (E1 : dot n (A p) (fun i => MomSpec.mmul n (fun i j => f j i) A i j) = A p j).
    { unfold dot, MomSpec.mmul. rewrite (sumn_ext n _ (fun i => sumn n (fun k => A p i * f k i * A k j))) by (intros; rewrite <- sumn_scale; apply sumn_ext; intros; ring).
      rewrite sumn_swap. rewrite (sumn_ext n (fun k => sumn n (fun i => A p i * f k i * A k j)) (fun k => delta p k * A k j)).
      - apply (sumn_delta_r n p (fun k => A k j)); auto.
      - intros k Hk. rewrite sumn_scale_r. f_equal. exact (Hf k p Hp). }
    rewrite E1. unfold dot. rewrite (sumn_delta n j (fun i => A p i)) by auto. ring. }
  cbv beta in E. lra.
Qed.

(** The ideal solver: solves whenever a solution exists. *)
Definition best_solve (k : nat) (A : mat) (m : nat) (B : mat) : option mat :=
  match excluded_middle_informative (exists X : mat, forall a j, (a < k)%nat -> (j < m)%nat -> mv k A (fun b => X b j) a = B a j) with
  | left H => Some (proj1_sig (constructive_indefinite_description _ H))
  | right _ => None
  end.

Lemma best_solve_exact' k A m B X : best_solve k A m B = Some X -> forall a j, (a < k)%nat -> (j < m)%nat -> mv k A (fun b => X b j) a = B a j.
Proof.
  unfold best_solve. destruct (excluded_middle_informative _) as [H|]; [|discriminate]. intros E. injection E as <-. exact (proj2_sig (constructive_indefinite_description _ H)).
Qed.

Lemma best_solve_complete' k A m B : injective_m k A -> best_solve k A m B <> None.
Proof.
  intros HA. unfold best_solve. destruct (excluded_middle_informative _) as [H|N]; [discriminate|]. exfalso. apply N.
  destruct (choice (fun j (x : vec) => forall i, (i < k)%nat -> mv k A x i = B i j)) as [f Hf]; [intros j; apply injective_solves; auto|].
  exists (fun b j => f j b). intros a j Ha _. exact (Hf j a Ha).
Qed.
