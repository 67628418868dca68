(** What the convexity correction does to the reported risks. *)
From Coq Require Import String.
From Verif Require Import RBase SortLib FrModel FrSpec FrProofs FrProofs2 FrProofs3.
Open Scope R_scope.

Definition asc (l : list nat) : Prop := StronglySorted lt l.

Lemma SS_app {A} (Rel : A -> A -> Prop) l a : StronglySorted Rel l -> Forall (fun b => Rel b a) l -> StronglySorted Rel (l ++ [a])%list.
Proof.
  induction 1 as [|b l H IH F]; intros G; simpl; [constructor; constructor|]. inversion G; subst. constructor; [auto|].
  apply Forall_app. split; [exact F|]. constructor; [assumption|constructor].
Qed.
Lemma desc_rev l : desc l -> asc (rev l).
Proof.
  induction 1 as [|a l H IH F]; simpl; [constructor|]. apply SS_app; [exact IH|].
  apply Forall_forall. intros b Hb. rewrite <- in_rev in Hb. rewrite Forall_forall in F. auto.
Qed.

Lemma asc_segment l : forall a j, asc (a :: l) -> l <> [] -> (a <= j <= last l 0)%nat ->
  exists pre p q post, (a :: l) = (pre ++ p :: q :: post)%list /\ (p <= j <= q)%nat.
Proof.
  induction l as [|b l IH]; intros a j H Hne Hj; [congruence|]. destruct (le_lt_dec j b) as [K|K].
  - exists [], a, b, l. split; [reflexivity|lia].
  - inversion H as [|? ? H1 _]; subst. destruct l as [|c l].
    + simpl in Hj. lia.
    + destruct (IH b j H1) as (pre & p & q & post & E & Hpq); [discriminate|split; [lia|apply Hj]|].
      exists (a :: pre), p, q, post. rewrite E. split; [reflexivity|exact Hpq].
Qed.

Lemma last_map_x x y l : forall a d, lastx (map (fun i : nat => (x i, y i)) (a :: l)) = x (last (a :: l) d).
Proof. induction l as [|b l IH]; intros a d; [reflexivity|]. exact (IH b d). Qed.

Section Enforce.
Variables (ret raw : list R).
Let n := List.length ret.
Hypothesis Hlen : List.length raw = n.
Let x := fun i => nth i ret 0.
Let rm := cummax raw.
Let y := fun i => nth i rm 0.
Let keep := envelope env_eps x y n.
Let pts := map (fun i => (x i, y i)) keep.
Let out := enforce_convex ret raw.

Lemma rm_len : List.length rm = n.
Proof. unfold rm. rewrite cummax_length. exact Hlen. Qed.
Lemma out_length : List.length out = n.
Proof.
  unfold out, enforce_convex. destruct (_ && _)%bool; [rewrite map_length; reflexivity|]. exact rm_len.
Qed.
Lemma env_eps_pos : 0 < env_eps.
Proof. unfold env_eps. lra. Qed.

Lemma keep_facts : (0 < n)%nat -> asc keep /\ (exists l, keep = 0%nat :: l) /\ last keep 0%nat = (n - 1)%nat /\
  (forall i, In i keep -> (i < n)%nat) /\
  (forall pre i1 i2 i3 post, keep = (pre ++ i1 :: i2 :: i3 :: post)%list -> env_eps < cross x y i1 i2 i3).
Proof.
  intros Hn. destruct (stk_spec env_eps x y n Hn) as ((st & E) & Hd & Ht & Hl).
  assert (Ek : keep = (rev st ++ [(n - 1)%nat])%list) by (unfold keep; rewrite envelope_stk, E; reflexivity).
  split; [unfold keep; rewrite envelope_stk; apply desc_rev; exact Hd|]. split; [|split; [|split]].
  - unfold keep. rewrite envelope_stk. destruct (stk env_eps x y n) as [|a l] eqn:F using rev_ind; [congruence|].
    rewrite last_last in Hl. subst. rewrite rev_app_distr. eexists. reflexivity.
  - rewrite Ek. apply last_last.
  - intros i Hi. unfold keep in Hi. rewrite envelope_stk, <- in_rev, E in Hi. destruct Hi as [<-|Hi]; [lia|].
    rewrite E in Hd. inversion Hd as [|? ? _ F]; subst. rewrite Forall_forall in F. specialize (F i Hi). lia.
  - intros pre i1 i2 i3 post F. apply (Ht (rev post) i3 i2 i1 (rev pre)).
    rewrite <- (rev_involutive (stk env_eps x y n)), <- envelope_stk. fold keep. rewrite F, rev_app_distr. simpl.
    rewrite <- !app_assoc. reflexivity.
Qed.

Lemma SS_map {A B} (f : A -> B) (P : A -> A -> Prop) (Q : B -> B -> Prop) l :
  StronglySorted P l -> (forall a b, In a l -> In b l -> P a b -> Q (f a) (f b)) -> StronglySorted Q (map f l).
Proof.
  induction 1 as [|a l H IH F]; intros G; simpl; constructor.
  - apply IH. intros; apply G; simpl; auto.
  - apply Forall_forall. intros b Hb. apply in_map_iff in Hb as (c & <- & Hc). rewrite Forall_forall in F. apply G; simpl; auto.
Qed.

(** ** Monotone, whatever the ties *)
Lemma out_nondecreasing : nondecreasing ret -> nondecreasing out.
Proof.
  intros Hr i j [Hij Hj]. rewrite out_length in Hj. unfold out, enforce_convex. fold rm x y n. fold keep.
  destruct (_ && _)%bool; [|apply cummax_nondec; unfold rm; rewrite cummax_length; lia].
  rewrite !(nth_map_lt _ ret _ 0 0) by (unfold n in Hj; lia). apply interp_mono; [|apply Hr; unfold n in Hj; lia].
  destruct (keep_facts ltac:(lia)) as (Ha & _ & _ & Hin & _).
  apply (SS_map _ lt); [exact Ha|]. intros a b H1 H2 H3. apply Hin in H1, H2. simpl. split.
  - apply Hr. unfold n in *. lia.
  - apply cummax_nondec. pose proof rm_len as K. unfold rm in *. lia.
Qed.

Section Strict.
Hypothesis Hinc : increasing ret.
Lemma x_lt i j : (i < j)%nat -> (j < n)%nat -> x i < x j.
Proof. intros. apply Hinc. unfold n in *. lia. Qed.
Lemma x_le i j : (i <= j)%nat -> (j < n)%nat -> x i <= x j.
Proof. intros. destruct (Nat.eq_dec i j) as [->|]; [lra|]. apply Rlt_le, x_lt; lia. Qed.
Hypothesis Hn2 : (2 <= n)%nat.

Lemma pts_incr : incr_x pts.
Proof.
  destruct (keep_facts ltac:(lia)) as (Ha & _ & _ & Hin & _).
  apply (SS_map _ lt); [exact Ha|]. intros a b H1 H2 H3. apply Hin in H1, H2. simpl. apply x_lt; lia.
Qed.

Lemma keep_two : exists b l, keep = 0%nat :: b :: l.
Proof.
  destruct (keep_facts ltac:(lia)) as (Ha & (l & E) & Hl & _). destruct l as [|b l]; [|exists b, l; exact E].
  rewrite E in Hl. simpl in Hl. lia.
Qed.

Lemma segment j : (j < n)%nat -> exists pre a b post, keep = (pre ++ a :: b :: post)%list /\ (a <= j <= b)%nat.
Proof.
  intros Hj. destruct (keep_facts ltac:(lia)) as (Ha & _ & Hl & Hin & _). destruct keep_two as (b & l & E).
  rewrite E in *. apply asc_segment; [exact Ha|discriminate|]. split; [lia|]. change (last (0%nat :: b :: l) 0%nat) with (last (b :: l) 0%nat) in Hl. rewrite Hl. lia.
Qed.

Lemma interp_at j : (j < n)%nat -> exists pre a b post, keep = (pre ++ a :: b :: post)%list /\ (a <= j <= b)%nat /\
  (a < b < n)%nat /\ interp pts (x j) = chord x y a b j.
Proof.
  intros Hj. destruct (segment j Hj) as (pre & a & b & post & E & Hab). exists pre, a, b, post.
  destruct (keep_facts ltac:(lia)) as (Ha & _ & _ & Hin & _).
  assert (Hb : (b < n)%nat). { apply Hin. rewrite E. apply in_app_iff. simpl; auto. }
  assert (Hlt : (a < b)%nat).
  { rewrite E in Ha. clear -Ha. induction pre as [|p pre IH]; simpl in Ha; inversion Ha as [|? ? H1 F]; subst; [inversion F; assumption|auto]. }
  split; [exact E|]. split; [exact Hab|]. split; [lia|]. pose proof pts_incr as Hp. unfold pts in *. rewrite E in *. rewrite map_app in *. simpl map in *.
  rewrite interp_seg; [reflexivity|exact Hp|]. split; apply x_le; lia.
Qed.

Lemma chord_end a b : (a < b < n)%nat -> chord x y a b a = y a /\ chord x y a b b = y b.
Proof. intros H. pose proof (x_lt a b ltac:(lia) ltac:(lia)). unfold chord. split; field; lra. Qed.

Lemma asc_between pre a b post j : asc (pre ++ a :: b :: post)%list -> In j (pre ++ a :: b :: post)%list -> (a <= j <= b)%nat -> j = a \/ j = b.
Proof.
  intros H. induction pre as [|p pre IH]; simpl in *.
  - inversion H as [|? ? H1 F]; subst. inversion H1 as [|? ? H2 F2]; subst. rewrite Forall_forall in F2.
    intros [<-|[<-|K]]; auto. specialize (F2 j K). lia.
  - inversion H as [|? ? H1 F]; subst. intros [<-|K] Hj; [|auto]. rewrite Forall_forall in F.
    specialize (F a ltac:(apply in_elt)). lia.
Qed.

Lemma interp_node j : In j keep -> interp pts (x j) = y j.
Proof.
  intros Hj. destruct (keep_facts ltac:(lia)) as (Ha & _ & _ & Hin & _).
  destruct (interp_at j (Hin j Hj)) as (pre & a & b & post & E & Hab & Hlt & ->). rewrite E in Ha, Hj.
  destruct (chord_end a b Hlt) as [C1 C2]. destruct (asc_between pre a b post j Ha Hj Hab) as [-> | ->]; assumption.
Qed.

Lemma asc_NoDup l : asc l -> NoDup l.
Proof. induction 1 as [|a l H IH F]; constructor; auto. intros K. rewrite Forall_forall in F. specialize (F a K). lia. Qed.

(** In every case the reported risk is the interpolation of the kept points. *)
Lemma out_interp j : (j < n)%nat -> nth j out 0 = interp pts (x j).
Proof.
  intros Hj. unfold out, enforce_convex. fold rm x y n. fold keep. fold pts.
  destruct keep_two as (b & l & E). assert (2 <=? List.length keep = true)%nat as -> by (rewrite E; reflexivity).
  rewrite andb_true_l. destruct (Nat.ltb_spec (List.length keep) n) as [K|K].
  - rewrite (nth_map_lt _ ret j 0 0) by exact Hj. reflexivity.
  - destruct (keep_facts ltac:(lia)) as (Ha & _ & _ & Hin & _).
    rewrite interp_node; [reflexivity|].
    assert (Hincl : incl (seq 0 n) keep).
    { apply NoDup_length_incl; [apply asc_NoDup; exact Ha|rewrite seq_length; exact K|]. intros i Hi. apply in_seq. specialize (Hin i Hi). lia. }
    apply Hincl. apply in_seq. lia.
Qed.

Lemma out_first : nth 0 out 0 = y 0%nat.
Proof.
  rewrite out_interp by lia. apply interp_node. destruct keep_two as (b & l & ->). simpl; auto.
Qed.
Lemma out_last : nth (n - 1) out 0 = y (n - 1)%nat.
Proof.
  rewrite out_interp by lia. apply interp_node. destruct (keep_facts ltac:(lia)) as (_ & (l & E) & Hl & _).
  rewrite <- Hl, E. clear. generalize 0%nat at 1 3 as a. induction l as [|b l IH]; intros a; [simpl; auto|]. right. exact (IH b).
Qed.

Lemma conv_pts l : forall a, asc (a :: l) -> (forall i, In i (a :: l) -> (i < n)%nat) ->
  (forall pre i1 i2 i3 post, (a :: l) = (pre ++ i1 :: i2 :: i3 :: post)%list -> env_eps < cross x y i1 i2 i3) ->
  forall s, (forall b l', l = b :: l' -> s <= (y b - y a) / (x b - x a)) -> conv s (map (fun i => (x i, y i)) (a :: l)).
Proof.
  induction l as [|b l IH]; intros a Ha Hin Ht s Hs; [exact I|]. simpl map. cbn [conv].
  inversion Ha as [|? ? H1 F]; subst. inversion F; subst. assert (Hb : (b < n)%nat) by (apply Hin; simpl; auto).
  split; [apply x_lt; assumption|]. split; [eapply Hs; reflexivity|].
  apply IH.
  - exact H1.
  - intros i Hi. apply Hin. simpl in *. tauto.
  - intros pre i1 i2 i3 post E. apply (Ht (a :: pre) i1 i2 i3 post). rewrite E. reflexivity.
  - intros c l' ->. inversion H1 as [|? ? _ F2]; subst. inversion F2; subst. assert (Hc : (c < n)%nat) by (apply Hin; simpl; auto).
    pose proof (Ht [] a b c l' eq_refl) as Hc2. unfold cross in Hc2. pose proof env_eps_pos.
    pose proof (x_lt a b ltac:(assumption) Hb) as X1. pose proof (x_lt b c ltac:(assumption) Hc) as X2.
    set (s1 := (y b - y a) / (x b - x a)). set (s2 := (y c - y b) / (x c - x b)).
    assert (E1 : s1 * (x b - x a) = y b - y a) by (unfold s1; field; lra).
    assert (E2 : s2 * (x c - x b) = y c - y b) by (unfold s2; field; lra).
    replace (y c - y a) with (s1 * (x b - x a) + s2 * (x c - x b)) in Hc2 by lra. rewrite <- E1 in Hc2.
    destruct (Rle_dec s1 s2) as [|K]; [assumption|]. exfalso.
    assert (0 < (s1 - s2) * ((x b - x a) * (x c - x b))) by (apply Rmult_lt_0_compat; [lra|apply Rmult_lt_0_compat; lra]).
    replace ((x b - x a) * (s1 * (x b - x a) + s2 * (x c - x b)) - s1 * (x b - x a) * (x c - x a)) with (- ((s1 - s2) * ((x b - x a) * (x c - x b)))) in Hc2 by ring. lra.
Qed.

Lemma out_convex : convex_points ret out.
Proof.
  intros i j k Hij Hjk Hk. fold n in Hk. rewrite !out_interp by lia.
  destruct (keep_facts ltac:(lia)) as (Ha & _ & Hl & Hin & Ht). destruct keep_two as (b & l & E).
  unfold pts. rewrite E in *. change (nth k ret 0) with (x k). change (nth i ret 0) with (x i). change (nth j ret 0) with (x j).
  pose proof (conv_pts (b :: l) 0%nat Ha Hin Ht ((y b - y 0%nat) / (x b - x 0%nat)) ltac:(intros ? ? [= <- <-]; lra)) as Hc.
  simpl map in *. apply (interp_convex (x 0%nat) (y 0%nat) _ _ (x i) (x j) (x k) Hc).
  - apply x_le; lia.
  - apply x_lt; lia.
  - apply x_lt; lia.
  - assert (EL : lastx ((x 0%nat, y 0%nat) :: (x b, y b) :: map (fun i0 => (x i0, y i0)) l) = x (n - 1)%nat).
    { rewrite <- Hl. exact (last_map_x x y (b :: l) 0%nat 0%nat). }
    rewrite EL. apply x_le; lia.
Qed.

(** Largest convex minorant: no convex sequence below the running maxima exceeds the output. *)
Lemma out_above_minorants g : List.length g = n -> convex_points ret g -> (forall i, (i < n)%nat -> nth i g 0 <= y i) ->
  forall j, (j < n)%nat -> nth j g 0 <= nth j out 0.
Proof.
  intros Hg Hc Hle j Hj. rewrite out_interp by exact Hj.
  destruct (interp_at j Hj) as (pre & a & b & post & E & Hab & Hlt & ->). destruct (chord_end a b Hlt) as [C1 C2].
  destruct (Nat.eq_dec j a) as [->|Na]; [rewrite C1; apply Hle; lia|]. destruct (Nat.eq_dec j b) as [->|Nb]; [rewrite C2; apply Hle; lia|].
  specialize (Hc a j b ltac:(lia) ltac:(lia) ltac:(unfold n in *; lia)).
  change (nth b ret 0) with (x b) in Hc. change (nth a ret 0) with (x a) in Hc. change (nth j ret 0) with (x j) in Hc.
  pose proof (x_lt a j ltac:(lia) Hj). pose proof (x_lt j b ltac:(lia) ltac:(lia)).
  pose proof (Hle a ltac:(lia)) as Ga. pose proof (Hle b ltac:(lia)) as Gb.
  assert (Ec : chord x y a b j * (x b - x a) = y a * (x b - x j) + y b * (x j - x a)) by (unfold chord; field; lra).
  apply (Rmult_le_reg_r (x b - x a)); [lra|]. rewrite Ec.
  assert (nth a g 0 * (x b - x j) <= y a * (x b - x j)) by (apply Rmult_le_compat_r; lra).
  assert (nth b g 0 * (x j - x a) <= y b * (x j - x a)) by (apply Rmult_le_compat_r; lra). lra.
Qed.

Lemma out_upper g : 0 < g -> (forall i j, (i < j < n)%nat -> g <= x j - x i) ->
  forall j, (j < n)%nat -> nth j out 0 <= y j + INR n * (env_eps / g).
Proof.
  intros Hg Hgap j Hj. rewrite out_interp by exact Hj. destruct (interp_at j Hj) as (pre & a & b & post & E & Hab & Hlt & ->).
  destruct (stk_below env_eps x y g n Hg Hgap (Rlt_le _ _ env_eps_pos) n (le_n n)) as (s & Es & Hb).
  assert (E' : stk env_eps x y n = (rev post ++ b :: a :: rev pre)%list).
  { rewrite <- (rev_involutive (stk env_eps x y n)), <- envelope_stk. fold keep. rewrite E, rev_app_distr. simpl. rewrite <- !app_assoc. reflexivity. }
  specialize (Hb _ _ _ _ E' j Hab). assert (INR s <= INR n) as K by (apply le_INR; lia).
  pose proof (e_nonneg env_eps g Hg (Rlt_le _ _ env_eps_pos)) as K2.
  assert (INR s * (env_eps / g) <= INR n * (env_eps / g)) by (apply Rmult_le_compat_r; assumption). lra.
Qed.
End Strict.

Lemma out_identity : nondecreasing raw ->
  (forall i, (S (S i) < n)%nat -> env_eps < cross x (fun i => nth i raw 0) i (S i) (S (S i))) -> out = raw.
Proof.
  intros Hm Hc. unfold out, enforce_convex. rewrite (cummax_id raw Hm). fold x n.
  replace (List.length (envelope _ _ _ n)) with n; [rewrite Nat.ltb_irrefl, andb_false_r; reflexivity|].
  rewrite envelope_stk, rev_length, (stk_all _ _ _ n Hc), rev_length, seq_length. reflexivity.
Qed.
End Enforce.
