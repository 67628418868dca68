(** C179: the lots of a MILP allocation are the solver's numbers rounded to the nearest integer. *)
From Coq Require Import String Lqa.
From Verif Require Import QBase SortLib ProbModel DiscModel DiscSpec DiscProofs DiscMilp DiscApi DiscCall DiscExit DiscProperties.
Open Scope Q_scope.
Open Scope list_scope.

(** [k] is an integer nearest to [x]; the even one when two are equally near. *)
Definition nearest_even (x : Q) (k : Z) : Prop :=
  (forall z : Z, Qabs (x - inject_Z k) <= Qabs (x - inject_Z z)) /\
  (forall z : Z, z <> k -> Qabs (x - inject_Z z) == Qabs (x - inject_Z k) -> Z.Even k).

Lemma Qabs_bound x b : Qabs x <= b <-> - b <= x <= b.
Proof. apply Qabs_Qle_condition. Qed.

Lemma rint_bound x : Qabs (x - inject_Z (rint x)) <= 1 # 2 /\
  (x - inject_Z (rint x) == 1 # 2 \/ x - inject_Z (rint x) == - (1 # 2) -> Z.Even (rint x)).
Proof.
  unfold rint. pose proof (Qfloor_le x) as H1. pose proof (Qlt_floor x) as H2.
  set (f := Qfloor x) in *. rewrite inject_Z_plus in H2. change (inject_Z 1) with 1 in H2. cbv zeta.
  destruct (Qlt_bool (x - inject_Z f) (1 # 2)) eqn:E1.
  - apply Qlt_bool_iff in E1. split; [apply Qabs_bound; lra|]. intros [E|E]; lra.
  - assert (~ x - inject_Z f < 1 # 2) as N1 by (intros C; apply Qlt_bool_iff in C; congruence).
    destruct (Qlt_bool (1 # 2) (x - inject_Z f)) eqn:E2.
    + apply Qlt_bool_iff in E2. rewrite inject_Z_plus. change (inject_Z 1) with 1. split; [apply Qabs_bound; lra|]. intros [E|E]; lra.
    + assert (~ 1 # 2 < x - inject_Z f) as N2 by (intros C; apply Qlt_bool_iff in C; congruence).
      destruct (Z.even f) eqn:E3.
      * split; [apply Qabs_bound; lra|]. intros _. apply Z.even_spec. exact E3.
      * rewrite inject_Z_plus. change (inject_Z 1) with 1. split; [apply Qabs_bound; lra|]. intros _. apply Z.even_spec.
        rewrite Z.add_1_r, Z.even_succ, <- Z.negb_even, E3. reflexivity.
Qed.

Lemma far x k z : Qabs (x - inject_Z k) <= 1 # 2 -> z <> k -> 1 # 2 <= Qabs (x - inject_Z z).
Proof.
  intros H N. apply Qabs_bound in H as [H3 H4]. assert (z <= k - 1 \/ k + 1 <= z)%Z as [L|L] by lia.
  - rewrite Zle_Qle in L. unfold Z.sub in L. rewrite inject_Z_plus in L. change (inject_Z (Z.opp 1)) with (-1 # 1) in L.
    pose proof (Qle_Qabs (x - inject_Z z)). lra.
  - rewrite Zle_Qle in L. rewrite inject_Z_plus in L. change (inject_Z 1) with 1 in L.
    pose proof (Qle_Qabs (- (x - inject_Z z))) as A. rewrite Qabs_opp in A. lra.
Qed.

Lemma rint_nearest x : nearest_even x (rint x).
Proof.
  destruct (rint_bound x) as [H1 H2]. split.
  - intros z. destruct (Z.eq_dec z (rint x)) as [->|N]; [lra|]. pose proof (far _ _ _ H1 N). lra.
  - intros z N E. apply H2. pose proof (far _ _ _ H1 N) as F. rewrite E in F.
    assert (A : Qabs (x - inject_Z (rint x)) == 1 # 2) by lra. revert A. apply Qabs_case; intros _ A; [left; exact A|right; lra].
Qed.

(** Whatever numbers the solver answers with, asset number i is given the whole number of lots nearest to
    the solver's i-th number (ties to even), times its lot size. *)
Theorem milp_lots_round_the_solution : forall inp solver pen mc x r,
  good_inputs inp ->
  solver (build_milp inp pen mc) = Some x -> List.length x = List.length (p_c (build_milp inp pen mc)) ->
  allocate_mip solver pen mc inp = Ok r ->
  forall i a, nth_error (in_assets inp) i = Some a ->
  exists k, nearest_even (nth i x 0) k /\ held r a = (k * a_lot a)%Z.
Proof.
  intros inp solver pen mc x r (HV & Hne & HN & _) Hs Hlen. unfold allocate_mip.
  destruct (Nat.eqb_spec (List.length (in_assets inp)) 0); [discriminate|]. rewrite Hs.
  cbn [build_milp p_c] in Hlen. rewrite !app_length, zeros_length, repeat_length in Hlen. simpl in Hlen.
  set (ks := map rint (firstn (List.length (in_assets inp)) x)).
  assert (HL : List.length ks = List.length (in_assets inp)) by (unfold ks; rewrite map_length, firstn_length; lia).
  intros HB i a Hi.
  assert (HNr : NoDup (map fst (map2 (fun a k => (a_name a, (k * a_lot a)%Z)) (in_assets inp) ks)))
    by (rewrite map2_fst by auto; exact HN).
  destruct (build_result_l inp _ r HV HNr HB) as (A1 & _).
  destruct (share_map2_lots (in_assets inp) ks a HN HL (nth_error_In _ _ Hi)) as (j & Hj & Ej & Es).
  exists (nth j ks 0%Z). rewrite A1, Es. split; [|reflexivity].
  assert (Hij : i = j).
  { assert (Hi' : (i < List.length (in_assets inp))%nat) by (apply nth_error_Some; congruence).
    apply (proj1 (NoDup_nth_error (map a_name (in_assets inp))) HN); [rewrite map_length; exact Hi'|].
    rewrite !nth_error_map, Hi. rewrite (nth_error_nth' _ a Hj).
    rewrite (nth_indep _ a dasset Hj), Ej. reflexivity. }
  subst j. unfold ks. rewrite (nth_indep _ 0%Z (rint 0)) by (rewrite map_length, firstn_length; lia).
  rewrite map_nth.
  replace (nth i (firstn (List.length (in_assets inp)) x) 0) with (nth i x 0); [apply rint_nearest|].
  rewrite <- (firstn_skipn (List.length (in_assets inp)) x) at 1. apply app_nth1. rewrite firstn_length. lia.
Qed.
Print Assumptions milp_lots_round_the_solution.

(** A solver off by a little, and one off by exactly a half. *)
Example ex_rounding : good_inputs ex_one /\
  match allocate_mip (fun _ => Some [299 # 100; 1; 1]) 1 None ex_one with Ok r => r_shares r = [("a", 3%Z)]%string | _ => False end /\
  match allocate_mip (fun _ => Some [5 # 2; 1; 1]) 1 None ex_one with Ok r => r_shares r = [("a", 2%Z)]%string | _ => False end.
Proof. split; [apply ex_milp|]. vm_compute. split; reflexivity. Qed.
