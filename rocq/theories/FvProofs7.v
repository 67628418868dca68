(** Concrete calls. *)
From Verif Require Import RBase QpBase SortLib OptModel MomSpec NiwModel BlModel RiskModel RiskSpec EpModel EpSpec EpProofs EpProofs2 EpProofs3 EpProofs4 EpProofs5 FvSpec FvProofs FvProofs2 FvProofs3 FvProofs4 FvProofs5 FvProofs6.
Open Scope R_scope.
Open Scope list_scope.

(** Two scenarios, one view. *)
Lemma two_ep p r rhs b : 0 < p 0%nat -> 0 < p 1%nat -> r 0%nat <> r 1%nat -> rhs = (1 - b) * r 0%nat + b * r 1%nat -> 1 / 10 <= b <= 9 / 10 ->
  exists q, do_ep best_minimize 2 p ([(r, rhs)], []) = Ok q /\ q 0%nat = 1 - b /\ q 1%nat = b.
Proof.
  intros P0 P1 Nr E Hb. unfold do_ep. cbn [fst snd app seq map].
  destruct (determined best_minimize [p 0%nat; p 1%nat] [(r, rhs); ones_row] None None (of_list [1 - b; b]) best_minimize_sound best_minimize_finds (or_introl eq_refl)) as [q [F Q]].
  - discriminate.
  - simpl. intros x [<- |[<- |[]]]; auto.
  - exists (fun _ => 1). split; [right; left; reflexivity|auto].
  - split; [split|split].
    + intros [|[|t]] Ht; cbn in *; try lia; unfold of_list; cbn; lra.
    + cbn. unfold of_list; cbn. lra.
    + intros r' c [H|[H|[]]].
      * injection H as <- <-. unfold expectation. cbn. unfold of_list; cbn. lra.
      * unfold ones_row in H. injection H as <- <-. unfold expectation. cbn. unfold of_list; cbn. lra.
    + intros r' h [].
  - intros q' [[S1 S2] [He _]] s Hs. pose proof (He r rhs (or_introl eq_refl)) as E1. unfold expectation in E1. cbn in *. rewrite E in E1. unfold of_list.
    assert (q' 1%nat = b).
    { assert (Z : (q' 1%nat - b) * (r 1%nat - r 0%nat) = 0) by nra. apply Rmult_integral in Z. destruct Z; lra. }
    destruct s as [|[|s]]; [cbn; lra|cbn; lra|lia].
  - intros [|[|s]] Hs; cbn in *; try lia; unfold of_list; cbn; lra.
  - exists q. split; [exact F|]. rewrite (Q 0%nat), (Q 1%nat) by (cbn; lia). unfold of_list; cbn. split; reflexivity.
Qed.

Definition lab2 : list label := [LStr "A"%string; LStr "B"%string].
Definition X2 : mat := fun s i => if (i =? 0)%nat then (if (s =? 0)%nat then 0 else 1) else (if (s =? 0)%nat then 1 else 0).
Definition prior2 : fv_prior := PScen (Some lab2) 2 2 X2 (Some [1; 1]).
Definition half2 : vec := of_list [1 / 2; 1 / 2].
Definition keyA := KOne (LStr "A"%string).
Definition keyB := KOne (LStr "B"%string).
Lemma setup2 chol normals : exists p0, fv_setup chol normals prior2 = Ok (true, lab2, 2%nat, 2%nat, X2, p0) /\ p0 0%nat = 1 / 2 /\ p0 1%nat = 1 / 2.
Proof.
  unfold prior2. cbn [fv_setup]. unfold normalize_positive. cbn [existsb].
  destruct (Rleb_spec 1 0); [lra|]. cbn [orb negb guard].
  assert (E : risclose (rsum [1; 1]) 1 = false).
  { unfold risclose. apply Rleb_false. replace (rsum [1; 1] - 1) with 1 by (cbn; lra). rewrite Rabs_R1. lra. }
  rewrite E. cbn [bind map List.length Nat.eqb guard]. eexists. split; [reflexivity|]. unfold of_list. cbn. split; field.
Qed.
Lemma mean_A q : q 0%nat + q 1%nat = 1 -> mean_of 2 q X2 0 = q 1%nat.
Proof. intros _. unfold mean_of, expectation, X2. cbn. lra. Qed.
Lemma var_A q : q 0%nat + q 1%nat = 1 -> var_of 2 q X2 0 = q 0%nat * q 1%nat.
Proof.
  intros E. unfold var_of, variance. fold (mean_of 2 q X2 0). rewrite mean_A by auto. unfold expectation, X2. cbn. assert (F : q 0%nat = 1 - q 1%nat) by lra. rewrite F. ring.
Qed.
Lemma col_A : column lab2 (LStr "A"%string) 0.
Proof. left. split; [reflexivity|intros j H; lia]. Qed.

(** Views on A. *)
Lemma build_mean_A mu va t : build_constraints lab2 X2 mu va MMean [(keyA, SNum t)] ([], []) = Ok ([(fun s => X2 s 0%nat, t)], []).
Proof. reflexivity. Qed.
Lemma build_vol_A mu va t : 0 < t -> build_constraints lab2 X2 mu va MVol [(keyA, SNum t)] ([], []) = Ok ([(fun s => X2 s 0%nat ^ 2, t ^ 2 + mu 0%nat ^ 2)], []).
Proof. intros Ht. cbn [build_constraints view_row keyA key_idx]. assert (Z : negb (Rleb t 0) = true) by (apply negb_true_iff, Rleb_false; auto). cbn -[Rleb pow X2]. rewrite Z. reflexivity. Qed.
Lemma run_mean argsort b t : 1 / 10 <= t <= 9 / 10 -> forall p0, 0 < p0 0%nat -> 0 < p0 1%nat ->
  exists q, posterior best_minimize argsort lab2 2 X2 p0 [(keyA, SNum t)] [] [] [] [] [] [] b = Ok q /\ q 0%nat = 1 - t /\ q 1%nat = t.
Proof.
  intros Ht p0 P0 P1. destruct (two_ep p0 (fun s => X2 s 0%nat) t t P0 P1) as [q [E [Q0 Q1]]]; [unfold X2; cbn; lra|unfold X2; cbn; lra|auto|].
  exists q. split; auto. assert (W : posterior best_minimize argsort lab2 2 X2 p0 [(keyA, SNum t)] [] [] [] [] [] [] true = Ok q).
  { unfold posterior. cbn [sequential_blocks nonempty]. rewrite build_mean_A. cbn [bind]. rewrite E. reflexivity. }
  destruct b; [exact W|]. rewrite <- W. symmetry. apply (one_kind best_minimize argsort lab2 2 X2 p0 MMean [(keyA, SNum t)] [] []).
Qed.
Lemma run_vol argsort t m c : 0 < t -> c = t ^ 2 + m ^ 2 -> 1 / 10 <= c <= 9 / 10 -> forall p0, 0 < p0 0%nat -> 0 < p0 1%nat -> q_mean 2 X2 p0 0%nat = m -> forall b,
  exists q, posterior best_minimize argsort lab2 2 X2 p0 [] [(keyA, SNum t)] [] [] [] [] [] b = Ok q /\ q 0%nat = 1 - c /\ q 1%nat = c.
Proof.
  intros Ht Ec Hc p0 P0 P1 Em b.
  destruct (two_ep p0 (fun s => X2 s 0%nat ^ 2) (t ^ 2 + m ^ 2) c) as [q [E [Q0 Q1]]]; [lra|lra|unfold X2; cbn; lra|unfold X2; rewrite Ec; cbn; lra|auto|].
  exists q. split; auto.
  assert (W : posterior best_minimize argsort lab2 2 X2 p0 [] [(keyA, SNum t)] [] [] [] [] [] true = Ok q).
  { unfold posterior. cbn [sequential_blocks nonempty]. rewrite build_vol_A by auto. cbn [bind]. rewrite Em, E. reflexivity. }
  destruct b; [exact W|]. rewrite <- W. symmetry. apply (one_kind best_minimize argsort lab2 2 X2 p0 MVol [(keyA, SNum t)] [] []).
Qed.
(** Mean 0.4, then volatility 0.3, one after the other: the mean ends at 0.25. *)
Lemma run_seq argsort p0 : 0 < p0 0%nat -> 0 < p0 1%nat ->
  exists q, posterior best_minimize argsort lab2 2 X2 p0 [(keyA, SNum (4 / 10))] [(keyA, SNum (3 / 10))] [] [] [] [] [] true = Ok q /\ q 0%nat = 3 / 4 /\ q 1%nat = 1 / 4.
Proof.
  intros P0 P1. destruct (two_ep p0 (fun s => X2 s 0%nat) (4 / 10) (4 / 10) P0 P1) as [q1 [E1 [Q0 Q1]]]; [unfold X2; cbn; lra|unfold X2; cbn; lra|lra|].
  destruct (two_ep q1 (fun s => X2 s 0%nat ^ 2) ((3 / 10) ^ 2 + (4 / 10) ^ 2) (1 / 4)) as [q [E [R0 R1]]]; [lra|lra|unfold X2; cbn; lra|unfold X2; cbn; lra|lra|].
  exists q. split; [|split; lra]. unfold posterior. cbn [sequential_blocks nonempty]. rewrite build_mean_A. cbn [bind]. rewrite E1. cbn [bind]. rewrite build_vol_A by lra. cbn [bind].
  assert (Em : q_mean 2 X2 q1 0%nat = 4 / 10) by (unfold q_mean, X2; cbn; lra). rewrite Em, E. reflexivity.
Qed.
(** Both at once: the mean holds, and so does the volatility because the mean is fixed. *)
Lemma run_both argsort p0 : 0 < p0 0%nat -> 0 < p0 1%nat ->
  exists q, posterior best_minimize argsort lab2 2 X2 p0 [(keyA, SNum (2 / 10))] [(keyA, SNum (4 / 10))] [] [] [] [] [] false = Ok q /\ q 0%nat = 8 / 10 /\ q 1%nat = 2 / 10.
Proof.
  intros P0 P1. destruct (two_ep p0 (fun s => X2 s 0%nat) (2 / 10) (2 / 10) P0 P1) as [q1 [E1 [Q0 Q1]]]; [unfold X2; cbn; lra|unfold X2; cbn; lra|lra|].
  assert (Em : q_mean 2 X2 q1 0%nat = 2 / 10) by (unfold q_mean, X2; cbn; lra).
  set (rows2 := [(fun s => X2 s 0%nat, 2 / 10); (fun s => X2 s 0%nat ^ 2, (4 / 10) ^ 2 + (2 / 10) ^ 2)] : rows).
  destruct (determined best_minimize [p0 0%nat; p0 1%nat] (rows2 ++ [ones_row]) None None (of_list [8 / 10; 2 / 10]) best_minimize_sound best_minimize_finds (or_introl eq_refl)) as [q [F Q]].
  - discriminate.
  - simpl. intros x [<- |[<- |[]]]; auto.
  - exists (fun _ => 1). split; [right; right; left; reflexivity|auto].
  - split; [split|split].
    + intros [|[|t]] Ht; cbn in *; try lia; unfold of_list; cbn; lra.
    + cbn. unfold of_list; cbn. lra.
    + intros r' c [H|[H|[H|[]]]]; [injection H as <- <-|injection H as <- <-|unfold ones_row in H; injection H as <- <-]; unfold expectation, X2; cbn; unfold of_list; cbn; lra.
    + intros r' h [].
  - intros q' [[S1 S2] [He _]] s Hs. pose proof (He _ _ (or_introl eq_refl)) as E2. unfold expectation, X2 in E2. cbn in *. unfold of_list.
    destruct s as [|[|s]]; [cbn; lra|cbn; lra|lia].
  - intros [|[|s]] Hs; cbn in *; try lia; unfold of_list; cbn; lra.
  - exists q. split; [|rewrite (Q 0%nat), (Q 1%nat) by (cbn; lia); unfold of_list; cbn; split; reflexivity].
    unfold posterior. cbn [nonempty andb orb]. rewrite build_mean_A. cbn [bind]. rewrite E1. cbn [bind all_blocks]. rewrite build_mean_A. cbn [bind].
    assert (B : forall mu va, build_constraints lab2 X2 mu va MVol [(keyA, SNum (4 / 10))] ([(fun s => X2 s 0%nat, 2 / 10)], []) = Ok ([(fun s => X2 s 0%nat, 2 / 10); (fun s => X2 s 0%nat ^ 2, (4 / 10) ^ 2 + mu 0%nat ^ 2)], [])).
    { intros mu va. cbn [build_constraints view_row keyA key_idx]. assert (Z : negb (Rleb (4 / 10) 0) = true) by (apply negb_true_iff, Rleb_false; lra). cbn -[Rleb pow X2]. rewrite Z. reflexivity. }
    rewrite B. cbn [bind build_constraints nonempty fst orb]. rewrite Em. fold rows2. unfold do_ep. cbn [seq map fst snd]. rewrite F. reflexivity.
Qed.
(** A quantile view after a mean view. *)
Lemma run_quantile argsort p0 b : 0 < p0 0%nat -> 0 < p0 1%nat ->
  exists q, posterior best_minimize argsort lab2 2 X2 p0 [(keyA, SNum (4 / 10))] [] [] [] [] [] [(keyA, Some (1 / 2, SNum (3 / 10)))] b = Ok q /\ q 0%nat = 3 / 10 /\ q 1%nat = 7 / 10.
Proof.
  intros P0 P1. destruct (run_mean argsort b (4 / 10) ltac:(lra) p0 P0 P1) as [q1 [E1 [Q0 Q1]]].
  destruct (two_ep q1 (fun s => if Rleb (X2 s 0%nat) (1 / 2) then 1 else 0) (3 / 10) (7 / 10)) as [q [E [R0 R1]]]; [lra|lra| | |lra|].
  { unfold X2. cbn. destruct (Rleb_spec 0 (1 / 2)), (Rleb_spec 1 (1 / 2)); lra. }
  { unfold X2. cbn. destruct (Rleb_spec 0 (1 / 2)), (Rleb_spec 1 (1 / 2)); lra. }
  exists q. split; [|split; lra]. rewrite posterior_rest, E1. cbn [bind]. unfold stage2. cbn [nonempty].
  assert (B : quantile_rows lab2 X2 [(keyA, Some (1 / 2, SNum (3 / 10)))] ([], []) = Ok ([(fun s => if Rleb (X2 s 0%nat) (1 / 2) then 1 else 0, 3 / 10)], [])).
  { cbn [quantile_rows keyA key_idx]. assert (Z : (Rltb 0 (3 / 10) && Rltb (3 / 10) 1)%bool = true) by (apply andb_true_iff; split; apply Rltb_true; lra). cbn -[Rltb Rleb X2]. rewrite Z. reflexivity. }
  rewrite B. cbn [bind nonempty fst orb]. rewrite E. reflexivity.
Qed.

(** A CVaR view with three scenarios. *)
Definition X3 : mat := fun s i => if (i =? 0)%nat then (match s with O => -1 | S O => 0 | _ => 2 end) else INR s.
Definition third : vec := fun _ => 1 / 3.
Lemma order3 : argsort_by Rleb 0 (map (fun s => X3 s 0%nat) (seq 0 3)) = [0; 1; 2]%nat.
Proof.
  unfold argsort_by. cbn. destruct (Rleb_spec 0 2); [|lra]. cbn. destruct (Rleb_spec (-1) 0); [|lra]. reflexivity.
Qed.
Lemma newton_flat minimize argsort T X n i gamma target p s best q k : Z.max 1 (s - 1) = s -> Z.min (Z.of_nat T - 2) (s + 1) = s ->
  at_s minimize argsort T X i gamma target p s = Some (q, k) -> newton minimize argsort T X (S n) i gamma target p s best = best.
Proof.
  intros E1 E2 A. cbn [newton]. rewrite E1, E2, A. replace (k - 2 * k + k) with 0 by ring. rewrite Rabs_R0. destruct (Rltb_spec 0 (1 / 100000000000000)) as [_|L]; [|lra]. reflexivity.
Qed.
Lemma run_cvar : exists q, posterior best_minimize (argsort_by Rleb 0) lab2 3 X3 third [] [] [] [] [] [(keyA, CvSeq [- (1 / 2); 1 / 2])] [] false = Ok q /\
  q 0%nat = 1 / 4 /\ q 1%nat = 1 / 4 /\ q 2%nat = 1 / 2.
Proof.
  destruct (determined best_minimize [1 / 3; 1 / 3; 1 / 3] (tail_rows (argsort_by Rleb 0) 3 X3 0 2 (1 / 2) (- (1 / 2))) None None (of_list [1 / 4; 1 / 4; 1 / 2]) best_minimize_sound best_minimize_finds (or_introl eq_refl)) as [q [F Q]].
  - discriminate.
  - simpl. intros x [<- |[<- |[<- |[]]]]; lra.
  - exists (fun _ => 1). split; [right; right; left; reflexivity|auto].
  - unfold tail_rows. rewrite order3. split; [split|split].
    + intros [|[|[|t]]] Ht; cbn in *; try lia; unfold of_list; cbn; lra.
    + cbn. unfold of_list; cbn. lra.
    + intros r' c [H|[H|[H|[]]]]; [injection H as <- <-|injection H as <- <-|unfold ones_row in H; injection H as <- <-]; unfold expectation, X3; cbn; unfold of_list; cbn; lra.
    + intros r' h [].
  - unfold tail_rows. rewrite order3. intros q' [[S1 S2] [He _]] s Hs. pose proof (He _ _ (or_introl eq_refl)) as E1. pose proof (He _ _ (or_intror (or_introl eq_refl))) as E2. unfold expectation, X3 in E1, E2. cbn in *. unfold of_list.
    destruct s as [|[|[|s]]]; [cbn; lra|cbn; lra|cbn; lra|lia].
  - intros [|[|[|s]]] Hs; cbn in *; try lia; unfold of_list; cbn; lra.
  - exists q. split; [|rewrite (Q 0%nat), (Q 1%nat), (Q 2%nat) by (cbn; lia); unfold of_list; cbn; auto].
    rewrite posterior_rest, posterior_none. cbn [bind stage2 nonempty cvar_steps keyA key_idx]. change (asset_idx lab2 (LStr "A")) with (@Ok nat 0%nat). cbn [bind].
    assert (A : at_s best_minimize (argsort_by Rleb 0) 3 X3 0 (1 / 2) (- (1 / 2)) third 1 = Some (q, sumn 3 (fun s => q s * ln (q s / third s)))).
    { unfold at_s, solve_for. change (Z.to_nat (1 + 1)) with 2%nat. change (map third (seq 0 3)) with [1 / 3; 1 / 3; 1 / 3]. rewrite F. reflexivity. }
    assert (St : start_s (argsort_by Rleb 0) 3 X3 0 (1 / 2) third = 1%Z).
    { unfold start_s. rewrite order3. change (map third (seq 0 3)) with [1 / 3; 1 / 3; 1 / 3]. cbn -[Rltb Z.max Z.min].
      destruct (Rltb_spec (0 + 1 / 3) (1 / 2)) as [_|L]; [|lra]. destruct (Rltb_spec (0 + 1 / 3 + 1 / 3) (1 / 2)) as [L|_]; [lra|]. reflexivity. }
    rewrite solve_cvar_unfold, St, A. rewrite (newton_flat best_minimize (argsort_by Rleb 0) 3 X3 19 0%nat (1 / 2) (- (1 / 2)) third 1 _ q _ eq_refl eq_refl A). reflexivity.
Qed.
