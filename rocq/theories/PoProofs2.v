(** The output of POET, and its choice of the number of factors. *)
From Coq Require Import List Lia Lra ZArith Permutation Sorted.
Import ListNotations.
From Verif Require Import Err RBase QpBase SortLib MomModel MomSpec MomProofs MomProofs2 MomProofs3 GlModel GlSpec EigLib GlProofs PoModel PoSpec PoProofs.
Open Scope R_scope.
Open Scope list_scope.

Lemma poet_S_sym T N X st : symmetric N (poet_S T X st).
Proof. intros i j _ _. unfold poet_S, np_cov. f_equal. apply sumn_ext. intros; ring. Qed.
Lemma poet_S_cov T X st i j : (2 <= T)%nat -> poet_S T X st i j = np_cov T X 1 i j / (poet_scale T X st i * poet_scale T X st j).
Proof. intros H. exact (poet_standardised T X st i j H). Qed.

Lemma off_diag_nonempty N A : (2 <= N)%nat -> off_diag N A <> [].
Proof.
  intros H E. destruct N as [|[|N]]; try lia. unfold off_diag in E. cbn [seq map List.concat filter Nat.eqb negb] in E. discriminate.
Qed.
Lemma threshold_nonneg T N A th tau : poet_threshold T N A th = Ok tau -> 0 <= tau.
Proof.
  unfold poet_threshold. destruct th as [|t].
  - intros E. destruct (off_diag N A) as [|x l] eqn:L; injection E as <-; [lra|].
    apply Rmult_le_pos; [|apply sqrt_pos]. apply median_nonneg. intros y Hy. change (In y (map Rabs (x :: l))) in Hy. apply in_map_iff in Hy. destruct Hy as (z & <- & _). apply Rabs_pos.
  - destruct (Rltb_spec t 0); intros E; [discriminate|]. injection E as <-. lra.
Qed.

Lemma poet_full_ok eig eigh argsort T N X k th st : correct_eig eig -> exact_eigh eigh -> sorts Rle 0 argsort -> (2 <= T)%nat -> (2 <= N)%nat ->
  exists lam V, eigen_decomposition N (poet_S T X st) lam V /\
    (forall a b, (a <= b)%nat -> (b < N)%nat -> lam b <= lam a) /\
    let B : nat -> nat -> R := fun i f => V i f * sqrt (Rmax (lam f) 0) in
    let rs k1 := symmetrise (fun i j => poet_S T X st i j - sumn k1 (fun f => B i f * B j f)) in
    match poet_select k (map lam (seq 0 N)) with
    | Err e => poet_full eig eigh argsort T N X k th st = Err e
    | Ok k0 =>
        let k1 := Nat.max 1 (Nat.min k0 N) in
        match poet_threshold T N (rs k1) th with
        | Err e => poet_full eig eigh argsort T N X k th st = Err e
        | Ok tau => exists Sg, ensure_psd eig N (poet_sigma T k1 X B tau st) jit = Ok Sg /\
            poet_full eig eigh argsort T N X k th st =
            Ok (Sg, fun i f => poet_scale T X st i * B i f, fun t f => sumn N (fun i => poet_std T X st t i * V i f), k1)
        end
    end.
Proof.
  intros HE HH HS HT HN. destruct (HH N (poet_S T X st) (poet_S_sym T N X st)) as (d & Q & EQ & HQ).
  destruct (order_descending argsort N d HS) as (P & D). set (o := rev (argsort (map d (seq 0 N)))) in *.
  exists (fun r => d (nth r o 0%nat)), (fun i r => Q i (nth r o 0%nat)).
  split; [apply decomposition_perm; assumption|]. split; [exact D|]. cbv zeta.
  unfold poet_full. destruct (Nat.leb_spec N 1); [lia|]. rewrite EQ. fold o. cbv zeta.
  destruct (poet_select k _) as [k0|e]; cbn [bind]; [|reflexivity].
  destruct (poet_threshold _ _ _ _) as [tau|e]; cbn [bind]; [|reflexivity].
  match goal with |- context [ensure_psd eig N ?M jit] => destruct (ensure_psd_ok eig N M jit HE ltac:(lia) jit_pos) as (Sg & c & E & _) end.
  exists Sg. split; [exact E|]. rewrite E. reflexivity.
Qed.

(** Entries of the assembled matrix: factor part plus thresholded remainder. *)
Lemma poet_sigma_parts T k X B tau st i j : (2 <= T)%nat ->
  let sc := poet_scale T X st in
  let rem a b := poet_S T X st a b - sumn k (fun f => B a f * B b f) in
  poet_sigma T k X B tau st i j = sc i * sc j * (sumn k (fun f => B i f * B j f) + soft_threshold rem tau i j).
Proof.
  intros HT sc rem. unfold poet_sigma. cbv zeta. fold sc. change (np_cov T (fun t i0 => center T X t i0 / sc i0) 1) with (poet_S T X st).
  assert (HSs : forall a b, poet_S T X st a b = poet_S T X st b a) by (intros a b; unfold poet_S, np_cov; f_equal; apply sumn_ext; intros; ring).
  set (F := fun i0 j0 => sumn k (fun f => B i0 f * B j0 f)).
  assert (HF : forall a b, F a b = F b a) by (intros; apply sumn_ext; intros; ring).
  set (rs := symmetrise (fun i0 j0 => poet_S T X st i0 j0 - F i0 j0)).
  assert (Hrs : forall a b, rs a b = rem a b) by (intros a b; unfold rs, symmetrise, rem; fold (F a b); rewrite (HSs b a), (HF b a); lra).
  assert (Hst : forall a b, soft_threshold rs tau a b = soft_threshold rem tau a b) by (intros; unfold soft_threshold; rewrite !Hrs; reflexivity).
  assert (Hsy : forall a b, soft_threshold rem tau a b = soft_threshold rem tau b a).
  { intros a b. unfold soft_threshold. rewrite (Nat.eqb_sym b a). replace (rem b a) with (rem a b); [reflexivity|]. unfold rem. rewrite (HSs b a). f_equal. exact (HF a b). }
  change ((sc i * ((F i j + soft_threshold rs tau i j + (F j i + soft_threshold rs tau j i)) / 2) * sc j
    + sc j * ((F j i + soft_threshold rs tau j i + (F i j + soft_threshold rs tau i j)) / 2) * sc i) / 2
    = sc i * sc j * (F i j + soft_threshold rem tau i j)). rewrite !Hst, (Hsy j i), (HF j i). fold (F i j). field.
Qed.

Lemma soft_shrunk A tau i j : 0 <= tau -> i <> j -> shrunk tau (A i j) (soft_threshold A tau i j).
Proof.
  intros Ht Hij. unfold soft_threshold. destruct (Nat.eqb_spec i j); [congruence|]. set (x := A i j). unfold shrunk, rsign.
  destruct (Rltb_spec 0 x).
  - rewrite (Rabs_right x) by lra. repeat split; intros; try (rewrite Rmax_right by lra; lra); try (rewrite Rmax_left by lra; lra); lra.
  - destruct (Rltb_spec x 0).
    + rewrite (Rabs_left x) by lra. repeat split; intros; try (rewrite Rmax_right by lra; lra); try (rewrite Rmax_left by lra; lra); lra.
    + replace x with 0 by lra. rewrite Rabs_R0. repeat split; intros; lra.
Qed.

(** * Spectra of equally strong factors *)
Section Flat.
  Variables (N K : nat) (S W : mat) (a b : R).
  Hypothesis HS : forall i j, (i < N)%nat -> (j < N)%nat -> S i j = b * delta i j + (a - b) * sumn K (fun f => W i f * W j f).
  Hypothesis HW : forall f g, (f < K)%nat -> (g < K)%nat -> sumn N (fun i => W i f * W i g) = delta f g.
  Hypothesis Hab : b < a.
  Variables (lam : vec) (V : mat).
  Hypothesis HD : eigen_decomposition N S lam V.
  Hypothesis Hdesc : forall p q, (p <= q)%nat -> (q < N)%nat -> lam q <= lam p.

  Lemma flat_values r : (r < N)%nat -> lam r = a \/ lam r = b.
  Proof.
    intros Hr. destruct HD as [HV HE].
    assert (EV : forall i, (i < N)%nat -> sumn N (fun j => S i j * V j r) = lam r * V i r).
    { intros i Hi. rewrite (sumn_ext N _ (fun j => sumn N (fun q => V i q * lam q * (V j q * V j r)))).
      2: { intros j Hj. rewrite HE by auto. rewrite <- sumn_scale_r. apply sumn_ext. intros; ring. }
      rewrite sumn_swap. rewrite (sumn_ext N _ (fun q => delta q r * (V i q * lam q))).
      2: { intros q Hq. rewrite sumn_scale, HV by auto. ring. }
      rewrite sumn_delta by exact Hr. ring. }
    set (c := fun f => sumn N (fun j => W j f * V j r)).
    assert (E2 : forall i, (i < N)%nat -> (lam r - b) * V i r = (a - b) * sumn K (fun f => W i f * c f)).
    { intros i Hi. pose proof (EV i Hi) as E.
      rewrite (sumn_ext N _ (fun j => delta j i * (b * V j r) + (a - b) * sumn K (fun f => W i f * (W j f * V j r)))) in E.
      2: { intros j Hj. rewrite HS by auto. rewrite (delta_sym j i). rewrite (sumn_ext K (fun f => W i f * (W j f * V j r)) (fun f => W i f * W j f * V j r)) by (intros; ring).
           rewrite sumn_scale_r. ring. }
      rewrite sumn_plus, sumn_delta, sumn_scale, sumn_swap in E by exact Hi.
      rewrite (sumn_ext K _ (fun f => W i f * c f)) in E by (intros; unfold c; rewrite sumn_scale; reflexivity). lra. }
    destruct (Req_dec (lam r) a) as [|Na]; [left; assumption|right].
    assert (Hc : forall f, (f < K)%nat -> c f = 0).
    { intros f Hf. assert (E : (lam r - b) * c f = (a - b) * c f).
      { unfold c at 1. rewrite <- sumn_scale. rewrite (sumn_ext N _ (fun i => sumn K (fun g => W i f * W i g * ((a - b) * c g)))).
        2: { intros i Hi. replace ((lam r - b) * (W i f * V i r)) with (W i f * ((lam r - b) * V i r)) by ring. rewrite (E2 i Hi).
             rewrite <- sumn_scale, <- sumn_scale. apply sumn_ext. intros; ring. }
        rewrite sumn_swap. rewrite (sumn_ext K _ (fun g => delta g f * ((a - b) * c g))).
        2: { intros g Hg. rewrite sumn_scale_r, HW by auto. rewrite (delta_sym f g). reflexivity. }
        apply sumn_delta. exact Hf. }
      assert (E0 : (lam r - a) * c f = 0) by lra. apply Rmult_integral in E0. destruct E0; [lra|assumption]. }
    destruct (Req_dec (lam r) b) as [|Nb]; [assumption|exfalso].
    assert (HV0 : forall i, (i < N)%nat -> V i r = 0).
    { intros i Hi. pose proof (E2 i Hi) as E. rewrite (sumn_0 K) in E by (intros f Hf; rewrite Hc by exact Hf; ring).
      rewrite Rmult_0_r in E. apply Rmult_integral in E. destruct E; [lra|assumption]. }
    pose proof (HV r r Hr Hr) as E. rewrite delta_refl, sumn_0 in E; [lra|]. intros i Hi. rewrite HV0 by exact Hi. ring.
  Qed.
  Lemma flat_trace : sumn N lam = INR N * b + (a - b) * INR K.
  Proof.
    destruct HD as [HV HE]. transitivity (sumn N (fun i => S i i)).
    - rewrite (sumn_ext N (fun i => S i i) (fun i => sumn N (fun r => V i r * V i r * lam r))) by (intros i Hi; rewrite HE by auto; apply sumn_ext; intros; ring).
      rewrite sumn_swap. apply sumn_ext. intros r Hr. rewrite sumn_scale_r, HV by auto. rewrite delta_refl. ring.
    - rewrite (sumn_ext N _ (fun i => b + (a - b) * sumn K (fun f => W i f * W i f))) by (intros i Hi; rewrite HS, delta_refl by auto; ring).
      rewrite sumn_plus, sumn_const, sumn_scale, sumn_swap. rewrite (sumn_ext K _ (fun _ => 1)) by (intros f Hf; rewrite HW, delta_refl by auto; reflexivity).
      rewrite sumn_const. ring.
  Qed.
  Lemma flat_order r : (r < N)%nat -> lam r = if Nat.ltb r K then a else b.
  Proof.
    intros Hr. assert (ET : sumn N (fun q => lam q - b) = (a - b) * INR K) by (rewrite sumn_minus, sumn_const, flat_trace; ring).
    destruct (Nat.ltb_spec r K) as [L|L]; destruct (flat_values r Hr) as [E|E]; try exact E; exfalso.
    - (* lam r = b, r < K: at most r values above b *)
      assert (U : sumn N (fun q => lam q - b) <= sumn N (fun q => if Nat.ltb q r then a - b else 0)).
      { apply sumn_le. intros q Hq. destruct (Nat.ltb_spec q r).
        - destruct (flat_values q Hq); lra.
        - pose proof (Hdesc r q ltac:(lia) Hq). lra. }
      rewrite <- (sumn_first N r) in U by lia. rewrite sumn_const, ET in U.
      assert (INR r < INR K) by (apply lt_INR; exact L). nra.
    - assert (U : sumn N (fun q => if Nat.ltb q (Datatypes.S r) then a - b else 0) <= sumn N (fun q => lam q - b)).
      { apply sumn_le. intros q Hq. destruct (Nat.ltb_spec q (Datatypes.S r)).
        - pose proof (Hdesc q r ltac:(lia) Hr). lra.
        - destruct (flat_values q Hq); lra. }
      rewrite <- (sumn_first N (Datatypes.S r)) in U by lia. rewrite sumn_const, ET in U.
      assert (INR K < INR (Datatypes.S r)) by (apply lt_INR; lia). nra.
  Qed.
End Flat.

(** * The automatic choice *)
Lemma accel_nth N lam i : (i + 2 < N)%nat ->
  nth i (poet_accel (map lam (seq 0 N))) 0 = (lam (S i) - lam i) - (lam (S (S i)) - lam (S i)).
Proof.
  intros H. unfold poet_accel. rewrite map_length, seq_length. rewrite nth_map_seq by lia. rewrite !nth_map_seq by lia. reflexivity.
Qed.
Lemma accel_length N lam : List.length (poet_accel (map lam (seq 0 N))) = (N - 2)%nat.
Proof. unfold poet_accel. rewrite !map_length, !seq_length. reflexivity. Qed.
Lemma auto_spec N lam k0 : (3 <= N)%nat -> poet_select KAuto (map lam (seq 0 N)) = Ok k0 ->
  (1 <= k0 <= N - 2)%nat /\
  let g i := (lam i - lam (S i)) in
  (forall i, (i < N - 2)%nat -> g (S i) - g i <= g k0 - g (k0 - 1)%nat) /\
  (forall i, (i < k0 - 1)%nat -> g (S i) - g i < g k0 - g (k0 - 1)%nat).
Proof.
  intros HN. cbn [poet_select]. rewrite map_length, seq_length. destruct (Nat.leb_spec N 2); [lia|]. intros E. injection E as <-.
  set (l := poet_accel (map lam (seq 0 N))).
  assert (L : List.length l = (N - 2)%nat) by apply accel_length.
  destruct (argmax_r_spec l) as (H1 & H2 & H3). { intros E. rewrite E in L. simpl in L. lia. }
  split; [lia|]. cbv zeta. replace (argmax_r l + 1 - 1)%nat with (argmax_r l) by lia. replace (argmax_r l + 1)%nat with (S (argmax_r l)) by lia.
  assert (A : forall i, (i < N - 2)%nat -> nth i l 0 = (lam (S i) - lam (S (S i))) - (lam i - lam (S i))).
  { intros i Hi. unfold l. rewrite accel_nth by lia. ring. }
  split.
  - intros i Hi. rewrite <- !A by lia. apply H2. apply nth_In. lia.
  - intros i Hi. rewrite <- !A by lia. apply H3. lia.
Qed.
