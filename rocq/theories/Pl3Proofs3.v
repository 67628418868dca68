(** Meshes, axes, rows shown and shares. *)
From Coq Require Import List ZArith Lia Lra Permutation Psatz.
Import ListNotations.
From Verif Require Import Err RBase SortLib QpBase OptProofs3 MomModel GlModel GlSpec PoProofs EigLib Pl3Model Pl3Spec Pl3Proofs Pl3Proofs2.
Open Scope R_scope.
Open Scope list_scope.

Lemma on_ellipsoid_ext C m e e' : (forall a, (a < 3)%nat -> e a = e' a) -> on_ellipsoid C m e -> on_ellipsoid C m e'.
Proof.
  intros H (y & H1 & H2). exists y. split; [intros i Hi; rewrite <- H by exact Hi; apply H1, Hi|]. rewrite <- H2. apply dot_ext; [|auto]. intros; symmetry; auto.
Qed.

Lemma mesh_spec eigh cov m k : exact_eigen eigh -> psd 3 cov ->
  exists e, mesh eigh cov m k = Ok e /\ forall i j, on_ellipsoid (symmetrise cov) m (e i j) /\
    forall a, (dot 3 a (e i j)) ^ 2 <= m ^ 2 * (quad 3 cov a + tiny * dot 3 a a).
Proof.
  intros E P. destruct (E 3%nat (symmetrise cov) (sym_symmetrise 3 cov)) as (d & Q & EQ & D). unfold mesh. rewrite EQ. eexists. split; [reflexivity|].
  intros i j. set (u := lin (2 * PI) k i). set (v := lin PI k j).
  set (s := fun q : nat => match q with 0%nat => cos u * sin v | 1%nat => sin u * sin v | _ => 1 * cos v end).
  assert (U : dot 3 s s = 1).
  { unfold dot. rewrite sumn3. unfold s. pose proof (sin2_cos2 u) as H1. pose proof (sin2_cos2 v) as H2. unfold Rsqr in H1, H2.
    transitivity ((sin u * sin u + cos u * cos u) * (sin v * sin v) + cos v * cos v); [ring|]. rewrite H1. lra. }
  split.
  - exact (e_on (symmetrise cov) d Q m s D (psd_symmetrise 3 cov P) U).
  - intros a. rewrite <- (quad_symmetrise 3 cov a). exact (e_bound (symmetrise cov) d Q m s D (psd_symmetrise 3 cov P) U a).
Qed.

Lemma axes_spec eigh argsort mean cov : exact_eigen eigh -> sorts Rle 0 argsort -> psd 3 cov ->
  exists ax v l, principal_axes eigh argsort mean cov = Ok ax /\
    (forall k a, fst (ax k) a = mean a - v k a /\ snd (ax k) a = mean a + v k a) /\
    (forall k, (k < 3)%nat -> on_ellipsoid (symmetrise cov) 1 (v k) /\ forall i, (i < 3)%nat -> mv 3 (symmetrise cov) (v k) i = l k * v k i) /\
    (forall j k, (j < 3)%nat -> (k < 3)%nat -> j <> k -> dot 3 (v j) (v k) = 0) /\
    (forall j k, (j <= k < 3)%nat -> l k <= l j) /\
    (forall k, (k < 3)%nat -> dot 3 (v k) (v k) = l k + tiny).
Proof.
  intros E SA P. destruct (E 3%nat (symmetrise cov) (sym_symmetrise 3 cov)) as (d & Q & EQ & D). unfold principal_axes. rewrite EQ.
  destruct (order_descending argsort 3 d SA) as [PO S0]. set (order := rev (argsort (map d (seq 0 3)))) in *.
  pose proof (decomposition_perm 3 _ d Q order PO D) as DD. set (d' := fun r => d (nth r order 0%nat)) in *. set (Q' := fun i r => Q i (nth r order 0%nat)) in *.
  pose proof (psd_symmetrise 3 cov P) as P'. assert (D' : eigen_decomposition 3 (symmetrise cov) d' Q') by exact DD. destruct DD as [D1 D2].
  exists (fun k => (fun a => mean a - Q' a k * sqrt (Rmax (d' k) 0 + tiny), fun a => mean a + Q' a k * sqrt (Rmax (d' k) 0 + tiny))),
    (fun k a => Q' a k * sqrt (Rmax (d' k) 0 + tiny)), d'.
  split; [reflexivity|]. split; [intros k a; split; reflexivity|]. split; [|split; [|split]].
  - intros k Hk. split.
    + apply (on_ellipsoid_ext _ _ (fun a => sumn 3 (fun q => Q' a q * (1 * sqrt (Rmax (d' q) 0 + tiny) * delta k q)))).
      * intros a Ha. transitivity (sumn 3 (fun q => delta k q * (Q' a q * sqrt (Rmax (d' q) 0 + tiny)))); [apply sumn_ext; intros; ring|]. apply (sumn_delta_r 3 k (fun q => Q' a q * sqrt (Rmax (d' q) 0 + tiny)) Hk).
      * apply (e_on (symmetrise cov) d' Q' 1 (delta k) D' P'). rewrite (dot_delta_l 3 k (delta k) Hk). apply delta_refl.
    + intros i Hi. pose proof (eig_vec 3 _ _ _ D' k i Hk Hi) as V. unfold mv in *. rewrite (dot_ext 3 _ (fun a => Q' a k * sqrt (Rmax (d' k) 0 + tiny)) (symmetrise cov i) (fun a => sqrt (Rmax (d' k) 0 + tiny) * Q' a k)) by (intros; ring || reflexivity).
      rewrite dot_scale_r, V. ring.
  - intros j k Hj Hk N. unfold dot. transitivity (sqrt (Rmax (d' j) 0 + tiny) * sqrt (Rmax (d' k) 0 + tiny) * sumn 3 (fun i => Q' i j * Q' i k)); [rewrite <- sumn_scale; apply sumn_ext; intros; ring|].
    rewrite D1 by assumption. unfold delta. destruct (Nat.eqb_spec j k); [contradiction|ring].
  - intros j k H. apply S0; lia.
  - intros k Hk. destruct (rad (symmetrise cov) d' Q' D' P' k Hk) as (E1 & _ & E3 & _). rewrite E1. unfold dot.
    transitivity (sqrt (d' k + tiny) * sqrt (d' k + tiny) * sumn 3 (fun i => Q' i k * Q' i k)); [rewrite <- sumn_scale; apply sumn_ext; intros; ring|].
    rewrite D1, delta_refl, E3 by assumption. ring.
Qed.

(** ** Rows shown *)
Lemma floor_ge0 r : 0 <= r -> (0 <= Int_part r)%Z.
Proof. intros H. destruct (base_Int_part r) as [H1 H2]. apply le_IZR. assert (-1 < IZR (Int_part r)) by lra. apply lt_IZR in H0. apply IZR_le. lia. Qed.
Lemma floor_IZR z : Int_part (IZR z) = z.
Proof. destruct (base_Int_part (IZR z)) as [H1 H2]. apply le_IZR in H1. assert (IZR z < IZR (Int_part (IZR z) + 1)) by (rewrite plus_IZR; lra). apply lt_IZR in H. lia. Qed.
Lemma floor_step a b : a + 1 <= b -> (Int_part a < Int_part b)%Z.
Proof. intros H. destruct (base_Int_part a) as [A1 A2], (base_Int_part b) as [B1 B2]. assert (IZR (Int_part a) < IZR (Int_part b)) by lra. apply lt_IZR. exact H0. Qed.
Lemma floor_le a b : a <= b -> (Int_part a <= Int_part b)%Z.
Proof. intros H. destruct (base_Int_part a) as [A1 A2], (base_Int_part b) as [B1 B2]. assert (IZR (Int_part a) < IZR (Int_part b + 1)) by (rewrite plus_IZR; lra). apply lt_IZR in H0. lia. Qed.

Lemma shown_rows_spec T mp :
  ((Z.of_nat T <= mp)%Z -> shown_rows T mp = Ok (seq 0 T)) /\
  ((0 <= mp < Z.of_nat T)%Z -> exists idx, shown_rows T mp = Ok idx /\ Z.of_nat (List.length idx) = mp /\ spread_rows T idx) /\
  ((mp < 0)%Z -> (mp < Z.of_nat T)%Z -> shown_rows T mp = Err ValueError).
Proof.
  unfold shown_rows. split; [|split].
  - intros H. apply Z.leb_le in H. rewrite H. reflexivity.
  - intros [H1 H2]. replace (Z.of_nat T <=? mp)%Z with false by (symmetry; apply Z.leb_gt; lia). replace (mp <? 0)%Z with false by (symmetry; apply Z.ltb_ge; lia).
    set (m := Z.to_nat mp). assert (Hm : (m < T)%nat) by (unfold m; lia). eexists. split; [reflexivity|]. rewrite map_length, seq_length. split; [unfold m; lia|].
    set (g := fun i => Z.to_nat (Int_part (lin (INR (T - 1)) m i))).
    assert (Nth : forall t, (t < m)%nat -> nth t (map g (seq 0 m)) 0%nat = g t).
    { intros t Ht. rewrite (nth_indep _ 0%nat (g 0%nat)) by (rewrite map_length, seq_length; exact Ht). rewrite map_nth, seq_nth by exact Ht. reflexivity. }
    assert (Z0 : forall b, lin b m 0 = 0) by (intros b; unfold lin; destruct (Nat.eqb m 1); [reflexivity|]; cbn [INR]; unfold Rdiv; ring).
    assert (G0 : g 0%nat = 0%nat) by (unfold g; rewrite Z0; change 0 with (IZR 0); rewrite floor_IZR; reflexivity).
    assert (TP : 0 <= INR (T - 1)) by apply pos_INR.
    assert (St : (2 <= m)%nat -> 0 < INR m - 1 /\ INR (T - 1) / (INR m - 1) >= 1 /\ lin (INR (T - 1)) m (m - 1) = INR (T - 1) /\ forall t, lin (INR (T - 1)) m t = INR (T - 1) / (INR m - 1) * INR t).
    { intros M2. assert (D : 0 < INR m - 1) by (pose proof (lt_INR 1 m ltac:(lia)) as Q; cbn [INR] in Q; lra). split; [exact D|]. split; [|split].
      - apply Rle_ge. apply (Rmult_le_reg_r (INR m - 1)); [exact D|]. unfold Rdiv. rewrite Rmult_assoc, Rinv_l by lra. rewrite minus_INR by lia. cbn [INR]. pose proof (lt_INR m T Hm). lra.
      - unfold lin. replace (Nat.eqb m 1) with false by (symmetry; apply Nat.eqb_neq; lia). rewrite (minus_INR m 1) by lia. cbn [INR]. field. lra.
      - intros t. unfold lin. replace (Nat.eqb m 1) with false by (symmetry; apply Nat.eqb_neq; lia). field. lra. }
    fold g. unfold spread_rows. rewrite map_length, seq_length. split; [|split; [|split; [|split]]].
    + intros t Ht. rewrite Nth by exact Ht. destruct (le_lt_dec 2 m) as [M2|M2]; [|assert (t = 0%nat) as -> by lia; rewrite G0; lia].
      destruct (St M2) as (D & S1 & L & F). assert (Int_part (lin (INR (T - 1)) m t) <= Z.of_nat (T - 1))%Z.
      { rewrite <- (floor_IZR (Z.of_nat (T - 1))), <- INR_IZR_INZ. apply floor_le. rewrite <- L at 2. rewrite !F. apply Rmult_le_compat_l; [lra|]. apply le_INR. lia. }
      unfold g. lia.
    + intros s t [H3 H4]. rewrite !Nth by lia. destruct (St ltac:(lia)) as (D & S1 & L & F). unfold g.
      assert (Int_part (lin (INR (T - 1)) m s) < Int_part (lin (INR (T - 1)) m t))%Z.
      { apply floor_step. rewrite !F. pose proof (le_INR (S s) t ltac:(lia)) as Q. rewrite S_INR in Q. set (r := INR (T - 1) / (INR m - 1)) in *. nra. }
      assert (0 <= Int_part (lin (INR (T - 1)) m s))%Z by (apply floor_ge0; rewrite F; apply Rmult_le_pos; [lra|apply pos_INR]). lia.
    + intros M1. rewrite Nth by lia. exact G0.
    + intros M2. rewrite Nth by lia. destruct (St M2) as (D & S1 & L & F). unfold g. rewrite L, INR_IZR_INZ, floor_IZR. lia.
    + intros t M2 Ht. rewrite Nth by exact Ht. destruct (St M2) as (D & S1 & L & F). unfold g. set (x := lin (INR (T - 1)) m t).
      assert (X : x * (INR m - 1) = INR t * INR (T - 1)) by (unfold x; rewrite F; field; lra).
      assert (X0 : 0 <= x) by (unfold x; rewrite F; apply Rmult_le_pos; [lra|apply pos_INR]).
      destruct (base_Int_part x) as [B1 B2]. pose proof (floor_ge0 x X0) as P0. set (q := Z.to_nat (Int_part x)).
      assert (EQ : IZR (Int_part x) = INR q) by (unfold q; rewrite INR_IZR_INZ, Z2Nat.id by exact P0; reflexivity). rewrite EQ in B1, B2.
      assert (EM : INR (m - 1) = INR m - 1) by (rewrite minus_INR by lia; reflexivity).
      split; [apply INR_le|apply INR_lt]; rewrite !mult_INR, EM, <- X; [apply Rmult_le_compat_r; lra|].
      rewrite plus_INR. cbn [INR]. apply Rmult_lt_compat_r; lra.
  - intros H1 H2. replace (Z.of_nat T <=? mp)%Z with false by (symmetry; apply Z.leb_gt; lia). replace (mp <? 0)%Z with true by (symmetry; apply Z.ltb_lt; lia). reflexivity.
Qed.
