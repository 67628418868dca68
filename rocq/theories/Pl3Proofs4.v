(** Shares and the whole figure. *)
From Coq Require Import List ZArith Lia Lra Permutation Psatz.
Import ListNotations.
From Verif Require Import Err RBase SortLib QpBase OptProofs3 MomModel GlModel GlSpec PoProofs EigLib Pl3Model Pl3Spec Pl3Proofs Pl3Proofs2 Pl3Proofs3.
Open Scope R_scope.
Open Scope list_scope.

Lemma lower_sym n A : symmetric n (lower_triangle A).
Proof.
  intros i j _ _. unfold lower_triangle. destruct (Nat.leb_spec j i), (Nat.leb_spec i j); try reflexivity; [|lia]. assert (i = j) as -> by lia. reflexivity.
Qed.
Lemma lower_same n A i j : symmetric n A -> (i < n)%nat -> (j < n)%nat -> lower_triangle A i j = A i j.
Proof. intros H Hi Hj. unfold lower_triangle. destruct (Nat.leb j i); [reflexivity|apply H; assumption]. Qed.
Lemma symmetrise_same n A i j : symmetric n A -> (i < n)%nat -> (j < n)%nat -> symmetrise A i j = A i j.
Proof. intros H Hi Hj. unfold symmetrise. rewrite (H j i Hj Hi). lra. Qed.

Lemma sumn_part n f k : (forall i, (i < n)%nat -> 0 <= f i) -> (k <= n)%nat -> sumn k f <= sumn n f.
Proof.
  intros H Hk. induction n as [|n IH]; [assert (k = 0)%nat as -> by lia; lra|]. destruct (Nat.eq_dec k (S n)) as [-> | N]; [lra|].
  cbn [sumn]. pose proof (IH ltac:(intros; apply H; lia) ltac:(lia)). pose proof (H n ltac:(lia)). lra.
Qed.

Lemma shares_spec eigh argsort n cov : exact_eigen eigh -> sorts Rle 0 argsort ->
  exists sh, shares eigh argsort n cov = Ok sh /\ (forall f, 0 <= sh f <= 1) /\ (forall f g, (f <= g)%nat -> sh g <= sh f) /\ sh 0%nat + sh 1%nat + sh 2%nat <= 1.
Proof.
  intros E SA. destruct (E n _ (lower_sym n cov)) as (d & Q & EQ & D). unfold shares. rewrite EQ. set (e := fun k => Rmax (d k) 0).
  destruct (order_descending argsort n e SA) as [P S0]. fold e. change (map (fun k => Rmax (d k) 0) (seq 0 n)) with (map e (seq 0 n)). set (order := rev (argsort (map e (seq 0 n)))) in *.
  assert (E0 : forall k, 0 <= e k) by (intros k; apply Rmax_r). set (s := sumn n (fun k => e (nth k order 0%nat))).
  assert (SP : forall k, (k <= n)%nat -> sumn k (fun k => e (nth k order 0%nat)) <= s) by (intros k Hk; apply (sumn_part n (fun k => e (nth k order 0%nat))); auto).
  assert (Pos : 0 <= s) by (apply sumn_nonneg; auto).
  set (total := if Rltb 0 s then s else 1). assert (T0 : 0 < total) by (unfold total; destruct (Rltb 0 s) eqn:B; [apply Rltb_true in B|]; lra).
  assert (TS : s <= total) by (unfold total; destruct (Rltb 0 s) eqn:B; [lra|apply Rltb_false in B; lra]).
  set (sh := fun f => if Nat.ltb f n then e (nth f order 0%nat) / total else 0).
  assert (NN : forall f, 0 <= sh f) by (intros f; unfold sh; destruct (Nat.ltb f n); [|lra]; apply Rmult_le_pos; [apply E0|apply Rlt_le, Rinv_0_lt_compat, T0]).
  assert (SS : forall k, sumn k sh <= 1).
  { assert (A : forall k, (k <= n)%nat -> sumn k sh <= 1).
    { intros k Hk. apply (Rle_trans _ (sumn k (fun f => e (nth f order 0%nat)) / total)).
      - unfold Rdiv. rewrite <- sumn_scale_r. apply sumn_le. intros f Hf. unfold sh. replace (Nat.ltb f n) with true by (symmetry; apply Nat.ltb_lt; lia). unfold Rdiv. lra.
      - apply (Rmult_le_reg_r total); [exact T0|]. unfold Rdiv. rewrite Rmult_assoc, Rinv_l by lra. specialize (SP k Hk). lra. }
    intros k. destruct (le_lt_dec k n) as [L|L]; [apply A, L|]. clear - A L. induction k as [|k IH]; [lia|]. cbn [sumn]. unfold sh at 2. replace (Nat.ltb k n) with false by (symmetry; apply Nat.ltb_ge; lia).
    rewrite Rplus_0_r. destruct (Nat.eq_dec k n) as [-> | N]; [apply A; lia|apply IH; lia]. }
  exists sh. split; [reflexivity|]. split; [|split].
  - intros f. split; [apply NN|]. eapply Rle_trans; [|apply (SS (S f))]. cbn [sumn]. pose proof (sumn_nonneg f sh ltac:(auto)). lra.
  - intros f g L. unfold sh. destruct (Nat.ltb g n) eqn:G; [|fold (sh f); apply NN]. apply Nat.ltb_lt in G. replace (Nat.ltb f n) with true by (symmetry; apply Nat.ltb_lt; lia).
    apply Rmult_le_compat_r; [apply Rlt_le, Rinv_0_lt_compat, T0|]. apply S0; assumption.
  - specialize (SS 3%nat). rewrite sumn3 in SS. exact SS.
Qed.

Lemma shares_match eigh argsort n mean cov scen p sh : exact_eigen eigh -> reads_entries eigh -> sorts Rle 0 argsort -> (3 <= n)%nat ->
  symmetric n cov -> psd n cov -> 0 < sumn n (fun i => cov i i) ->
  project eigh argsort n mean n n cov scen None = Ok p -> shares eigh argsort n cov = Ok sh ->
  forall f, (f < 3)%nat -> sh f = pj_cov p f f / sumn n (fun i => cov i i).
Proof.
  intros E RE SA Hn SY PS TR HP HS f Hf.
  assert (EE : eigh n (lower_triangle cov) = eigh n (symmetrise cov)).
  { apply RE. intros i j Hi Hj. rewrite (lower_same n) by assumption. rewrite (symmetrise_same n) by assumption. reflexivity. }
  destruct (E n (symmetrise cov) (sym_symmetrise n cov)) as (d & Q & EQ & D). unfold shares in HS. rewrite EE, EQ in HS.
  unfold project in HP. rewrite !Nat.eqb_refl in HP. cbn [negb] in HP. cbv zeta in HP. replace (Nat.leb 3 n) with true in HP by (symmetry; apply Nat.leb_le; exact Hn).
  rewrite EQ in HP. cbn [bind] in HP. injection HP as <-. cbn [pj_cov].
  assert (DP : forall k, (k < n)%nat -> Rmax (d k) 0 = d k).
  { intros k Hk. apply Rmax_left. apply (eig_psd n _ d Q D k (psd_symmetrise n cov PS) Hk). }
  assert (ML : map (fun k => Rmax (d k) 0) (seq 0 n) = map d (seq 0 n)) by (apply map_ext_in; intros k Hk; apply in_seq in Hk; apply DP; lia).
  cbv zeta in HS. rewrite ML in HS. injection HS as <-. destruct (order_descending argsort n d SA) as [P S0]. set (order := rev (argsort (map d (seq 0 n)))) in *.
  assert (TT : sumn n (fun k => Rmax (d (nth k order 0%nat)) 0) = sumn n (fun i => cov i i)).
  { transitivity (sumn n (fun k => d (nth k order 0%nat))); [apply sumn_ext; intros k Hk; apply DP, (perm_nth_lt n); assumption|].
    rewrite (sumn_perm n order d P). rewrite <- (eig_trace n _ d Q D). apply sumn_ext. intros i Hi. apply (symmetrise_same n); assumption. }
  rewrite TT. replace (Rltb 0 (sumn n (fun i => cov i i))) with true by (symmetry; apply Rltb_true; exact TR).
  replace (Nat.ltb f n) with true by (symmetry; apply Nat.ltb_lt; lia). rewrite DP by (apply (perm_nth_lt n); [exact P|lia]).
  f_equal. pose proof (eig_form n _ _ _ (decomposition_perm n _ d Q order P D) f f ltac:(lia) ltac:(lia)) as F. rewrite delta_refl, Rmult_1_l in F. symmetry. exact F.
Qed.

Lemma draw_panel_spec eigh argsort mean cov scen m : exact_eigen eigh -> sorts Rle 0 argsort -> psd 3 cov ->
  exists pn, draw_panel eigh argsort mean cov scen m = Ok pn /\ p3_mean pn = mean /\ p3_scen pn = scen /\
    (exists e, forall i j a, p3_mesh pn i j a = e i j a + mean a /\ on_ellipsoid (symmetrise cov) m (e i j) /\
       forall b, (dot 3 b (e i j)) ^ 2 <= m ^ 2 * (quad 3 cov b + tiny * dot 3 b b)) /\
    principal_axes eigh argsort mean cov = Ok (p3_axes pn).
Proof.
  intros E SA P. destruct (mesh_spec eigh cov m 32 E P) as (e & Ee & He). destruct (axes_spec eigh argsort mean cov E SA P) as (ax & v & l & Ea & _).
  unfold draw_panel. rewrite Ee. cbn [bind]. rewrite Ea. cbn [bind]. eexists. split; [reflexivity|]. cbn [p3_mean p3_scen p3_mesh p3_axes]. split; [reflexivity|]. split; [reflexivity|].
  split; [|reflexivity]. exists e. intros i j a. split; [reflexivity|]. apply He.
Qed.

Lemma project_psd eigh argsort n mean r c cov scen comp p : project eigh argsort n mean r c cov scen comp = Ok p -> psd n cov -> psd 3 (pj_cov p).
Proof. intros H P a. rewrite (project_cov _ _ _ _ _ _ _ _ _ _ _ H). apply P. Qed.

Definition shapes_ok (n : nat) (r c : nat) (scen unc : option (nat * nat * mat)) (mp : Z) : Prop :=
  r = n /\ c = n /\ (forall T k X, scen = Some (T, k, X) -> k = n /\ (0 <= mp \/ Z.of_nat T <= mp)%Z) /\ (forall r' c' U, unc = Some (r', c', U) -> r' = n /\ c' = n).

Lemma figure_accepts eigh argsort n mean r c cov scen unc m mu mp : exact_eigen eigh -> sorts Rle 0 argsort -> psd n cov ->
  (forall r' c' U, unc = Some (r', c', U) -> psd n U) ->
  (exists fig, plot_assumptions_3d eigh argsort n mean r c cov scen unc m mu mp = Ok fig) <-> shapes_ok n r c scen unc mp.
Proof.
  intros E SA P PU. unfold plot_assumptions_3d, shapes_ok. split.
  - intros (fig & H). apply bind_ok in H as (sc & Es & H). apply bind_ok in H as (p & Ep & H).
    destruct (proj1 (project_ok eigh argsort n mean r c cov sc None E) (ex_intro _ p Ep)) as [-> ->].
    apply bind_ok in H as (sh & _ & H). apply bind_ok in H as (main & _ & H). split; [reflexivity|]. split; [reflexivity|]. split.
    + intros T k X ->. destruct (Nat.eqb_spec k n) as [-> | N]; cbn [negb] in Es; [|discriminate]. split; [reflexivity|].
      apply bind_ok in Es as (idx & Ei & _). destruct (Z_lt_le_dec mp 0) as [L|L]; [|auto]. destruct (Z_lt_le_dec mp (Z.of_nat T)) as [L'|L']; [|auto].
      rewrite (proj2 (proj2 (shown_rows_spec T mp)) L L') in Ei. discriminate.
    + intros r' c' U ->. apply bind_ok in H as (q & Eq & _). apply (proj1 (project_ok eigh argsort n mean r' c' U None (Some (pj_comp p)) E)). eauto.
  - intros (-> & -> & HS & HU).
    assert (ES : exists sc, match scen with None => Ok None | Some (T, k, X) => if negb (Nat.eqb k n) then Err ValueError else let* idx := shown_rows T mp in Ok (Some (List.length idx, fun t i => X (nth t idx 0%nat) i)) end = Ok sc).
    { destruct scen as [[[T k] X]|]; [|eauto]. destruct (HS T k X eq_refl) as [-> HM]. rewrite Nat.eqb_refl. cbn [negb].
      destruct (Z_le_gt_dec (Z.of_nat T) mp) as [L|L].
      - rewrite (proj1 (shown_rows_spec T mp) L). cbn [bind]. eauto.
      - destruct (proj1 (proj2 (shown_rows_spec T mp)) ltac:(lia)) as (idx & -> & _). cbn [bind]. eauto. }
    destruct ES as (sc & ->). cbn [bind]. destruct (proj2 (project_ok eigh argsort n mean n n cov sc None E) (conj eq_refl eq_refl)) as (p & Ep). rewrite Ep. cbn [bind].
    destruct (shares_spec eigh argsort n cov E SA) as (sh & -> & _). cbn [bind].
    destruct (draw_panel_spec eigh argsort (pj_mean p) (pj_cov p) (pj_scen p) m E SA (project_psd _ _ _ _ _ _ _ _ _ _ Ep P)) as (pn & -> & _). cbn [bind].
    destruct unc as [[[r' c'] U]|]; [|eauto]. destruct (HU r' c' U eq_refl) as [-> ->].
    destruct (proj2 (project_ok eigh argsort n mean n n U None (Some (pj_comp p)) E) (conj eq_refl eq_refl)) as (q & Eq). rewrite Eq. cbn [bind].
    destruct (draw_panel_spec eigh argsort (pj_mean q) (pj_cov q) None mu E SA (project_psd _ _ _ _ _ _ _ _ _ _ Eq (PU n n U eq_refl))) as (pn' & -> & _). cbn [bind]. eauto.
Qed.
