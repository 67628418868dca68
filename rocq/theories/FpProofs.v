(** Rounding-error analysis of VaR and CVaR. *)
From Flocq Require Import Core.
From Verif Require Import RBase SortLib RiskModel RiskSpec RiskProofs FpLib FpModel FpSpec.
Open Scope R_scope.

Lemma eta_ur : eta <= ur * ur.
Proof. unfold eta, ur. rewrite <- bpow_plus. apply bpow_le. lia. Qed.
Lemma fcumsum_length a l : length (fcumsum a l) = length l.
Proof. revert a; induction l; simpl; intros; auto. Qed.

Lemma acc_step a A k p : isf a -> isf p -> 0 <= A -> 0 <= p -> Rabs (a - A) <= gam k * A ->
  Rabs (fadd a p - (A + p)) <= gam (S k) * (A + p).
Proof.
  intros Ha Hp HA H0 H. pose proof (fadd_abs a p Ha Hp) as F. pose proof (gam_ge0 k). pose proof ur_pos.
  assert (E : gam (S k) = gam k + ur * (1 + gam k)) by (unfold gam; cbn [pow]; ring).
  assert (Rabs (a + p) <= (1 + gam k) * (A + p)).
  { replace (a + p) with ((a - A) + (A + p)) by ring. eapply Rle_trans; [apply Rabs_triang|]. rewrite (Rabs_pos_eq (A + p)) by lra. nra. }
  replace (fadd a p - (A + p)) with ((fadd a p - (a + p)) + (a - A)) by ring. eapply Rle_trans; [apply Rabs_triang|].
  assert (ur * Rabs (a + p) <= ur * ((1 + gam k) * (A + p))) by (apply Rmult_le_compat_l; lra). rewrite E. nra.
Qed.

(** The mask of the rounded cumulative sums picks a value whose exact probabilities bracket the tail level. *)
Lemma f_search s : forall a A k tail e i, StronglySorted Rle (map snd s) -> (forall z, In z s -> 0 <= fst z /\ isf (fst z)) ->
  isf a -> 0 <= A -> Rabs (a - A) <= gam k * A -> a < tail -> gam (k + length s) * (A + rsum (map fst s)) <= e ->
  first_true (map (fun c => Rleb tail c) (fcumsum a (map fst s))) = Some i ->
  (i < length s)%nat /\ let q := nth i (map snd s) 0 in
  A + pairs_prob s (fun y => Rltb y q) < tail + e /\ tail - e <= A + pairs_prob s (fun y => Rleb y q) /\
  pairs_prob s (fun y => Rltb y q) < pairs_prob s (fun y => Rleb y q).
Proof.
  induction s as [|[q0 x0] s IH]; intros a A k tail e i Hs Hn Ha HA He Hat Hg Hf; [discriminate Hf|].
  cbn [map fst snd fcumsum first_true] in *. inversion Hs as [|? ? Hs' Hfa]; subst. rewrite Forall_forall in Hfa.
  assert (Hn' : forall z, In z s -> 0 <= fst z /\ isf (fst z)) by (intros; apply Hn; right; assumption).
  destruct (Hn (q0, x0)) as (Hq0 & Fq0); [left; reflexivity|]. cbn [fst] in Hq0, Fq0.
  pose proof (acc_step a A k q0 Ha Fq0 HA Hq0 He) as HS.
  assert (Sn : 0 <= rsum (map fst s)). { apply rsum_nonneg. intros y Hy. apply in_map_iff in Hy as (z & <- & Hz). apply Hn'; exact Hz. }
  rewrite rsum_cons in Hg. cbn [length] in Hg.
  destruct (Rleb_spec tail (fadd a q0)) as [Hle|Hgt].
  - injection Hf as <-. split; [simpl; lia|]. cbn [nth]. cbv zeta. rewrite !pairs_prob_cons. cbn [fst snd].
    rewrite (pairs_prob_zero s). 2:{ intros z Hz. apply Rltb_false, Hfa, in_map. exact Hz. }
    destruct (Rltb_spec x0 x0); [lra|]. destruct (Rleb_spec x0 x0); [|lra].
    pose proof (pairs_prob_nonneg s (fun y => Rleb y x0) (fun z Hz => proj1 (Hn' z Hz))) as Pn.
    assert (G1 : gam k <= gam (k + S (length s))) by (apply gam_mono; lia). assert (G2 : gam (S k) <= gam (k + S (length s))) by (apply gam_mono; lia).
    pose proof (gam_ge0 k). pose proof (gam_ge0 (S k)). 
    assert (B1 : gam k * A <= e) by nra. assert (B2 : gam (S k) * (A + q0) <= e) by nra.
    apply Rabs_bd in HS. apply Rabs_bd in He.
    assert (q0 <> 0). { intros ->. unfold fadd in Hle. rewrite Rplus_0_r, rnd_id in Hle by assumption. lra. }
    repeat split; lra.
  - destruct (first_true (map _ (fcumsum (fadd a q0) _))) as [j|] eqn:Ej; [|discriminate Hf]. injection Hf as <-.
    destruct (IH (fadd a q0) (A + q0) (S k) tail e j Hs' Hn') as (Hlt & Hq).
    + apply rnd_isf. + lra. + exact HS. + lra.
    + replace (S k + length s)%nat with (k + S (length s))%nat by lia. rewrite Rplus_assoc. exact Hg. + exact Ej.
    + split; [simpl; lia|]. cbn [nth]. cbv zeta in *. set (q := nth j (map snd s) 0) in *.
      assert (Hxq : x0 <= q). { apply Hfa. apply nth_In. rewrite map_length. exact Hlt. }
      rewrite !pairs_prob_cons. cbn [fst snd]. destruct (Rleb_spec x0 q); [|lra]. destruct (Rltb_spec x0 q); lra.
Qed.

Lemma first_true_none l : first_true l = None -> forall b, In b l -> b = false.
Proof.
  induction l as [|b l IH]; intros H c Hc; [destruct Hc|]. destruct b; [discriminate H|]. cbn [first_true] in H.
  destruct (first_true l) eqn:E; [discriminate H|]. destruct Hc as [<-|Hc]; auto.
Qed.

(** The last cumulative sum is within the error bound of the total. *)
Lemma f_total s : forall a A k, (forall z, In z s -> 0 <= z /\ isf z) -> isf a -> 0 <= A -> Rabs (a - A) <= gam k * A -> s <> [] ->
  exists c, In c (fcumsum a s) /\ Rabs (c - (A + rsum s)) <= gam (k + length s) * (A + rsum s).
Proof.
  induction s as [|p s IH]; intros a A k Hn Ha HA He Hne; [congruence|]. clear Hne.
  destruct (Hn p) as (Hp & Fp); [left; reflexivity|]. pose proof (acc_step a A k p Ha Fp HA Hp He) as HS.
  destruct s as [|p' s].
  - exists (fadd a p). split; [left; reflexivity|]. cbn [rsum fold_right length]. rewrite Rplus_0_r. replace (k + 1)%nat with (S k) by lia. exact HS.
  - destruct (IH (fadd a p) (A + p) (S k)) as (c & Hc & E); [intros; apply Hn; right; assumption|apply rnd_isf|lra|exact HS|discriminate|].
    exists c. split; [right; exact Hc|]. cbn [length] in *. rewrite rsum_cons, <- Rplus_assoc. replace (k + S (S (length s)))%nat with (S k + S (length s))%nat by lia. exact E.
Qed.

(** VaR of binary64 probabilities: exact probabilities bracket the tail level up to the summation error. *)
Lemma f_var_bracket argsort tail x p e : sorts Rle 0 argsort -> length p = length x -> x <> [] ->
  (forall q, In q p -> 0 <= q /\ isf q) -> 0 < tail -> gam (length x) * rsum p <= e -> tail + e <= rsum p ->
  let q := f_var_pnl argsort tail x p in
  In q x /\ prob p x (fun y => Rltb y q) < tail + e /\ tail - e <= prob p x (fun y => Rleb y q) /\
  prob p x (fun y => Rltb y q) < prob p x (fun y => Rleb y q).
Proof.
  intros Hsort Hlen Hne Hnn Ht He Htot. destruct (Hsort x) as [Hperm Hss].
  assert (Hin : forall i, In i (argsort x) -> (i < length x)%nat) by (intros i Hi; eapply argsort_in; [split; eassumption|exact Hi]).
  set (s := take (0,0) (combine p x) (argsort x)).
  assert (Hc : length (combine p x) = length x) by (rewrite combine_length; lia).
  assert (Hs : Permutation s (combine p x)) by (apply take_perm; rewrite Hc; exact Hperm).
  assert (Es : s = combine (take 0 p (argsort x)) (take 0 x (argsort x))) by (apply take_combine; auto).
  assert (E1 : map fst s = take 0 p (argsort x)) by (rewrite Es; clear; unfold take; induction (argsort x); simpl; f_equal; auto).
  assert (E2 : map snd s = take 0 x (argsort x)) by (rewrite Es; clear; unfold take; induction (argsort x); simpl; f_equal; auto).
  assert (Hn : forall z, In z s -> 0 <= fst z /\ isf (fst z)) by (intros z Hz; apply (Permutation_in _ Hs), combine_in in Hz as [Hz _]; auto).
  assert (Esum : rsum (map fst s) = rsum p). { rewrite (rsum_perm _ (map fst (combine p x))) by (apply Permutation_map; exact Hs). apply rsum_fst_combine; auto. }
  assert (El : length s = length x) by (apply Permutation_length in Hs; lia).
  assert (H0 : Rabs (0 - 0) <= gam 0 * 0) by (rewrite Rminus_0_r, Rabs_R0; lra).
  unfold f_var_pnl, argmax_bool. rewrite <- E1, <- E2.
  destruct (first_true (map (fun c => Rleb tail c) (fcumsum 0 (map fst s)))) as [i|] eqn:Ei.
  2:{ exfalso. pose proof (first_true_none _ Ei) as HF.
      destruct (f_total (map fst s) 0 0 0) as (c & Hcin & Hcb).
      - intros z Hz. apply in_map_iff in Hz as (w & <- & Hw). apply Hn; exact Hw.
      - apply isf_0. - lra. - exact H0.
      - intros E. apply map_eq_nil in E. destruct x; [congruence|]. rewrite E in El. discriminate El.
      - rewrite map_length, El, Esum, Rplus_0_l in Hcb. cbn [Nat.add] in Hcb. apply Rabs_bd in Hcb.
        specialize (HF (Rleb tail c)). rewrite Rleb_false in HF. assert (c < tail) by (apply HF; apply in_map_iff; eauto). lra. }
  destruct (f_search s 0 0 0 tail e i) as (Hlt & Hq); auto using isf_0; try lra.
  - rewrite E2; exact Hss.
  - rewrite Esum, El, Rplus_0_l. exact He.
  - cbv zeta in *. set (q := nth i (map snd s) 0) in *. split.
    + assert (In q (map snd s)) as Hq' by (apply nth_In; rewrite map_length; exact Hlt).
      rewrite E2 in Hq'. eapply Permutation_in; [|exact Hq']. apply take_perm. exact Hperm.
    + rewrite !prob_combine. rewrite !(rsum_perm (map _ (combine p x)) (map _ s)) by (apply Permutation_map; symmetry; exact Hs).
      unfold pairs_prob in Hq. lra.
Qed.

(** ** Probabilities rounded to binary64 *)
Lemma prob_rnd p x P : (forall q, In q p -> 0 <= q) ->
  Rabs (prob (map rnd p) x P - prob p x P) <= ur * rsum p + INR (length p) * eta.
Proof.
  intros Hn. unfold prob. revert x. induction p as [|q p IH]; intros x; [simpl; rewrite Rminus_0_r, Rabs_R0; lra|].
  assert (Hq : 0 <= q) by (apply Hn; left; reflexivity). assert (Hn' : forall w, In w p -> 0 <= w) by (intros; apply Hn; right; assumption).
  pose proof ur_pos. pose proof eta_pos. assert (0 <= rsum p) by (apply rsum_nonneg; exact Hn').
  cbn [length]. rewrite S_INR, rsum_cons. destruct x as [|y x].
  { cbn [map map2 rsum fold_right]. rewrite Rminus_0_r, Rabs_R0. pose proof (pos_INR (length p)). nra. }
  specialize (IH Hn' x). cbn [map map2]. rewrite !rsum_cons. pose proof (rnd_abs q) as Hr. rewrite (Rabs_pos_eq q Hq) in Hr.
  destruct (P y).
  - replace (rnd q + rsum (map2 (fun q0 y0 => if P y0 then q0 else 0) (map rnd p) x) - (q + rsum (map2 (fun q0 y0 => if P y0 then q0 else 0) p x)))
      with ((rnd q - q) + (rsum (map2 (fun q0 y0 => if P y0 then q0 else 0) (map rnd p) x) - rsum (map2 (fun q0 y0 => if P y0 then q0 else 0) p x))) by ring.
    eapply Rle_trans; [apply Rabs_triang|]. lra.
  - replace (0 + rsum (map2 (fun q0 y0 => if P y0 then q0 else 0) (map rnd p) x) - (0 + rsum (map2 (fun q0 y0 => if P y0 then q0 else 0) p x)))
      with (rsum (map2 (fun q0 y0 => if P y0 then q0 else 0) (map rnd p) x) - rsum (map2 (fun q0 y0 => if P y0 then q0 else 0) p x)) by ring.
    nra.
Qed.
Lemma sum_rnd p : (forall q, In q p -> 0 <= q) -> Rabs (rsum (map rnd p) - rsum p) <= ur * rsum p + INR (length p) * eta.
Proof.
  intros Hn. pose proof (prob_rnd p (repeat 0 (length p)) (fun _ => true) Hn) as H. unfold prob in H.
  assert (E : forall l, rsum (map2 (fun q y => if (fun _ : R => true) y then q else 0) l (repeat 0 (length l))) = rsum l)
    by (induction l as [|a l IH]; [reflexivity|]; cbn [length repeat map2]; rewrite !rsum_cons; rewrite IH; reflexivity).
  pose proof (E (map rnd p)) as E1. rewrite map_length in E1. pose proof (E p) as E2. cbv beta in *. rewrite E1, E2 in H. exact H.
Qed.
