(** Relative entropy and linear transforms. *)
From Verif Require Import RBase QpBase SortLib OptModel ConsModel DistModel ProbRModel ProbRSpec RiskModel RiskSpec RiskProofs MomSpec MomProofs BlModel EpModel StModel FvSpec FvProofs FvProofs5 StSpec StProofs StProofs2 StProofs3.
From Verif Require MomModel.
Open Scope R_scope.
Open Scope list_scope.

Lemma eps_pos : 0 < kl_eps.
Proof. unfold kl_eps. apply Rinv_0_lt_compat. lra. Qed.
Lemma eps_lt1 : kl_eps < 1.
Proof. unfold kl_eps. rewrite <- Rinv_1. apply Rinv_lt_contravar; lra. Qed.

Definition up (x : R) : R := Rmax x kl_eps.
Lemma up_pos x : 0 < up x.
Proof. unfold up. pose proof eps_pos. pose proof (Rmax_r x kl_eps). lra. Qed.
Lemma up_ge x : x <= up x.
Proof. apply Rmax_l. Qed.
Lemma up_id x : kl_eps <= x -> up x = x.
Proof. intros H. unfold up. apply Rmax_left. lra. Qed.
Lemma up_le x : 0 <= x -> up x <= x + kl_eps.
Proof. intros H. unfold up. pose proof eps_pos. apply Rmax_lub; lra. Qed.

Lemma kl_unfold q p : kl_divergence q p = rsum (map2 (fun a b => up a * ln (up a / up b)) q p).
Proof. reflexivity. Qed.

(** [a ln (a/b) >= a - b], with equality only for [a = b]. *)
Lemma gibbs_term a b : 0 < a -> 0 < b -> a - b <= a * ln (a / b) /\ (a * ln (a / b) <= a - b -> a = b).
Proof.
  intros Ha Hb. assert (E : a * ln (a / b) = - (a * ln (b / a))).
  { replace (a / b) with (/ (b / a)) by (field; lra). rewrite ln_Rinv; [ring|]. apply Rdiv_lt_0_compat; auto. }
  assert (Hr : 0 < b / a) by (apply Rdiv_lt_0_compat; auto).
  assert (F : a * (b / a - 1) = b - a) by (field; lra). split.
  - pose proof (ln_le_sub1 (b / a) Hr) as L. apply (Rmult_le_compat_l a) in L; lra.
  - intros H. destruct (Req_dec (b / a) 1) as [e|n].
    + apply (f_equal (fun z => z * a)) in e. replace (b / a * a) with b in e by (field; lra). lra.
    + pose proof (ln_lt_sub1 (b / a) Hr n) as L. apply (Rmult_lt_compat_l a) in L; lra.
Qed.
Lemma rsum_map2_le {A B} (f g : A -> B -> R) l m : (forall a b, In a l -> In b m -> f a b <= g a b) -> rsum (map2 f l m) <= rsum (map2 g l m).
Proof.
  revert m. induction l as [|a l IH]; intros [|b m] H; cbn [map2]; try (simpl; lra). rewrite !rsum_cons.
  pose proof (H a b (or_introl eq_refl) (or_introl eq_refl)). specialize (IH m). assert (rsum (map2 f l m) <= rsum (map2 g l m)); [apply IH; intros; apply H; right; auto|lra].
Qed.
Lemma rsum_map2_minus (f g : R -> R) l m : List.length l = List.length m -> rsum (map2 (fun a b => f a - g b) l m) = rsum (map f l) - rsum (map g m).
Proof.
  revert m. induction l as [|a l IH]; intros [|b m] H; cbn [map2 map]; try discriminate; [simpl; lra|]. rewrite !rsum_cons. rewrite IH by (simpl in H; lia). lra.
Qed.

Lemma kl_lower q p : List.length q = List.length p -> rsum (map up q) - rsum (map up p) <= kl_divergence q p.
Proof.
  intros Hl. rewrite kl_unfold, <- rsum_map2_minus by auto. apply rsum_map2_le. intros a b _ _. apply gibbs_term; apply up_pos.
Qed.
Lemma kl_equal q p : List.length q = List.length p -> kl_divergence q p <= rsum (map up q) - rsum (map up p) -> map up q = map up p.
Proof.
  rewrite kl_unfold. revert p. induction q as [|a q IH]; intros [|b p] Hl H; try discriminate; [reflexivity|]. cbn [map2 map] in *. rewrite !rsum_cons in H. simpl in Hl.
  assert (Hl' : List.length q = List.length p) by lia. pose proof (kl_lower q p Hl') as L. rewrite kl_unfold in L.
  destruct (gibbs_term (up a) (up b) (up_pos a) (up_pos b)) as [G1 G2]. f_equal; [apply G2; lra|apply IH; auto; lra].
Qed.
Lemma sum_up_ge q : rsum q <= rsum (map up q).
Proof. rewrite <- (map_id q) at 1. apply rsum_le. intros. apply up_ge. Qed.
Lemma sum_up_le q : (forall x, In x q -> 0 <= x) -> rsum (map up q) <= rsum q + INR (List.length q) * kl_eps.
Proof.
  intros H. rewrite <- (rsum_const kl_eps q), <- (map_id q) at 1. replace (rsum q) with (rsum (map (fun x => x) q)) by (rewrite map_id; reflexivity).
  rewrite <- rsum_plus. rewrite map_id. apply rsum_le. intros x Hx. apply up_le. auto.
Qed.
Lemma map_up_id p : (forall x, In x p -> kl_eps <= x) -> map up p = p.
Proof. intros H. rewrite <- (map_id p) at 2. apply map_ext_in. intros x Hx. apply up_id. auto. Qed.

Lemma kl_almost q p : List.length q = List.length p -> distribution q -> distribution p -> - (INR (List.length p) * kl_eps) <= kl_divergence q p.
Proof.
  intros Hl [Hq Sq] [Hp Sp]. pose proof (kl_lower q p Hl). pose proof (sum_up_ge q). pose proof (sum_up_le p Hp). lra.
Qed.
Lemma kl_nonneg q p : List.length q = List.length p -> distribution q -> distribution p -> (forall x, In x p -> kl_eps <= x) ->
  0 <= kl_divergence q p /\ (kl_divergence q p = 0 <-> q = p).
Proof.
  intros Hl [Hq Sq] [Hp Sp] He. pose proof (kl_lower q p Hl) as L. pose proof (sum_up_ge q) as G. rewrite (map_up_id p He), Sp in L.
  split; [lra|]. split.
  - intros E. assert (E1 : rsum (map up q) = 1) by lra. assert (M : map up q = map up p) by (apply kl_equal; auto; rewrite (map_up_id p He); lra).
    rewrite (map_up_id p He) in M. rewrite <- M. clear - E1 Sq Hq.
    assert (H : forall x, In x q -> up x = x).
    { intros x Hx. pose proof (up_ge x). destruct (Rle_lt_or_eq_dec x (up x) H) as [Hlt|Heq]; auto. exfalso.
      assert (rsum (map (fun y => y) q) < rsum (map up q)); [|rewrite map_id in *; lra].
      apply rsum_lt; [intros; apply up_ge|]. exists x. auto. }
    rewrite <- (map_id q) at 1. symmetry. apply map_ext_in. exact H.
  - intros ->. rewrite kl_unfold. clear. induction p as [|b p IH]; [reflexivity|]. cbn [map2]. rewrite rsum_cons, IH.
    replace (up b / up b) with 1 by (field; pose proof (up_pos b); lra). rewrite ln_1. lra.
Qed.
Lemma kl_refl p : kl_divergence p p = 0.
Proof.
  rewrite kl_unfold. induction p as [|b p IH]; [reflexivity|]. cbn [map2]. rewrite rsum_cons, IH.
  replace (up b / up b) with 1 by (field; pose proof (up_pos b); lra). rewrite ln_1. lra.
Qed.
Lemma kl_exact q p : (forall x, In x q -> kl_eps <= x) -> (forall x, In x p -> kl_eps <= x) -> kl_divergence q p = rel_entropy q p.
Proof.
  intros Hq Hp. rewrite kl_unfold. unfold rel_entropy. revert p Hp. induction q as [|a q IH]; intros [|b p] Hp; try reflexivity. cbn [map2]. rewrite !rsum_cons.
  rewrite IH; [|intros x Hx; apply Hq; right; auto|intros x Hx; apply Hp; right; auto]. rewrite (up_id a), (up_id b) by (solve [apply Hq; left; auto|apply Hp; left; auto]).
  destruct (Req_EM_T a 0) as [e|]; [|reflexivity]. pose proof (Hq a (or_introl eq_refl)). pose proof eps_pos. lra.
Qed.
Lemma kl_bounded q p : List.length q = List.length p -> distribution q -> kl_divergence q p <= (1 + INR (List.length q) * kl_eps) * ln (10 ^ 16).
Proof.
  intros Hl [Hq Sq]. assert (HL : 0 < ln (10 ^ 16)) by (rewrite <- ln_1; apply ln_increasing; lra).
  apply Rle_trans with (rsum (map up q) * ln (10 ^ 16)).
  - rewrite kl_unfold. rewrite <- rsum_scale_r.
    assert (H1 : forall x, In x q -> up x <= 1).
    { intros x Hx. unfold up. apply Rmax_lub; [|left; apply eps_lt1]. rewrite <- Sq. apply rsum_ge_elem; auto. }
    clear Sq. revert p Hl H1. induction q as [|a q IH]; intros [|b p] Hl H1; try discriminate; [simpl; lra|]. cbn [map2 map]. rewrite !rsum_cons. simpl in Hl.
    specialize (IH (fun x Hx => Hq x (or_intror Hx)) p). assert (rsum (map2 (fun a0 b0 => up a0 * ln (up a0 / up b0)) q p) <= rsum (map (fun x => up x * ln (10 ^ 16)) q)).
    { apply IH; [lia|]. intros x Hx. apply H1. right; auto. }
    assert (up a * ln (up a / up b) <= up a * ln (10 ^ 16)); [|lra]. apply Rmult_le_compat_l; [left; apply up_pos|].
    assert (up a / up b <= 10 ^ 16).
    { apply Rle_trans with (1 / kl_eps).
      - apply Rmult_le_compat; [left; apply up_pos|left; apply Rinv_0_lt_compat, up_pos|apply H1; left; auto|]. apply Rinv_le_contravar; [apply eps_pos|]. apply Rmax_r.
      - right. unfold kl_eps. field. }
    destruct H0 as [H0|H0]; [left; apply ln_increasing; auto; apply Rdiv_lt_0_compat; apply up_pos|rewrite H0; lra].
  - apply Rmult_le_compat_r; [lra|]. pose proof (sum_up_le q Hq). lra.
Qed.

(** ** Affine P&L *)
Lemma expect_affine p x a b : List.length p = List.length x -> rsum p = 1 -> expect p (map (fun y => a * y + b) x) (fun y => y) = a * expect p x (fun y => y) + b.
Proof.
  intros Hl Hs. unfold expect. assert (G : rsum (map2 (fun q y => q * y) p (map (fun y => a * y + b) x)) = a * rsum (map2 (fun q y => q * y) p x) + b * rsum p).
  { clear Hs. revert x Hl. induction p as [|q p IH]; intros [|y x] Hl; try discriminate; [simpl; lra|]. cbn [map map2]. rewrite !rsum_cons. simpl in Hl. rewrite IH by lia. lra. }
  rewrite G, Hs. lra.
Qed.
Lemma expect_sq_affine p x a b m : List.length p = List.length x ->
  expect p (map (fun y => a * y + b) x) (fun y => (y - (a * m + b)) ^ 2) = a ^ 2 * expect p x (fun y => (y - m) ^ 2).
Proof.
  intros Hl. unfold expect. revert x Hl. induction p as [|q p IH]; intros [|y x] Hl; try discriminate; [simpl; lra|]. cbn [map map2]. rewrite !rsum_cons. simpl in Hl. rewrite IH by lia. lra.
Qed.
(** Measures of [a x + b] from measures of [x], for [a > 0]. *)
Lemma measured_affine p x conf dm a b mean sd var cvar mean' sd' var' cvar' : prob_vector p (List.length x) -> 0 < conf < 1 -> 0 < a ->
  measured p x conf dm mean sd var cvar -> measured p (map (fun y => a * y + b) x) conf dm mean' sd' var' cvar' ->
  let b' := match dm with DBool true => 0 | _ => b end in
  mean' = a * mean + b /\ sd' = a * sd /\ var' = a * var - b' /\ cvar' = a * cvar - b'.
Proof.
  intros Hp Hc Ha (E1 & S0 & S1 & Q & C) (E1' & S0' & S1' & Q' & C') b'. pose proof Hp as (Hl & Hn & Hs).
  assert (EM : mean' = a * mean + b) by (rewrite E1', E1; apply expect_affine; auto). split; auto. split.
  - assert (Sq : sd' ^ 2 = (a * sd) ^ 2). { rewrite S1', EM, expect_sq_affine by auto. rewrite <- S1. ring. }
    assert (0 <= a * sd) by (apply Rmult_le_pos; lra). simpl in Sq. nra.
  - set (x' := net_of dm p x) in *. set (y' := net_of dm p (map (fun y => a * y + b) x)) in *.
    assert (Lx : List.length x' = List.length x) by apply net_length.
    assert (Ly : List.length y' = List.length x') by (unfold y', x'; rewrite !net_length, map_length; reflexivity).
    assert (Hp' : prob_vector p (List.length x')) by (rewrite Lx; exact Hp).
    assert (HY : forall i, (i < List.length x')%nat -> nth i y' 0 = a * nth i x' 0 + b').
    { intros i Hi. rewrite Lx in Hi. unfold y', x', net_of, b'. destruct dm as [|[|]|]; rewrite ?map_map.
      - rewrite (nth_map_lt _ x i 0) by auto. reflexivity.
      - rewrite !(nth_map_lt _ x i 0) by auto. rewrite (expect_affine p x a b) by auto. ring.
      - rewrite (nth_map_lt _ x i 0) by auto. reflexivity.
      - rewrite (nth_map_lt _ x i 0) by auto. reflexivity. }
    split.
    + assert (Q2 : is_quantile p y' (1 - conf) (a * (- var) + b')) by (apply (quantile_affine p x'); auto).
      pose proof (quantile_unique _ _ _ _ _ Hn Q' Q2). lra.
    + apply (cvar_affine_l p x' y' (1 - conf) a b'); auto. lra.
Qed.

Lemma col_affine T F G a b j : (forall t, (t < T)%nat -> G t j = a * F t j + b) -> col T G j = map (fun y => a * y + b) (col T F j).
Proof. intros H. unfold col. rewrite map_map. apply map_ext_in. intros t Ht. apply in_seq in Ht. apply H. lia. Qed.
