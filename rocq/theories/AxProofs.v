(** Mean-variance with inexact solvers. *)
From Coq Require Import List ZArith Lia Lra Psatz.
Import ListNotations.
From Verif Require Import Err RBase QpBase OptModel OptSpec OptProofs OptProofs3 AxSpec.
Open Scope R_scope.
Open Scope list_scope.

Lemma near_mv n mean P q G A target d w :
  near_qp d (mv_qp n mean P q G A target) w -> near_constrained d n G A w /\ near_meets d n mean target w.
Proof.
  intros [H1 H2]. cbn [qp_ineq qp_eq qp_n mv_qp] in *. destruct target as [t|]; cbn [with_target near_meets] in *.
  - split; [split; [intros g h Hi; apply H1, in_or_app; left; exact Hi|exact H2]|].
    specialize (H1 (hcat n (ropp mean) zrow) (- t)). rewrite dot_hcat0, dot_ropp in H1.
    assert (- dot n mean w <= - t + d) by (apply H1, in_or_app; simpl; auto). lra.
  - split; [split; assumption|exact I].
Qed.

Lemma mv_near_spec solve n mean P q G A target d e w : approx_qp d e solve ->
  mv_solve_target solve n mean P q G A target = Ok w ->
  exists r, (r = 0 \/ r = mv_ridge n P) /\
    (solve (mv_qp n mean P q G A target) <> None -> r = 0) /\
    near_constrained d n G A w /\ near_meets d n mean target w /\
    within e (fun w => constrained n G A w /\ meets n mean target w)
      (fun w => quad n P w / 2 + dot n q w + r / 2 * dot n w w) w.
Proof.
  intros Hs H. unfold mv_solve_target in H.
  destruct (solve (mv_qp n mean P q G A target)) as [x|] eqn:E1.
  - injection H as <-. apply Hs in E1 as [Hf Ho]. exists 0. split; [auto|]. split; [auto|].
    apply near_mv in Hf as [F1 F2]. split; [exact F1|]. split; [exact F2|].
    intros w' Hw'. apply (mv_feasible_iff n mean P q) in Hw'. specialize (Ho w' Hw').
    unfold qp_obj in Ho; simpl in Ho. lra.
  - destruct (solve (mv_qp n mean (add_ridge (mv_ridge n P) P) q G A target)) as [x|] eqn:E2; [|discriminate].
    injection H as <-. apply Hs in E2 as [Hf Ho]. exists (mv_ridge n P). split; [auto|]. split; [congruence|].
    apply near_mv in Hf as [F1 F2]. split; [exact F1|]. split; [exact F2|].
    intros w' Hw'. apply (mv_feasible_iff n mean (add_ridge (mv_ridge n P) P) q) in Hw'.
    specialize (Ho w' Hw'). unfold qp_obj in Ho; simpl in Ho. rewrite !quad_ridge in Ho. lra.
Qed.

Lemma mv_near solve n mean cov G A w0 lam target d e w : approx_qp d e solve ->
  (forall l, lam = Some l -> w0 <> None -> length l = n) ->
  mv_portfolio solve n mean cov G A w0 lam target = Ok w ->
  near_constrained d n G A w /\ near_meets d n mean target w /\
  exists r, 0 <= r /\ within e (fun w => constrained n G A w /\ meets n mean target w)
      (fun w => mv_cost n cov w0 lam w + r / 2 * dot n w w) w /\
    (forall P q, mv_terms n cov w0 lam = Ok (P, q) -> solve (mv_qp n mean P q G A target) <> None -> r = 0).
Proof.
  intros Hs Hl H. unfold mv_portfolio in H. apply bind_ok in H as ([P q] & Ht & H).
  destruct (mv_objective n cov w0 lam P q Hl Ht) as [k Hk].
  destruct (mv_near_spec solve n mean P q G A target d e w Hs H) as (r & Hr & Hr0 & F1 & F2 & Ho).
  split; [exact F1|]. split; [exact F2|]. exists r. split; [|split].
  - destruct Hr as [->| ->]; [lra|]. unfold mv_ridge. eapply Rle_trans; [|apply Rmax_l]. lra.
  - intros w' Hw'. specialize (Ho w' Hw'). cbv beta in Ho. rewrite !Hk in Ho. lra.
  - intros P' q' E. rewrite Ht in E. injection E as <- <-. exact Hr0.
Qed.

(** ** Quadratic costs along a segment *)
Definition mix (s : R) (u v : vec) : vec := fun i => u i + s * (v i - u i).

Lemma dot_mix n a s u v : dot n a (mix s u v) = (1 - s) * dot n a u + s * dot n a v.
Proof.
  unfold mix. rewrite (dot_ext n a (fun i => u i + s * (v i - u i)) a (fun i => (1 - s) * u i + s * v i)) by (intros; ring).
  rewrite dot_plus_r, !dot_scale_r. reflexivity.
Qed.

Lemma quad_mix n P s u v : quad n P (mix s u v) = (1 - s) * quad n P u + s * quad n P v - s * (1 - s) * quad n P (fun i => v i - u i).
Proof.
  unfold quad, mix. rewrite <- !sumn_scale. rewrite <- sumn_plus, <- sumn_minus. apply sumn_ext. intros i Hi.
  rewrite <- !sumn_scale. rewrite <- sumn_plus, <- sumn_minus. apply sumn_ext. intros j Hj. ring.
Qed.

Definition impact_curv (n : nat) (w0 lam : option (list R)) (v : vec) : R :=
  match w0, lam with Some _, Some l => sumn n (fun i => nth i l 0 * v i ^ 2) | _, _ => 0 end.

Lemma impact_mix n w0 lam s u v : impact n w0 lam (mix s u v) = (1 - s) * impact n w0 lam u + s * impact n w0 lam v - s * (1 - s) * impact_curv n w0 lam (fun i => v i - u i).
Proof.
  unfold impact, impact_curv, mix. destruct w0 as [a|]; [destruct lam as [l|]|]; try ring.
  rewrite <- !sumn_scale. rewrite <- sumn_plus, <- sumn_minus. apply sumn_ext. intros i Hi. ring.
Qed.

Lemma impact_curv_pos n w0 lam v : (forall l x, lam = Some l -> In x l -> 0 <= x) -> 0 <= impact_curv n w0 lam v.
Proof.
  intros H. unfold impact_curv. destruct w0 as [a|]; [destruct lam as [l|]|]; try lra. apply sumn_nonneg. intros i Hi.
  apply Rmult_le_pos; [|apply pow2_ge_0]. destruct (nth_in_or_default i l 0) as [Hin| ->]; [exact (H l _ eq_refl Hin)|lra].
Qed.

Lemma penalty_mix n l s u v : penalty n l (mix s u v) = (1 - s) * penalty n l u + s * penalty n l v.
Proof.
  unfold penalty. induction l as [|r l IH]; [rewrite !rsum_nil || (cbn; ring)|].
  cbn [map]. rewrite !rsum_cons, IH, dot_mix. ring.
Qed.

Lemma target_penalty_mix n mean t zt s u v : target_penalty n mean t zt (mix s u v) = (1 - s) * target_penalty n mean t zt u + s * target_penalty n mean t zt v.
Proof. unfold target_penalty. destruct t; [rewrite dot_mix|]; ring. Qed.

(** A function that is affine up to [- s (1-s) Q] on segments grows by [Q] from a minimum. *)
Lemma curv_limit a b Q : (forall s, 0 < s <= 1 -> a <= (1 - s) * a + s * b - s * (1 - s) * Q) -> a + Q <= b.
Proof.
  intros H. destruct (Rle_lt_dec (a + Q) b) as [L|L]; [exact L|exfalso]. set (g := a + Q - b) in *. assert (G : 0 < g) by (unfold g; lra).
  assert (QP : 0 <= Q \/ Q < 0) by lra.
  set (s := Rmin 1 (g / (2 * (Rabs Q + 1)))).
  assert (S0 : 0 < s). { unfold s. apply Rmin_glb_lt; [lra|]. apply Rdiv_lt_0_compat; [lra|]. pose proof (Rabs_pos Q). lra. }
  assert (S1 : s <= 1) by (unfold s; apply Rmin_l).
  specialize (H s (conj S0 S1)).
  assert (s * a <= s * (b - (1 - s) * Q)) by lra. apply Rmult_le_reg_l in H0; [|exact S0].
  assert (K : s * Rabs Q <= g / 2).
  { assert (s <= g / (2 * (Rabs Q + 1))) by apply Rmin_r. pose proof (Rabs_pos Q).
    apply Rle_trans with (g / (2 * (Rabs Q + 1)) * Rabs Q); [apply Rmult_le_compat_r; lra|].
    apply (Rmult_le_reg_r (2 * (Rabs Q + 1))); [lra|]. replace (g / (2 * (Rabs Q + 1)) * Rabs Q * (2 * (Rabs Q + 1))) with (g * Rabs Q) by (field; lra). nra. }
  assert (s * Q <= s * Rabs Q) by (apply Rmult_le_compat_l; [lra|apply Rle_abs]). unfold g in *. lra.
Qed.


Lemma penalty_near n l w d : 0 <= d -> (forall r, In r l -> snd r * (dot n (fst (fst r)) w - snd (fst r)) <= Rabs (snd r) * d) -> penalty n l w <= mass l * d.
Proof.
  intros D. induction l as [|r l IH]; intros H; unfold penalty, mass in *; cbn [map]; [cbn; lra|]. rewrite !rsum_cons, Rmult_plus_distr_r.
  apply Rplus_le_compat; [apply H; left; reflexivity|apply IH; intros; apply H; right; assumption].
Qed.

Lemma in_fst l (r : vec * R * R) (L : rows) : map fst l = L -> In r l -> In (fst (fst r), snd (fst r)) L.
Proof. intros <- H. replace (fst (fst r), snd (fst r)) with (fst r) by (destruct r as [[? ?] ?]; reflexivity). apply in_map. exact H. Qed.

Lemma saddle_growth n G A mean target cov w0 lam zs ys zt ws m w : saddle n G A mean target (mv_cost n cov w0 lam) zs ys zt ws ->
  (forall x, m * dot n x x <= quad n cov x) -> (forall l x, lam = Some l -> In x l -> 0 <= x) ->
  mv_cost n cov w0 lam ws + m * dot n (fun i => w i - ws i) (fun i => w i - ws i) <=
  mv_cost n cov w0 lam w + penalty n zs w + penalty n ys w + target_penalty n mean target zt w.
Proof.
  intros [S1 S2 S3 [SF SM] SMin SS] Hm Hl.
  assert (Y0 : penalty n ys ws = 0).
  { destruct SF as [_ SE]. unfold penalty. assert (Q : forall r, In r ys -> snd r * (dot n (fst (fst r)) ws - snd (fst r)) = 0).
    { intros r Hr. rewrite (SE (fst (fst r)) (snd (fst r))) by (apply (in_fst ys r _ S2 Hr)). ring. }
    clear - Q. induction ys as [|r l IH]; [reflexivity|]. cbn [map]. rewrite rsum_cons, (Q r (or_introl eq_refl)), IH; [ring|]. intros; apply Q; right; assumption. }
  set (L := fun x => mv_cost n cov w0 lam x + penalty n zs x + penalty n ys x + target_penalty n mean target zt x).
  set (Q := quad n cov (fun i => w i - ws i) + impact_curv n w0 lam (fun i => w i - ws i)).
  assert (G1 : L ws + Q <= L w).
  { apply curv_limit. intros s Hs. eapply Rle_trans; [apply (SMin (mix s ws w))|]. unfold L, mv_cost, Q.
    rewrite quad_mix, impact_mix, !penalty_mix, target_penalty_mix. lra. }
  pose proof (Hm (fun i => w i - ws i)). pose proof (impact_curv_pos n w0 lam (fun i => w i - ws i) Hl). unfold L, Q in *. lra.
Qed.

Lemma mass_pos l : 0 <= mass l.
Proof. unfold mass. induction l as [|r l IH]; cbn [map]; [cbn; lra|]. rewrite rsum_cons. pose proof (Rabs_pos (snd r)). lra. Qed.

Lemma mv_close solve n mean cov G A w0 lam target d e w P q zs ys zt ws m : approx_qp d e solve -> 0 <= d ->
  (forall l, lam = Some l -> w0 <> None -> length l = n) -> (forall l x, lam = Some l -> In x l -> 0 <= x) ->
  (forall x, m * dot n x x <= quad n cov x) ->
  mv_portfolio solve n mean cov G A w0 lam target = Ok w ->
  mv_terms n cov w0 lam = Ok (P, q) -> solve (mv_qp n mean P q G A target) <> None ->
  saddle n G A mean target (mv_cost n cov w0 lam) zs ys zt ws ->
  mv_cost n cov w0 lam w <= mv_cost n cov w0 lam ws + e /\
  mv_cost n cov w0 lam ws + m * dot n (fun i => w i - ws i) (fun i => w i - ws i) - d * (mass zs + mass ys + zt) <= mv_cost n cov w0 lam w.
Proof.
  intros Hs D Hl Hl0 Hm H Ht Hsome SD. destruct (mv_near solve n mean cov G A w0 lam target d e w Hs Hl H) as ([F1 F2] & F3 & r & R0 & W & Rz).
  rewrite (Rz P q Ht Hsome) in W. split.
  - pose proof (W ws (sd_feasible _ _ _ _ _ _ _ _ _ _ SD)). cbv beta in H0. lra.
  - pose proof (saddle_growth n G A mean target cov w0 lam zs ys zt ws m w SD Hm Hl0) as SG. destruct SD as [S1 S2 [S3 S4] SF SMin SS].
    assert (PZ : penalty n zs w <= mass zs * d).
    { apply penalty_near; [exact D|]. intros x Hx. pose proof (S3 x Hx) as X0. rewrite (Rabs_right (snd x)) by lra. apply Rmult_le_compat_l; [exact X0|].
      pose proof (F1 _ _ (in_fst zs x _ S1 Hx)). lra. }
    assert (PY : penalty n ys w <= mass ys * d).
    { apply penalty_near; [exact D|]. intros x Hx. eapply Rle_trans; [apply Rle_abs|]. rewrite Rabs_mult. apply Rmult_le_compat_l; [apply Rabs_pos|].
      apply (F2 _ _ (in_fst ys x _ S2 Hx)). }
    assert (PT : target_penalty n mean target zt w <= zt * d).
    { unfold target_penalty. destruct target as [t|]; cbn [near_meets] in F3; [apply Rmult_le_compat_l; lra|]. apply Rmult_le_pos; assumption. }
    lra.
Qed.
