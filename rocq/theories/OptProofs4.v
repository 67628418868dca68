(** Proofs about RelaxedRiskParity. *)
From Verif Require Import RBase QpBase OptModel OptSpec OptProofs OptProofs2 OptProofs3.
Open Scope R_scope.

Lemma dot_xrow n u x : dot (n + (n + 4)) (xrow n u) x = dot n u x.
Proof. apply dot_hcat_pad. Qed.
Lemma dot_zetarow n u x : dot (n + (n + 4)) (zetarow n u) x = dot n u (shift n x).
Proof. unfold zetarow. rewrite dot_hcat, dot_zrow, dot_hcat_pad. lra. Qed.
Lemma dot_vec4 a b c d y : dot 4 (vec4 a b c d) y = a * y 0%nat + b * y 1%nat + c * y 2%nat + d * y 3%nat.
Proof. unfold dot, vec4, of_list. simpl. ring. Qed.
Definition tl4 (n : nat) (x : vec) : vec := shift n (shift n x).
Lemma dot_tailrow n a b c d x : dot (n + (n + 4)) (tailrow n (vec4 a b c d)) x =
  a * tl4 n x 0%nat + b * tl4 n x 1%nat + c * tl4 n x 2%nat + d * tl4 n x 3%nat.
Proof. unfold tailrow. rewrite dot_hcat, dot_hcat, !dot_zrow, dot_vec4. unfold tl4. lra. Qed.

Lemma is_ones_false n a : is_ones n a = false <-> exists i, (i < n)%nat /\ 2 / 100000000 < Rabs (a i - 1).
Proof.
  unfold is_ones. rewrite <- not_true_iff_false, forallb_forall. split.
  - intros H. apply Classical_Prop.NNPP. intros Hn. apply H. intros i Hi. apply in_seq in Hi. apply Rleb_true.
    apply Rnot_lt_le. intros Hlt. apply Hn. exists i. split; [lia|lra].
  - intros (i & Hi & Hlt) H. specialize (H i ltac:(apply in_seq; lia)). apply Rleb_true in H. lra.
Qed.

Lemma budget_test n A : existsb (fun ab => is_ones n (fst ab)) (opt_rows A) = false <->
  (forall a b, In (a, b) (opt_rows A) -> exists i, (i < n)%nat /\ 2 / 100000000 < Rabs (a i - 1)).
Proof.
  split.
  - intros H a b Hi. apply is_ones_false. destruct (is_ones n a) eqn:E; auto.
    assert (K : existsb (fun ab => is_ones n (fst ab)) (opt_rows A) = true) by (apply existsb_exists; exists (a, b); auto). congruence.
  - intros H. destruct (existsb _ _) eqn:E; auto. apply existsb_exists in E as ([a b] & Hi & Ht). simpl in Ht.
    specialize (H a b Hi). apply is_ones_false in H. congruence.
Qed.

Section Decode.
Variables (n : nat) (mean : vec) (cov L : mat) (bud : vec) (lam : R) (G A : option rows) (target : option R).
Hypothesis Hbud : forall i, (i < n)%nat -> 0 <= bud i.

Let P := rrp_cp n mean cov L bud lam G A target.

Lemma theta_sq i : theta_sqrt cov i * theta_sqrt cov i = Rmax (cov i i) 0.
Proof. unfold theta_sqrt. apply sqrt_sqrt. apply Rmax_r. Qed.

Lemma arc_cone x i : (i < n)%nat ->
  soc_ok (n + (n + 4)) [ rplus (xrow n (ropp (eye_row i))) (zetarow n (ropp (eye_row i)));
                  tailrow n (vec4 0 (- (2 * sqrt (bud i))) 0 0);
                  rplus (xrow n (ropp (eye_row i))) (zetarow n (eye_row i)) ] x <->
  0 <= x i + shift n x i /\ bud i * tl4 n x 1%nat ^ 2 <= x i * shift n x i.
Proof.
  intros Hi. rewrite soc3, !dot_rplus, !dot_xrow, !dot_zetarow, dot_tailrow, !dot_ropp, !dot_eye by auto.
  assert (Eb : sqrt (bud i) * sqrt (bud i) = bud i) by (apply sqrt_sqrt; auto).
  set (sb := sqrt (bud i)) in *. set (g := tl4 n x 1%nat). set (a := x i). set (z := shift n x i).
  replace (0 * tl4 n x 0%nat + - (2 * sb) * g + 0 * tl4 n x 2%nat + 0 * tl4 n x 3%nat) with (- (2 * sb) * g) by ring.
  rewrite sqrt_le_iff by (apply Rplus_le_le_0_compat; apply Rle_0_sqr).
  clearbody sb g a z. rewrite <- Eb. clear Eb.
  split; intros [H1 H2]; split; try lra; nra.
Qed.

Lemma ceiling_cones x : soc_ok (n + (n + 4)) (tailrow n (vec4 0 0 0 (-1)) :: map (fun i => xrow n (ropp (L i))) (seq 0 n)) x ->
  soc_ok (n + (n + 4)) [ tailrow n (vec4 (- sqrt (INR n)) 0 0 0); tailrow n (vec4 0 0 0 (-1)); tailrow n (vec4 0 0 (- sqrt (INR n)) 0) ] x ->
  dot n (mv n L x) (mv n L x) + INR n * tl4 n x 2%nat ^ 2 <= INR n * tl4 n x 0%nat ^ 2.
Proof.
  rewrite soc_map, soc3, !dot_tailrow.
  assert (En : sqrt (INR n) * sqrt (INR n) = INR n) by (apply sqrt_sqrt, pos_INR).
  set (sn := sqrt (INR n)) in *. set (psi := tl4 n x 0%nat). set (rho := tl4 n x 2%nat). set (q := tl4 n x 3%nat). set (g := tl4 n x 1%nat).
  rewrite (sumn_ext n (fun i => dot (n + (n + 4)) (xrow n (ropp (L i))) x * dot (n + (n + 4)) (xrow n (ropp (L i))) x)
     (fun i => mv n L x i * mv n L x i)) by (intros; rewrite dot_xrow, dot_ropp; unfold mv; ring).
  change (sumn n (fun i => mv n L x i * mv n L x i)) with (dot n (mv n L x) (mv n L x)).
  pose proof (dot_self_nonneg n (mv n L x)) as Hd.
  intros H1 H2. apply sqrt_le_iff in H1 as [H1 H3]; auto.
  match type of H2 with sqrt ?e <= _ => assert (He : 0 <= e) by nra end.
  apply sqrt_le_iff in H2 as [H2 H4]; auto. rewrite <- En. nra.
Qed.

Lemma reg_cone x : 0 < lam ->
  soc_ok (n + (n + 4)) (tailrow n (vec4 0 0 (-1) 0) ::
       map (fun i => xrow n (fun j => if (i =? j)%nat then - (sqrt lam * theta_sqrt cov i) else 0)) (seq 0 n)) x <->
  0 <= tl4 n x 2%nat /\ lam * sumn n (fun i => Rmax (cov i i) 0 * x i ^ 2) <= tl4 n x 2%nat ^ 2.
Proof.
  intros Hl. rewrite soc_map, dot_tailrow.
  assert (E : sumn n (fun i => dot (n + (n + 4)) (xrow n (fun j => if (i =? j)%nat then - (sqrt lam * theta_sqrt cov i) else 0)) x *
      dot (n + (n + 4)) (xrow n (fun j => if (i =? j)%nat then - (sqrt lam * theta_sqrt cov i) else 0)) x) =
      lam * sumn n (fun i => Rmax (cov i i) 0 * x i ^ 2)).
  { rewrite <- sumn_scale. apply sumn_ext. intros i Hi. rewrite dot_xrow.
    assert (D : dot n (fun j => if (i =? j)%nat then - (sqrt lam * theta_sqrt cov i) else 0) x = - (sqrt lam * theta_sqrt cov i) * x i).
    { unfold dot. rewrite <- (sumn_delta_r n i (fun j => - (sqrt lam * theta_sqrt cov i) * x j) Hi). apply sumn_ext.
      intros j _. unfold delta. destruct (i =? j)%nat; ring. }
    rewrite D, <- (theta_sq i). pose proof (sqrt_sqrt lam ltac:(lra)) as El.
    replace (- (sqrt lam * theta_sqrt cov i) * x i * (- (sqrt lam * theta_sqrt cov i) * x i)) with
      ((sqrt lam * sqrt lam) * (theta_sqrt cov i * theta_sqrt cov i * x i ^ 2)) by ring.
    rewrite El. ring. }
  rewrite E. set (rho := tl4 n x 2%nat).
  rewrite sqrt_le_iff.
  - split; intros [H1 H2]; split; try lra; nra.
  - apply Rmult_le_pos; [lra|]. apply sumn_nonneg. intros i _. apply Rmult_le_pos; [apply Rmax_r|apply pow2_ge_0].
Qed.

Lemma in_rrp_lin g h : In (g, h) (rrp_lin n mean G target) <->
  (exists i, (i < n)%nat /\ (xrow n (ropp (eye_row i)), 0) = (g, h)) \/
  (exists i, (i < n)%nat /\ (zetarow n (ropp (eye_row i)), 0) = (g, h)) \/
  (tailrow n (vec4 (-1) 0 0 0), 0) = (g, h) \/ (tailrow n (vec4 0 (-1) 0 0), 0) = (g, h) \/ (tailrow n (vec4 0 0 (-1) 0), 0) = (g, h) \/
  (exists g' h', In (g', h') (opt_rows G) /\ (xrow n g', h') = (g, h)) \/
  (exists t, target = Some t /\ (xrow n (ropp mean), - t) = (g, h)).
Proof.
  unfold rrp_lin. rewrite !in_app_iff, !in_map_seq. simpl.
  assert (E1 : In (g, h) (map (fun gh => (xrow n (fst gh), snd gh)) (opt_rows G)) <->
               exists g' h', In (g', h') (opt_rows G) /\ (xrow n g', h') = (g, h)).
  { rewrite in_map_iff. split.
    - intros ([g' h'] & E & Hi). eauto.
    - intros (g' & h' & Hi & E). exists (g', h'). auto. }
  rewrite E1.
  assert (E2 : In (g, h) (match target with Some t => [(xrow n (ropp mean), - t)] | None => [] end) <->
               exists t, target = Some t /\ (xrow n (ropp mean), - t) = (g, h)).
  { destruct target as [t|]; simpl; split.
    - intros [E|[]]. eauto.
    - intros (t' & Et & E). injection Et as <-. auto.
    - tauto.
    - intros (t' & Et & _). discriminate. }
  rewrite E2. tauto.
Qed.

Lemma rrp_sound x : cp_feasible P x ->
  rrp_point n mean cov L bud lam G A target x (tl4 n x 0%nat) (tl4 n x 1%nat) (tl4 n x 2%nat) /\
  forall i, (i < n)%nat -> shift n x i = mv n cov x i.
Proof.
  intros (H1 & H2 & H3). unfold P, rrp_cp in H1, H2, H3; simpl in H1, H2, H3.
  assert (K1 : forall i, (i < n)%nat -> 0 <= x i).
  { intros i Hi. specialize (H1 (xrow n (ropp (eye_row i))) 0). rewrite dot_xrow, dot_ropp, dot_eye in H1 by auto.
    enough (- x i <= 0) by lra. apply H1, in_rrp_lin. left; eauto. }
  assert (K2 : forall i, (i < n)%nat -> 0 <= shift n x i).
  { intros i Hi. specialize (H1 (zetarow n (ropp (eye_row i))) 0). rewrite dot_zetarow, dot_ropp, dot_eye in H1 by auto.
    enough (- shift n x i <= 0) by lra. apply H1, in_rrp_lin. right; left; eauto. }
  assert (K3 : forall i, (i < n)%nat -> shift n x i = mv n cov x i).
  { intros i Hi. specialize (H2 (rplus (xrow n (ropp (cov i))) (zetarow n (eye_row i))) 0).
    rewrite dot_rplus, dot_xrow, dot_zetarow, dot_ropp, dot_eye in H2 by auto. unfold mv.
    enough (- dot n (cov i) x + shift n x i = 0) by lra. apply H2. unfold rrp_eq. apply in_or_app. left.
    apply in_map_seq. eauto. }
  assert (S1 := H3 _ (or_introl eq_refl)). assert (S2 := H3 _ (or_intror (or_introl eq_refl))).
  split; [|exact K3]. constructor; auto.
  - intros i Hi. rewrite <- K3 by auto. auto.
  - repeat split.
    + specialize (H1 (tailrow n (vec4 (-1) 0 0 0)) 0). rewrite dot_tailrow in H1.
      enough (-1 * tl4 n x 0%nat + 0 * tl4 n x 1%nat + 0 * tl4 n x 2%nat + 0 * tl4 n x 3%nat <= 0) by lra.
      apply H1, in_rrp_lin. tauto.
    + specialize (H1 (tailrow n (vec4 0 (-1) 0 0)) 0). rewrite dot_tailrow in H1.
      enough (0 * tl4 n x 0%nat + -1 * tl4 n x 1%nat + 0 * tl4 n x 2%nat + 0 * tl4 n x 3%nat <= 0) by lra.
      apply H1, in_rrp_lin. tauto.
    + specialize (H1 (tailrow n (vec4 0 0 (-1) 0)) 0). rewrite dot_tailrow in H1.
      enough (0 * tl4 n x 0%nat + 0 * tl4 n x 1%nat + -1 * tl4 n x 2%nat + 0 * tl4 n x 3%nat <= 0) by lra.
      apply H1, in_rrp_lin. tauto.
  - split.
    + intros g h Hi. rewrite <- dot_xrow. apply H1, in_rrp_lin. do 5 right. left. eauto.
    + intros a b Hi. rewrite <- dot_xrow. apply H2. unfold rrp_eq. apply in_or_app. right. apply in_or_app. right.
      apply in_map_iff. exists (a, b). auto.
  - intros Hb. apply budget_test in Hb. unfold rrp_eq in H2. rewrite Hb in H2.
    specialize (H2 (xrow n (cst 1)) 1). rewrite dot_xrow in H2. rewrite <- (dot_ones n (cst 1)) by reflexivity.
    apply H2. apply in_or_app. right. simpl. auto.
  - destruct target as [t|] eqn:Et; simpl; auto. specialize (H1 (xrow n (ropp mean)) (- t)). rewrite dot_xrow, dot_ropp in H1.
    enough (- dot n mean x <= - t) by lra. apply H1. unfold rrp_lin. rewrite !in_app_iff. simpl. tauto.
  - intros i Hi. unfold risk_contribution. rewrite <- K3 by auto. apply arc_cone; auto. apply H3.
    right. right. apply in_or_app. right. apply in_map_seq. eauto.
  - apply ceiling_cones; auto.
  - intros Hl. apply reg_cone; auto. apply H3. right. right. apply in_or_app. left.
    rewrite (proj2 (Rltb_true 0 lam) Hl). left. reflexivity.
Qed.

(** Conversely every point of the documented model extends to a feasible programme point. *)
Lemma rrp_complete x psi gamma rho : rrp_point n mean cov L bud lam G A target x psi gamma rho ->
  exists y, cp_feasible P y /\ cp_obj P y = psi - gamma.
Proof.
  intros [R1 R2 R3 R4 R5 R6 R7 R8 R9].
  set (y := hcat n x (hcat n (mv n cov x) (vec4 psi gamma rho (norm2 n (mv n L x))))).
  assert (Y1 : forall i, (i < n)%nat -> y i = x i) by (intros; apply hcat_l; auto).
  assert (Y2 : forall i, (i < n)%nat -> shift n y i = mv n cov x i) by (intros; unfold shift, y; rewrite hcat_r, hcat_l by auto; reflexivity).
  assert (Y3 : forall i, tl4 n y i = vec4 psi gamma rho (norm2 n (mv n L x)) i) by (intros; unfold tl4, shift, y; rewrite !hcat_r; reflexivity).
  assert (Hd : forall g, dot n g y = dot n g x) by (intros; apply dot_ext_r; auto).
  assert (T0 : tl4 n y 0%nat = psi) by (rewrite Y3; reflexivity).
  assert (T1 : tl4 n y 1%nat = gamma) by (rewrite Y3; reflexivity).
  assert (T2 : tl4 n y 2%nat = rho) by (rewrite Y3; reflexivity).
  assert (T3 : tl4 n y 3%nat = norm2 n (mv n L x)) by (rewrite Y3; reflexivity).
  exists y. split.
  - unfold P, rrp_cp, cp_feasible; simpl. split; [|split].
    + intros g h Hi. apply in_rrp_lin in Hi as [(i & Hi & E)|[(i & Hi & E)|[E|[E|[E|[(g' & h' & Hi & E)|(t & Et & E)]]]]]]; injection E as <- <-.
      * rewrite dot_xrow, dot_ropp, dot_eye, Y1 by auto. specialize (R1 i Hi). lra.
      * rewrite dot_zetarow, dot_ropp, dot_eye, Y2 by auto. specialize (R2 i Hi). lra.
      * rewrite dot_tailrow, T0. lra.
      * rewrite dot_tailrow, T1. lra.
      * rewrite dot_tailrow, T2. lra.
      * rewrite dot_xrow, Hd. apply R4. auto.
      * rewrite dot_xrow, dot_ropp, Hd. rewrite Et in R6. simpl in R6. lra.
    + intros a b Hi. unfold rrp_eq in Hi. apply in_app_or in Hi as [Hi|Hi].
      * apply in_map_seq in Hi as (i & Hi & E). injection E as <- <-.
        rewrite dot_rplus, dot_xrow, dot_zetarow, dot_ropp, dot_eye, Hd, Y2 by auto. unfold mv. lra.
      * apply in_app_or in Hi as [Hi|Hi].
        { destruct (existsb _ _) eqn:Eb; [destruct Hi|]. destruct Hi as [Hi|[]]. injection Hi as <- <-.
          rewrite dot_xrow, Hd, dot_ones by reflexivity. apply R5. apply budget_test. auto. }
        apply in_map_iff in Hi as ([a' b'] & E & Hi). injection E as <- <-. simpl. rewrite dot_xrow, Hd. apply R4. auto.
    + assert (En : sqrt (INR n) * sqrt (INR n) = INR n) by (apply sqrt_sqrt, pos_INR).
      assert (Hsn : 0 <= sqrt (INR n)) by apply sqrt_pos.
      assert (Enn : norm2 n (mv n L x) * norm2 n (mv n L x) = dot n (mv n L x) (mv n L x)) by (unfold norm2; apply sqrt_sqrt, dot_self_nonneg).
      intros blk Hi. destruct Hi as [<-|[<-|Hi]].
      * { rewrite soc_map, dot_tailrow, T0, T1, T2, T3.
          rewrite (sumn_ext n _ (fun i => mv n L x i * mv n L x i)) by (intros; rewrite dot_xrow, dot_ropp, Hd; unfold mv; ring).
          change (sumn n (fun i => mv n L x i * mv n L x i)) with (dot n (mv n L x) (mv n L x)). unfold norm2. lra. }
      * { rewrite soc3, !dot_tailrow, T0, T1, T2, T3.
          match goal with |- sqrt ?e <= _ => assert (He : 0 <= e) by nra end.
          apply sqrt_le_iff; auto. set (sn := sqrt (INR n)) in *. clearbody sn. split; [nra|].
          apply Rle_trans with (dot n (mv n L x) (mv n L x) + INR n * rho ^ 2).
          - right. rewrite <- Enn, <- En. ring.
          - eapply Rle_trans; [exact R8|]. right. rewrite <- En. ring. }
      * apply in_app_or in Hi as [Hi|Hi].
        { destruct (Rltb_spec 0 lam) as [Hl|]; [|destruct Hi]. destruct Hi as [<-|[]]. apply reg_cone; auto.
          rewrite T2. split; [apply R3|]. specialize (R9 Hl). 
          rewrite (sumn_ext n _ (fun i => Rmax (cov i i) 0 * x i ^ 2)) by (intros; rewrite Y1; auto). exact R9. }
        apply in_map_seq in Hi as (i & Hi & <-). apply arc_cone; auto. rewrite T1, Y1, Y2 by auto. split.
        { specialize (R1 i Hi). specialize (R2 i Hi). lra. }
        apply R7. auto.
  - unfold P, cp_obj, rrp_cp; simpl. rewrite dot_tailrow, T0, T1. ring.
Qed.

Lemma rrp_obj x : cp_obj P x = tl4 n x 0%nat - tl4 n x 1%nat.
Proof. unfold P, cp_obj, rrp_cp; simpl. rewrite dot_tailrow. ring. Qed.
End Decode.

(** * Budgets *)
Lemma risk_budgets_l n rb bud : risk_budgets n rb = Ok bud -> (n <> 0)%nat ->
  exists k, 0 < k /\ (forall i, (i < n)%nat -> bud i = k * share n rb i /\ 0 < share n rb i) /\
    Rabs (sumn n bud - 1) <= 2 / 100000.
Proof.
  intros H Hn. assert (HN : 0 < INR n) by (apply lt_0_INR; lia). unfold risk_budgets in H. destruct rb as [rb|].
  - apply guard_ok in H as [H1 H]. apply guard_ok in H as [H2 H]. apply Nat.eqb_eq in H1.
    apply negb_true_iff in H2.
    assert (Hpos : forall i, (i < n)%nat -> 0 < nth i rb 0).
    { intros i Hi. apply Rnot_le_lt. intros Hle. assert (K : existsb (fun b => Rleb b 0) rb = true).
      { apply existsb_exists. exists (nth i rb 0). split; [apply nth_In; lia|]. apply Rleb_true. auto. } congruence. }
    assert (Hsum : rsum rb = sumn n (fun i => nth i rb 0)).
    { transitivity (rsum (map (fun i => nth i rb 0) (seq 0 (length rb)))).
      - f_equal. clear. induction rb as [|a rb IH]; simpl; [reflexivity|]. f_equal. rewrite <- seq_shift, map_map. exact IH.
      - rewrite rsum_seq, H1. reflexivity. }
    assert (Hsp : 0 < rsum rb).
    { apply rsum_pos; [destruct rb; simpl in *; [lia|discriminate]|]. intros x Hx. apply (In_nth _ _ 0) in Hx as (i & Hi & <-). apply Hpos. lia. }
    unfold risclose in H. destruct (Rleb_spec (Rabs (rsum rb - 1)) (1 / 100000000 + 1 / 100000 * Rabs 1)) as [Hc|Hc];
      injection H as <-.
    + exists 1. split; [lra|]. split.
      * intros i Hi. unfold of_list, share. split; [ring|auto].
      * rewrite Rabs_R1 in Hc. unfold of_list. rewrite <- Hsum. lra.
    + exists (/ rsum rb). split; [apply Rinv_0_lt_compat; auto|]. split.
      * intros i Hi. unfold of_list, share. split; [unfold Rdiv; ring|auto].
      * rewrite sumn_div. unfold of_list. rewrite <- Hsum. replace (rsum rb / rsum rb - 1) with 0 by (field; lra). rewrite Rabs_R0. lra.
  - injection H as <-. exists (1 / INR n). split; [apply Rdiv_lt_0_compat; lra|]. split.
    + intros i Hi. unfold share. split; lra.
    + rewrite sumn_const. replace (INR n * (1 / INR n) - 1) with 0 by (field; lra). rewrite Rabs_R0. lra.
Qed.

Lemma risk_budgets_nonneg n rb bud i : risk_budgets n rb = Ok bud -> (i < n)%nat -> 0 < bud i.
Proof.
  intros H Hi. destruct (risk_budgets_l n rb bud H ltac:(lia)) as (k & Hk & Hb & _).
  destruct (Hb i Hi) as [-> Hs]. apply Rmult_lt_0_compat; auto.
Qed.

(** * The call *)
Lemma rrp_solve_inv conelp lp chol n mean cov0 G A rb lam target mint r : exact_cp conelp -> exact_chol chol ->
  rrp_solve conelp lp chol n mean cov0 G A rb lam target mint = Ok r ->
  exists L bud j, 0 <= lam /\ cholesky_pd chol n (symmetrise cov0) = Ok L /\ risk_budgets n rb = Ok bud /\
    0 <= j <= 1 / 10000000 /\ (chol n (symmetrise (symmetrise cov0)) <> None -> j = 0) /\
    is_cholesky n (plus_jitter (symmetrise (symmetrise cov0)) j) L /\
    match target with
    | None => rr_target r = None /\ rr_max r = None
    | Some t => exists m, max_expected_return lp (rrp_return_lp n mean G A) = Ok m /\
                          rr_target r = Some (clip_target m t mint) /\ rr_max r = Some m
    end /\
    rrp_point n mean (symmetrise cov0) L bud lam G A (rr_target r) (rr_weights r) (rr_psi r) (rr_gamma r) (rr_rho r) /\
    (forall i, (i < n)%nat -> rr_marginal r i = mv n (symmetrise cov0) (rr_weights r) i) /\
    rr_objective r = rr_psi r - rr_gamma r /\
    (forall x psi gamma rho, rrp_point n mean (symmetrise cov0) L bud lam G A (rr_target r) x psi gamma rho ->
       rr_objective r <= psi - gamma).
Proof.
  intros Hs Hch H. unfold rrp_solve in H. apply bind_ok in H as (L & HL & H). apply bind_ok in H as (bud & Hb & H).
  destruct (Rltb_spec lam 0) as [|Hlam]; [discriminate|]. apply bind_ok in H as (mt & Hm & H).
  destruct (conelp _) as [x|] eqn:E; [|discriminate]. injection H as <-. apply Hs in E as [Hf Ho].
  destruct (cholesky_pd_l chol n _ L Hch HL) as (j & Hj1 & Hj2 & Hj3).
  assert (Hbn : forall i, (i < n)%nat -> 0 <= bud i) by (intros; apply Rlt_le; eapply risk_budgets_nonneg; eauto).
  exists L, bud, j. repeat match goal with |- _ /\ _ => split end; auto; try lra; cbn [rr_target rr_max rr_weights rr_psi rr_gamma rr_rho rr_marginal rr_objective].
  - destruct target as [t|].
    + apply bind_ok in Hm as (m & Hm & E). injection E as <-. exists m. auto.
    + injection Hm as <-. auto.
  - destruct (rrp_sound n mean (symmetrise cov0) L bud lam G A (fst mt) Hbn x Hf) as [Hp _].
    unfold tl4, shift in Hp.
    replace (n + n + 1)%nat with (n + (n + 1))%nat by lia. replace (n + n + 2)%nat with (n + (n + 2))%nat by lia.
    replace (n + n)%nat with (n + (n + 0))%nat by lia. exact Hp.
  - destruct (rrp_sound n mean (symmetrise cov0) L bud lam G A (fst mt) Hbn x Hf) as [_ Hz]. exact Hz.
  - intros x' psi gamma rho Hp. destruct (rrp_complete n mean (symmetrise cov0) L bud lam G A (fst mt) Hbn x' psi gamma rho Hp) as (y & Hy & Hyo).
    specialize (Ho y Hy). rewrite Hyo in Ho. rewrite rrp_obj in Ho. unfold tl4, shift in Ho.
    replace (n + n + 1)%nat with (n + (n + 1))%nat by lia. replace (n + n)%nat with (n + (n + 0))%nat by lia. lra.
Qed.
