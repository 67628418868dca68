(** Closed bounded problems attain their optimum: Bolzano-Weierstrass in finite dimension, for the
    quadratic and conic programmes of [QpBase] and [OptModel]. *)
From Coq Require Import ClassicalEpsilon Lia Lra.
From Verif Require Import RBase QpBase OptModel.
Open Scope R_scope.
Open Scope list_scope.

Definition increasing (phi : nat -> nat) : Prop := forall k, (phi k < phi (S k))%nat.
Lemma increasing_ge phi : increasing phi -> forall k, (k <= phi k)%nat.
Proof. intros H. induction k as [|k IH]; [lia|]. specialize (H k). lia. Qed.
Lemma increasing_lt phi : increasing phi -> forall j k, (j < k)%nat -> (phi j < phi k)%nat.
Proof. intros H j k Hjk. induction Hjk as [|k Hk IH]; [apply H|]. specialize (H k). lia. Qed.

Lemma sub_cv (a : nat -> R) phi l : increasing phi -> Un_cv a l -> Un_cv (fun k => a (phi k)) l.
Proof. intros Hp H e He. destruct (H e He) as [N HN]. exists N. intros k Hk. apply HN. pose proof (increasing_ge phi Hp k). lia. Qed.

Lemma bw1 (u : nat -> R) B : (forall k, Rabs (u k) <= B) -> exists phi l, increasing phi /\ Un_cv (fun k => u (phi k)) l.
Proof.
  intros HB. destruct (Bolzano_Weierstrass u (fun c => - B <= c <= B) (compact_P3 (- B) B)) as [l Hl].
  { intros k. specialize (HB k). unfold Rabs in HB. destruct (Rcase_abs (u k)); lra. }
  assert (P : forall (N : nat) (e : posreal), exists p, (N <= p)%nat /\ Rabs (u p - l) < e).
  { intros N e. destruct (Hl (disc l e) N) as (p & Hp & Hd); [exists e; intros x Hx; exact Hx|]. exists p. split; [exact Hp|exact Hd]. }
  set (pick := fun N e => proj1_sig (constructive_indefinite_description _ (P N e))).
  assert (HP : forall N e, (N <= pick N e)%nat /\ Rabs (u (pick N e) - l) < e).
  { intros N e. exact (proj2_sig (constructive_indefinite_description _ (P N e))). }
  set (phi := fix phi k := match k with O => pick O (mkposreal 1 Rlt_0_1) | S k' => pick (S (phi k')) (RinvN (S k')) end).
  exists phi, l. split; [intros k; exact (proj1 (HP (S (phi k)) (RinvN (S k))))|].
  intros e He. destruct (archimed_cor1 e He) as (N & HN & HN0). exists (S N). intros k Hk. unfold R_dist.
  destruct k as [|k]; [lia|]. pose proof (proj2 (HP (S (phi k)) (RinvN (S k)))) as H. change (pick (S (phi k)) (RinvN (S k))) with (phi (S k)) in H.
  eapply Rlt_trans; [exact H|]. change (pos (RinvN (S k))) with (/ (INR (S k) + 1)). eapply Rle_lt_trans; [|exact HN].
  apply Rinv_le_contravar; [apply lt_0_INR; lia|]. assert (L : (N <= S k)%nat) by lia. apply le_INR in L. lra.
Qed.

Definition conv (n : nat) (u : nat -> vec) (x : vec) : Prop := forall i, (i < n)%nat -> Un_cv (fun k => u k i) (x i).
Definition box (n : nat) (B : R) (x : vec) : Prop := forall i, (i < n)%nat -> Rabs (x i) <= B.

Lemma bwn n (u : nat -> vec) B : (forall k, box n B (u k)) -> exists phi x, increasing phi /\ conv n (fun k => u (phi k)) x.
Proof.
  induction n as [|n IH]; intros H.
  - exists (fun k => k), (fun _ => 0). split; [intros k; lia|]. intros i Hi. lia.
  - destruct IH as (phi & x & Hp & Hc). { intros k i Hi. apply H. lia. }
    destruct (bw1 (fun k => u (phi k) n) B) as (psi & l & Hq & Hl). { intros k. apply H. lia. }
    exists (fun k => phi (psi k)), (fun i => if (i =? n)%nat then l else x i). split.
    + intros k. apply increasing_lt; auto.
    + intros i Hi. cbv beta. destruct (Nat.eqb_spec i n) as [-> | Hn]; [exact Hl|].
      apply (sub_cv (fun k => u (phi k) i) psi); auto. apply Hc. lia.
Qed.

Lemma cv_const c : Un_cv (fun _ => c) c.
Proof. intros e He. exists 0%nat. intros. unfold R_dist. rewrite Rminus_eq_0, Rabs_R0. exact He. Qed.
Lemma cv_ext a b l : (forall k, a k = b k) -> Un_cv a l -> Un_cv b l.
Proof. intros E H e He. destruct (H e He) as [N HN]. exists N. intros k Hk. rewrite <- E. auto. Qed.
Lemma cv_sumn n (a : nat -> nat -> R) (l : nat -> R) : (forall i, (i < n)%nat -> Un_cv (fun k => a k i) (l i)) ->
  Un_cv (fun k => sumn n (a k)) (sumn n l).
Proof.
  induction n as [|n IH]; intros H; simpl; [apply cv_const|]. apply (CV_plus (fun k => sumn n (a k)) (fun k => a k n)); [apply IH; auto|apply H; lia].
Qed.
Lemma cv_scale c a l : Un_cv a l -> Un_cv (fun k => c * a k) (c * l).
Proof. intros H. apply (CV_mult (fun _ => c) a); [apply cv_const|exact H]. Qed.
Lemma cv_dot n g u x : conv n u x -> Un_cv (fun k => dot n g (u k)) (dot n g x).
Proof. intros H. apply (cv_sumn n (fun k i => g i * u k i)). intros i Hi. apply cv_scale. auto. Qed.
Lemma cv_quad n P u x : conv n u x -> Un_cv (fun k => quad n P (u k)) (quad n P x).
Proof.
  intros H. unfold quad. apply (cv_sumn n (fun k i => sumn n (fun j => P i j * u k i * u k j))). intros i Hi.
  apply (cv_sumn n (fun k j => P i j * u k i * u k j)). intros j Hj.
  apply (CV_mult (fun k => P i j * u k i) (fun k => u k j)); [apply cv_scale|]; auto.
Qed.
Lemma cv_le a l h : Un_cv a l -> (forall k, a k <= h) -> l <= h.
Proof. intros H Hk. apply (@Rle_cv_lim a (fun _ => h) l h Hk H (cv_const h)). Qed.
Lemma cv_ge a l h : Un_cv a l -> (forall k, h <= a k) -> h <= l.
Proof. intros H Hk. apply (@Rle_cv_lim (fun _ => h) a h l Hk (cv_const h) H). Qed.
Lemma cv_eq_const a l h : Un_cv a l -> (forall k, a k = h) -> l = h.
Proof. intros H Hk. apply Rle_antisym; [apply (cv_le a); [exact H|intros; rewrite Hk; lra]|apply (cv_ge a); [exact H|intros; rewrite Hk; lra]]. Qed.

Definition closed (n : nat) (F : vec -> Prop) : Prop := forall u x, (forall k, F (u k)) -> conv n u x -> F x.
Definition continuous (n : nat) (f : vec -> R) : Prop := forall u x, conv n u x -> Un_cv (fun k => f (u k)) (f x).

Lemma Rbig r : exists M : nat, r < INR M.
Proof.
  destruct (Rle_or_lt r 0) as [H|H]; [exists 1%nat; simpl; lra|].
  assert (Hi : 0 < / r) by (apply Rinv_0_lt_compat; exact H). destruct (archimed_cor1 (/ r) Hi) as (M & HM & H0). exists M.
  assert (0 < INR M) by (apply lt_0_INR; lia). rewrite <- (Rinv_inv r), <- (Rinv_inv (INR M)). apply Rinv_lt_contravar; [|exact HM]. apply Rmult_lt_0_compat; auto using Rinv_0_lt_compat.
Qed.

Theorem attains n B (F : vec -> Prop) f : closed n F -> continuous n f -> (exists x, F x) ->
  (forall x, F x -> exists y, F y /\ f y <= f x /\ box n B y) -> exists x, F x /\ forall y, F y -> f x <= f y.
Proof.
  intros HF Hf [x0 H0] HB.
  set (E := fun r => exists x, F x /\ box n B x /\ r = - f x).
  assert (Hbound : bound E).
  { destruct (classic (bound E)) as [|Hn]; [assumption|]. exfalso.
    assert (Hu : forall k : nat, exists x, F x /\ box n B x /\ INR k < - f x).
    { intros k. destruct (classic (exists x, F x /\ box n B x /\ INR k < - f x)) as [|Hk]; [assumption|]. exfalso. apply Hn. exists (INR k).
      intros r (x & Fx & Bx & ->). destruct (Rle_or_lt (- f x) (INR k)); [assumption|]. exfalso. apply Hk. eauto. }
    set (u := fun k => proj1_sig (constructive_indefinite_description _ (Hu k))).
    assert (Hs : forall k, F (u k) /\ box n B (u k) /\ INR k < - f (u k)) by (intros k; exact (proj2_sig (constructive_indefinite_description _ (Hu k)))).
    destruct (bwn n u B) as (phi & x & Hp & Hc); [intros k; apply Hs|]. specialize (Hf _ _ Hc). 
    destruct (Hf 1 Rlt_0_1) as [N HN]. destruct (Rbig (Rabs (f x) + 2)) as [M HM].
    specialize (HN (Nat.max N M) ltac:(lia)). unfold R_dist in HN.
    destruct (Hs (phi (Nat.max N M))) as (_ & _ & Hl). pose proof (increasing_ge phi Hp (Nat.max N M)) as G.
    pose proof (le_INR M (phi (Nat.max N M)) ltac:(lia)). apply Rabs_def2 in HN. pose proof (Rle_abs (- f x)). rewrite Rabs_Ropp in *. lra. }
  destruct (HB x0 H0) as (y0 & Fy0 & _ & By0).
  destruct (completeness E Hbound) as [m [Hm1 Hm2]]. { exists (- f y0), y0. auto. }
  assert (Hu : forall k : nat, exists x, F x /\ box n B x /\ m - / INR (S k) < - f x).
  { intros k. destruct (classic (exists x, F x /\ box n B x /\ m - / INR (S k) < - f x)) as [|Hk]; [assumption|]. exfalso.
    assert (Hp : 0 < / INR (S k)) by (apply Rinv_0_lt_compat, lt_0_INR; lia).
    assert (m <= m - / INR (S k)); [|lra]. apply Hm2. intros r (x & Fx & Bx & ->).
    destruct (Rle_or_lt (- f x) (m - / INR (S k))); [assumption|]. exfalso. apply Hk. eauto. }
  set (u := fun k => proj1_sig (constructive_indefinite_description _ (Hu k))).
  assert (Hs : forall k, F (u k) /\ box n B (u k) /\ m - / INR (S k) < - f (u k)) by (intros k; exact (proj2_sig (constructive_indefinite_description _ (Hu k)))).
  destruct (bwn n u B) as (phi & x & Hp & Hc); [intros k; apply Hs|].
  exists x. split; [apply (HF _ _ (fun k => proj1 (Hs (phi k))) Hc)|].
  assert (Hfx : f x <= - m).
  { destruct (Rle_or_lt (f x) (- m)) as [|Hlt]; [assumption|]. exfalso. specialize (Hf _ _ Hc).
    set (e := (f x + m) / 2). assert (He : 0 < e) by (unfold e; lra). destruct (Hf e He) as [N HN]. destruct (archimed_cor1 e He) as (M & HM & HM0).
    specialize (HN (Nat.max N M) ltac:(lia)). unfold R_dist in HN. destruct (Hs (phi (Nat.max N M))) as (_ & _ & Hl).
    pose proof (increasing_ge phi Hp (Nat.max N M)) as G. apply Rabs_def2 in HN.
    assert (/ INR (S (phi (Nat.max N M))) <= / INR M). { apply Rinv_le_contravar; [apply lt_0_INR; lia|apply le_INR; lia]. }
    unfold e in *. lra. }
  intros y Fy. destruct (HB y Fy) as (z & Fz & Hz & Bz). assert (- f z <= m) by (apply Hm1; exists z; auto). lra.
Qed.

(** ** Programmes *)
Lemma closed_lin n (l : rows) : closed n (fun x => forall g h, In (g, h) l -> dot n g x <= h).
Proof. intros u x H Hc g h Hi. apply (cv_le (fun k => dot n g (u k))); [apply cv_dot; exact Hc|]. intros k. apply H. exact Hi. Qed.
Lemma closed_eq n (l : rows) : closed n (fun x => forall a b, In (a, b) l -> dot n a x = b).
Proof. intros u x H Hc g h Hi. apply (cv_eq_const (fun k => dot n g (u k))); [apply cv_dot; exact Hc|]. intros k. apply H. exact Hi. Qed.
Lemma closed_and n F G : closed n F -> closed n G -> closed n (fun x => F x /\ G x).
Proof. intros H1 H2 u x H Hc. split; [apply (H1 u); auto; intros k; apply H|apply (H2 u); auto; intros k; apply H]. Qed.

Lemma sqrt_le_iff2 a s : 0 <= a -> (sqrt a <= s <-> 0 <= s /\ a <= s * s).
Proof.
  intros Ha. split.
  - intros H. assert (0 <= s) by (eapply Rle_trans; [apply sqrt_pos|exact H]). split; [assumption|].
    rewrite <- (sqrt_sqrt a Ha). apply Rmult_le_compat; auto using sqrt_pos.
  - intros [Hs H]. rewrite <- (sqrt_square s Hs). apply sqrt_le_1_alt. exact H.
Qed.
Lemma sq_nonneg (l : list R) : 0 <= rsum (map (fun z => z * z) l).
Proof. induction l as [|a l IH]; simpl; [lra|]. pose proof (Rle_0_sqr a). unfold Rsqr in *. lra. Qed.
Lemma cv_sq n (blk : list vec) u x : conv n u x ->
  Un_cv (fun k => rsum (map (fun z => z * z) (map (fun g => - dot n g (u k)) blk))) (rsum (map (fun z => z * z) (map (fun g => - dot n g x) blk))).
Proof.
  intros H. induction blk as [|g blk IH]; simpl; [apply cv_const|].
  apply (CV_plus (fun k => - dot n g (u k) * - dot n g (u k)) (fun k => rsum (map (fun z => z * z) (map (fun g => - dot n g (u k)) blk)))); [|exact IH].
  apply (CV_mult (fun k => - dot n g (u k)) (fun k => - dot n g (u k))); apply (CV_opp (fun k => dot n g (u k))); apply cv_dot; exact H.
Qed.
Lemma closed_soc n blk : closed n (soc_ok n blk).
Proof.
  intros u x H Hc. unfold soc_ok in *. destruct blk as [|g blk]; [exact I|]. cbn [map] in *.
  assert (K : forall k, 0 <= - dot n g (u k) /\ rsum (map (fun z => z * z) (map (fun g => - dot n g (u k)) blk)) <= - dot n g (u k) * - dot n g (u k)).
  { intros k. apply sqrt_le_iff2; [apply sq_nonneg|]. apply (H k). }
  apply sqrt_le_iff2; [apply sq_nonneg|].
  assert (C : Un_cv (fun k => - dot n g (u k)) (- dot n g x)) by (apply (CV_opp (fun k => dot n g (u k))), cv_dot; exact Hc).
  split; [apply (cv_ge _ _ _ C); intros k; apply K|].
  apply (@Rle_cv_lim (fun k => rsum (map (fun z => z * z) (map (fun g => - dot n g (u k)) blk))) (fun k => - dot n g (u k) * - dot n g (u k))); [intros k; apply K|apply cv_sq; exact Hc|].
  apply (CV_mult _ _ _ _ C C).
Qed.

Lemma closed_cp p : closed (cp_n p) (cp_feasible p).
Proof.
  unfold cp_feasible. apply closed_and; [apply closed_lin|]. apply closed_and; [apply closed_eq|].
  intros u x H Hc blk Hb. apply (closed_soc _ blk u x); [intros k; apply (H k); exact Hb|exact Hc].
Qed.
Lemma closed_qp p : closed (qp_n p) (qp_feasible p).
Proof. unfold qp_feasible. apply closed_and; [apply closed_lin|apply closed_eq]. Qed.

Theorem cp_attains p B : (exists x, cp_feasible p x) ->
  (forall x, cp_feasible p x -> exists y, cp_feasible p y /\ cp_obj p y <= cp_obj p x /\ box (cp_n p) B y) -> exists x, cp_optimum p x.
Proof. intros H HB. apply (attains (cp_n p) B); auto using closed_cp. intros u x Hc. apply cv_dot. exact Hc. Qed.
Theorem qp_attains p B : (exists x, qp_feasible p x) -> (forall x, qp_feasible p x -> box (qp_n p) B x) -> exists x, qp_optimum p x.
Proof.
  intros H HB. apply (attains (qp_n p) B); auto using closed_qp.
  - intros u x Hc. unfold qp_obj. apply (CV_plus (fun k => quad (qp_n p) (qp_P p) (u k) / 2) (fun k => dot (qp_n p) (qp_q p) (u k))); [|apply cv_dot; exact Hc].
    apply (cv_ext (fun k => / 2 * quad (qp_n p) (qp_P p) (u k))); [intros; field|]. replace (quad (qp_n p) (qp_P p) x / 2) with (/ 2 * quad (qp_n p) (qp_P p) x) by field.
    apply cv_scale, cv_quad. exact Hc.
  - intros x Hx. exists x. split; [exact Hx|]. split; [lra|]. apply HB. exact Hx.
Qed.
