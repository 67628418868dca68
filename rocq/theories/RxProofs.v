(** Shape checks of the relaxed risk parity optimiser (C172). *)
From Coq Require Import Lia Psatz.
From Verif Require Import RBase QpBase OptModel OptSpec ProjModel OptProofs4 RxModel RxSpec.
Open Scope R_scope.
Open Scope list_scope.

Lemma cvx_shape x r c M : cvx_matrix x = Ok (r, c, M) -> matrix_shape x r c.
Proof.
  destruct x as [a|l|ls]; cbn [cvx_matrix matrix_shape].
  - destruct (r_shape a) as [|m [|k [|]]] eqn:E; try discriminate; intros H; injection H as <- <- _; auto.
  - intros H; injection H as <- <- _; auto.
  - destruct ls as [|l0 ls]; [intros H; injection H as <- <- _; auto|]. intros H. apply guard_ok in H as [G H]. injection H as <- <- _.
    split; [reflexivity|]. rewrite forallb_forall in G. intros l Hl. apply Nat.eqb_eq. apply G. exact Hl.
Qed.
Lemma shape_cvx x r c : matrix_shape x r c -> exists M, cvx_matrix x = Ok (r, c, M).
Proof.
  destruct x as [a|l|ls]; cbn [cvx_matrix matrix_shape].
  - intros [E|[E ->]]; rewrite E; eauto.
  - intros [<- ->]. eauto.
  - destruct ls as [|l0 ls]; [intros [-> ->]; eauto|]. intros [<- H]. rewrite (H l0) by (left; reflexivity).
    assert (G : forallb (fun d => Nat.eqb (List.length d) r) (l0 :: ls) = true) by (apply forallb_forall; intros l Hl; apply Nat.eqb_eq; auto).
    rewrite G. cbn [guard]. eauto.
Qed.

Lemma entries_length o : List.length (entries o) = match o with Some (r, c, _) => (r * c)%nat | None => 1%nat end.
Proof. destruct o as [[[r c] H]|]; [cbn [entries]; rewrite map_length, seq_length|]; reflexivity. Qed.

Lemma stored_holds v o : stored v = Ok o -> holds v (List.length (entries o)).
Proof.
  rewrite entries_length. destruct v as [x|]; cbn [stored holds].
  - intros H. apply bind_ok in H as ([[r c] M] & Hx & H). injection H as <-. exists r, c. split; [eapply cvx_shape; eauto|reflexivity].
  - intros H. injection H as <-. reflexivity.
Qed.

Lemma user_rows_shape n Mo vo M v rs : stored Mo = Ok M -> stored vo = Ok v -> user_rows n M v = Ok rs -> pair_shape n Mo vo.
Proof.
  intros HM Hv H. destruct Mo as [x|]; cbn [pair_shape]; [|exact I]. cbn [stored] in HM. apply bind_ok in HM as ([[r c] B] & Hx & HM). injection HM as <-.
  cbn [user_rows] in H. apply guard_ok in H as [G1 H]. apply guard_ok in H as [G2 H]. apply Nat.eqb_eq in G1, G2. subst c.
  exists r. split; [eapply cvx_shape; eauto|]. rewrite <- G2. apply stored_holds. exact Hv.
Qed.

Lemma budgets_shape n rb bud : risk_budgets n rb = Ok bud -> forall l, rb = Some l -> List.length l = n /\ forall x, In x l -> 0 < x.
Proof.
  intros H l ->. cbn [risk_budgets] in H. apply guard_ok in H as [G1 H]. apply guard_ok in H as [G2 _]. apply Nat.eqb_eq in G1. split; [exact G1|].
  intros x Hx. destruct (Rlt_dec 0 x) as [|N]; [assumption|]. exfalso. apply Bool.negb_true_iff in G2. 
  assert (E : existsb (fun b => Rleb b 0) l = true) by (apply existsb_exists; exists x; split; [exact Hx|]; destruct (Rleb_spec x 0); [reflexivity|lra]).
  congruence.
Qed.

Lemma checked_shape chol a lam n G A : checked chol a lam = Ok (n, G, A) -> well_shaped a.
Proof.
  unfold checked. destruct (r_shape (x_cov a)) as [|r [|c [|]]] eqn:E; try discriminate. intros H. apply guard_ok in H as [G1 H]. apply Nat.eqb_eq in G1. subst c.
  apply bind_ok in H as (Gm & HG & H). apply bind_ok in H as (hm & Hh & H). apply bind_ok in H as (Am & HA & H). apply bind_ok in H as (bm & Hb & H).
  apply guard_ok in H as [G2 H]. apply Nat.eqb_eq in G2. apply bind_ok in H as (L & _ & H). apply guard_ok in H as [G3 H]. apply Nat.leb_le in G3.
  apply bind_ok in H as (bud & Hbud & H). apply guard_ok in H as [_ H]. apply bind_ok in H as (G' & HG' & H). apply bind_ok in H as (A' & HA' & H). injection H as <- _ _.
  exists r. rewrite <- G2 in *. split; [exact E|]. split; [reflexivity|]. split; [exact G3|]. split; [eapply user_rows_shape; eauto|]. split; [eapply user_rows_shape; eauto|].
  eapply budgets_shape; eauto.
Qed.

(** *** Arrays *)
Lemma numbers_map {X} (f : X -> vec) (g : X -> R) l : numbers (map (fun i => (f i, Some (g i))) l) = Some (map (fun i => (f i, g i)) l).
Proof. induction l as [|x l IH]; [reflexivity|]. cbn [map numbers]. rewrite IH. reflexivity. Qed.

Lemma array_rows_stored n Mo vo rs : array_rows_of n Mo vo rs ->
  exists M v l, stored Mo = Ok M /\ stored vo = Ok v /\ user_rows n M v = Ok l /\ numeric l = Some rs.
Proof.
  intros [(-> & Hv & ->)|(g & h & m & (-> & -> & Hg & Hh) & ->)].
  - destruct Hv as [->|(x & r & c & -> & Hx)].
    + exists None, None, None. repeat split.
    + destruct (shape_cvx x r c Hx) as [M HM]. exists None, (Some (r, c, M)), None. cbn [stored]. rewrite HM. repeat split.
  - assert (HH : exists c H, cvx_matrix (Array h) = Ok (m, c, H) /\ entries (Some (m, c, H)) = map (fun k => Some (r_at h k)) (seq 0 m)).
    { cbn [cvx_matrix]. destruct Hh as [E|E]; rewrite E; do 2 eexists; (split; [reflexivity|]); cbn [entries]; rewrite Nat.mul_1_r; apply map_ext; intros k;
        rewrite Nat.div_1_r; [reflexivity|]. rewrite Nat.mod_1_r, Nat.mul_1_r, Nat.add_0_r. reflexivity. }
    destruct HH as (c & H & EH & EE). cbn [stored]. rewrite EH. cbn [cvx_matrix]. rewrite Hg. cbn [bind].
    do 2 eexists. exists (Some (map (fun i => ((fun j => r_at g (i * n + j)%nat), Some (r_at h i))) (seq 0 m))). split; [reflexivity|]. split; [reflexivity|]. split.
    + cbn [user_rows]. rewrite Nat.eqb_refl. cbn [guard]. rewrite EE, map_length, seq_length, Nat.eqb_refl. cbn [guard]. f_equal. f_equal.
      apply map_ext_in. intros i Hi. apply in_seq in Hi. f_equal. rewrite (nth_indep _ None (Some (r_at h 0%nat))) by (rewrite map_length, seq_length; lia).
      rewrite (map_nth (fun k => Some (r_at h k))). rewrite seq_nth by lia. reflexivity.
    + cbn [numeric]. rewrite (numbers_map (fun i j => r_at g (i * n + j)%nat) (fun i => r_at h i)). reflexivity.
Qed.

Lemma call_of conelp lp chol a lam target mint n Gm hm Gl G Am bm Al A : r_shape (x_cov a) = [n; n] -> r_shape (x_mean a) = [n] ->
  stored (x_G a) = Ok Gm -> stored (x_h a) = Ok hm -> user_rows n Gm hm = Ok Gl -> numeric Gl = Some G ->
  stored (x_A a) = Ok Am -> stored (x_b a) = Ok bm -> user_rows n Am bm = Ok Al -> numeric Al = Some A ->
  rrp_call conelp lp chol a lam target mint =
  Some (rrp_solve conelp lp chol n (r_at (x_mean a)) (fun i j => r_at (x_cov a) (i * n + j)%nat) G A (x_budgets a) lam target mint).
Proof.
  intros Hc Hm E1 E2 E3 E4 E5 E6 E7 E8.
  assert (N : r_size (x_mean a) = n) by (unfold r_size; rewrite Hm; cbn; lia).
  unfold rrp_call, checked. cbv zeta. rewrite Hc, Nat.eqb_refl. cbn [guard]. rewrite E1, E2, E5, E6. cbn [bind]. rewrite N, Nat.eqb_refl. cbn [guard].
  unfold rrp_solve. destruct (cholesky_pd chol n _) as [L|e] eqn:EL; [|reflexivity]. cbn [bind]. rewrite Hm. cbn [List.length Nat.leb guard].
  destruct (risk_budgets n (x_budgets a)) as [bud|e] eqn:Eb; [|reflexivity]. cbn [bind]. destruct (Rltb lam 0) eqn:El; [reflexivity|]. cbn [negb guard].
  rewrite E3. cbn [bind]. rewrite E7. cbn [bind]. rewrite E4, E8. rewrite EL. cbn [bind]. rewrite Eb. cbn [bind]. reflexivity.
Qed.
Lemma array_call conelp lp chol a lam target mint n G A : r_shape (x_cov a) = [n; n] -> r_shape (x_mean a) = [n] ->
  array_rows_of n (x_G a) (x_h a) G -> array_rows_of n (x_A a) (x_b a) A ->
  rrp_call conelp lp chol a lam target mint =
  Some (rrp_solve conelp lp chol n (r_at (x_mean a)) (fun i j => r_at (x_cov a) (i * n + j)%nat) G A (x_budgets a) lam target mint).
Proof.
  intros Hc Hm HG HA. destruct (array_rows_stored _ _ _ _ HG) as (Gm & hm & Gl & E1 & E2 & E3 & E4). destruct (array_rows_stored _ _ _ _ HA) as (Am & bm & Al & E5 & E6 & E7 & E8).
  eapply call_of; eauto.
Qed.
