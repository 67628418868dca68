(** Lemmas: what the factories store. *)
From Coq Require Import String.
From Verif Require Import RBase QpBase SortLib RiskSpec ConsModel ConsSpec MomModel MomSpec MomProofs DistModel DistSpec DistProofs2 DistProofs3 ConvModel OptModel OptSpec FrModel ExistSpec ExistProperties WrModel WrSpec WrProofs WrProofs7.
Open Scope R_scope.
Open Scope list_scope.

Lemma make_dist_shapes i d : make_dist i = Ok d ->
  (forall l m, i_mu i = Some (l, m) -> nd_size m = d_N d) /\ (forall l c, i_cov i = Some (l, c) -> nd_shape c = [d_N d; d_N d]).
Proof.
  intros H. destruct (make_dist_values i d H) as (_ & V2 & V3 & _). pose proof (make_dist_valid i d H) as V. split.
  - intros l m E. specialize (V2 l m E). destruct (vd_mu d V _ V2) as [f [Hs _]]. cbn in Hs. injection Hs as Hs. exact Hs.
  - intros l cc E. specialize (V3 l cc E). destruct (vd_cov d V _ V3) as [f [Hs _]]. exact Hs.
Qed.

Lemma from_moments_l eig log lmu kmu mu lcov r cc cov arg k lo tot bds w : correct_eig eig ->
  from_moments eig log lmu kmu mu lcov r cc cov arg k lo tot bds = Ok w ->
  constructed w (asked arg lo tot bds) /\ cc = r /\ assets w = r /\ (0 < r)%nat /\ (kmu = r \/ (log = true /\ kmu = 1%nat)) /\
  w_log w = false /\ w_unc w = None /\ d_scen (w_dist w) = None /\
  (w_iw w, w_mic w, w_pc w) = match k with Some k => (Some (k_iw k), k_mic k, k_pc k) | None => (None, None, None) end /\
  exists m C P kap, moments w m C /\ ensure_psd eig r cov jit = Ok P /\ 0 <= kap /\
    (forall i j, P i j = MomModel.symmetrise cov i j + kap * MomModel.eye i j) /\ psd_tol r P jit /\ (psd_tol r (MomModel.symmetrise cov) jit -> kap = 0) /\
    let mu' := if Nat.eqb kmu r then mu else fun _ => mu 0%nat in
    (log = false -> (forall i, m i = mu i) /\ forall i j, (i < r)%nat -> (j < r)%nat -> C i j = P i j) /\
    (log = true -> (forall i, m i = exp (mu' i + P i i / 2) - 1) /\
       forall i j, (i < r)%nat -> (j < r)%nat -> C i j = (1 + m i) * (1 + m j) * (exp (P i j) - 1)).
Proof.
  intros HE H. unfold from_moments in H. destruct (Nat.eqb_spec r cc) as [E|]; [|discriminate]. cbn [negb] in H.
  apply bind_ok in H as (P & HP & H). apply bind_ok in H as ([m P'] & Hm & H). apply bind_ok in H as (d & Hd & H).
  pose proof (make_dist_valid _ d Hd) as V. destruct (make_dist_shapes _ d Hd) as [S1 S2]. destruct (make_dist_values _ d Hd) as (V1 & V2 & V3 & _).
  specialize (S1 _ _ eq_refl). specialize (S2 _ _ eq_refl). specialize (V2 _ _ eq_refl). specialize (V3 _ _ eq_refl).
  cbn in S2. injection S2 as S2 _. unfold nd_size in S1. cbn in S1. rewrite Nat.mul_1_r in S1.
  destruct (make_wrapper_good d arg k lo tot bds w V H) as (_ & Dw & Lw & Uw).
  assert (Hr : (0 < r)%nat) by (rewrite S2; apply (vd_N d V)).
  split; [exact (by_init _ d arg k lo tot bds w Hd H)|]. split; [auto|]. unfold assets. rewrite Dw. split; [auto|]. split; [exact Hr|].
  split.
  { destruct log; [|left; congruence]. destruct (Nat.eqb_spec kmu r); [left; assumption|]. destruct (Nat.eqb_spec kmu 1); [right; auto|discriminate]. }
  split; [exact Lw|]. split; [exact Uw|]. split; [exact V1|]. split; [exact (make_wrapper_costs _ _ _ _ _ _ _ H)|].
  destruct (ensure_psd_ok eig r cov jit HE Hr) as (P1 & kap & E1 & K0 & K1 & _ & K2 & K3 & _); [unfold jit; lra|].
  rewrite HP in E1. injection E1 as <-.
  exists m, (as_mat r (nd_mat r P')), P, kap. split.
  { eexists _, _. unfold assets. rewrite Dw. split; [exact V2|]. split; [exact V3|]. split; [reflexivity|]. rewrite <- S2. reflexivity. }
  split; [exact HP|]. split; [exact K0|]. split; [exact K1|]. split; [exact K2|]. split; [exact K3|].
  set (mu' := if Nat.eqb kmu r then mu else fun _ => mu 0%nat). destruct log.
  - split; [discriminate|]. intros _. assert (Em : (m, P') = log2simple mu' P).
    { unfold mu'. destruct (Nat.eqb kmu r); cbn [orb] in Hm; [congruence|]. destruct (Nat.eqb kmu 1); [congruence|discriminate]. }
    unfold log2simple in Em. injection Em as -> ->. split.
    + intros i. f_equal. f_equal. lra.
    + intros i j _ Hj. rewrite as_mat_nd by exact Hj.
      replace (1 + (exp (mu' i + 1 / 2 * P i i) - 1)) with (exp (mu' i + 1 / 2 * P i i)) by ring.
      replace (1 + (exp (mu' j + 1 / 2 * P j j) - 1)) with (exp (mu' j + 1 / 2 * P j j)) by ring.
      replace (mu' i + mu' j + 1 / 2 * (P i i + P j j + 2 * P i j)) with ((mu' i + 1 / 2 * P i i) + (mu' j + 1 / 2 * P j j) + P i j) by field.
      rewrite !exp_plus. ring.
  - split; [|discriminate]. intros _. injection Hm as <- <-. split; [reflexivity|]. intros i j _ Hj. apply as_mat_nd. exact Hj.
Qed.

(** Labels that agree. *)
Definition agreeing (n : nat) (lmu : option (list string)) (lcov : option (list string * list string)) : Prop :=
  exists nm, List.length nm = n /\ (forall l, lmu = Some l -> l = nm) /\ (forall a b, lcov = Some (a, b) -> a = nm /\ b = nm).

Lemma from_moments_total eig log lmu kmu mu lcov n cov arg k lo tot bds : correct_eig eig -> (0 < n)%nat -> agreeing n lmu lcov ->
  (kmu = n \/ (log = true /\ kmu = 1%nat)) -> costs_fit n k -> ConsSpec.well_formed (asked arg lo tot bds) (Z.of_nat n) ->
  exists w, from_moments eig log lmu kmu mu lcov n n cov arg k lo tot bds = Ok w.
Proof.
  intros HE Hn (nm & Ln & L1 & L2) Hk Hc Hw. unfold from_moments. rewrite Nat.eqb_refl. cbn [negb].
  destruct (ensure_psd_ok eig n cov jit HE Hn) as (P & kap & -> & _); [unfold jit; lra|]. cbn [bind].
  assert (Em : exists mP, (if log then (if (Nat.eqb kmu n || Nat.eqb kmu 1)%bool then Ok (log2simple (if Nat.eqb kmu n then mu else fun _ => mu 0%nat) P) else Err ValueError)
                       else Ok (mu, P)) = Ok mP /\ (if log then n else kmu) = n).
  { destruct Hk as [-> | [-> ->]].
    - rewrite Nat.eqb_refl. destruct log; cbn [orb]; eexists; split; reflexivity.
    - rewrite Nat.eqb_refl, Bool.orb_true_r. eexists; split; reflexivity. }
  destruct Em as ([m P'] & -> & Ek). cbn [bind]. rewrite Ek.
  set (i := mkIn (Some (lmu, nd_vec n m)) (Some (lcov, nd_mat n P')) None None None).
  assert (Hcs : consistent n i).
  { split; [exact Hn|]. split.
    - exists nm. split; [exact Ln|]. intros l Hl. unfold supplied_labels in Hl. cbn in Hl. rewrite app_nil_r in Hl. apply in_app_or in Hl as [Hl|Hl].
      + destruct lmu as [l0|]; [|destruct Hl]. destruct Hl as [<- | []]. auto.
      + destruct lcov as [[a b]|]; [|destruct Hl]. destruct (L2 a b eq_refl) as [-> ->]. destruct Hl as [<- | [<- | []]]; reflexivity.
    - split; [|split].
      + cbn. split; [unfold nd_size; cbn; lia|]. exists m. reflexivity.
      + cbn. apply real_mat.
      + cbn. left. discriminate. }
  destruct (consistent_make_dist i n Hcs) as (d & -> & EN). cbn [bind]. apply build_wrapper; rewrite EN; assumption.
Qed.

Lemma from_posterior_l eig names n mu sigma s_mu h arg k lo tot bds w : correct_eig eig ->
  from_robust_posterior eig names n mu sigma s_mu h arg k lo tot bds = Ok w ->
  constructed w (asked arg lo tot bds) /\ assets w = n /\ w_log w = true /\ d_scen (w_dist w) = None /\
  exists m C kap, moments w m C /\ 0 <= kap /\ (forall i, m i = h * mu i) /\
    (forall i j, (i < n)%nat -> (j < n)%nat -> C i j = MomModel.symmetrise (fun i j => h * sigma i j) i j + kap * MomModel.eye i j) /\
    (psd_tol n (MomModel.symmetrise (fun i j => h * sigma i j)) jit -> kap = 0) /\
    (forall i j, uncertainty w C i j = h ^ 2 * s_mu i j).
Proof.
  intros HE H. split; [exact (by_posterior eig names n mu sigma s_mu h arg k lo tot bds w H)|].
  unfold from_robust_posterior in H. apply bind_ok in H as (w0 & Hw & H). injection H as <-.
  destruct (from_moments_l _ _ _ _ _ _ _ _ _ _ _ _ _ _ _ HE Hw) as (_ & _ & HN & _ & _ & _ & _ & HS & _ & m & C & P & kap & Hm & _ & K0 & K1 & _ & K3 & Hs & _).
  destruct (Hs eq_refl) as [M1 M2]. assert (Ex : forall i j, MomModel.symmetrise (fun i j => sigma i j * h) i j = MomModel.symmetrise (fun i j => h * sigma i j) i j).
  { intros i j. unfold MomModel.symmetrise. lra. }
  unfold assets in *. cbn. split; [exact HN|]. split; [reflexivity|]. split; [exact HS|]. exists m, C, kap. split; [exact Hm|]. split; [exact K0|].
  split; [intros i; rewrite M1; ring|]. split; [intros i j Hi Hj; rewrite M2, K1, Ex by assumption; reflexivity|].
  split.
  - intros Hp. apply K3. intros x. specialize (Hp x). replace (quad n (MomModel.symmetrise (fun i j => sigma i j * h)) x) with (quad n (MomModel.symmetrise (fun i j => h * sigma i j)) x); [exact Hp|].
    unfold quad. apply sumn_ext. intros i _. apply sumn_ext. intros j _. rewrite Ex. reflexivity.
  - intros i j. cbn. ring.
Qed.

Lemma gamma_answers_l E w c arg k gm gs mu cov : exact_env E -> constructed w c -> in_force c arg (assets w) ->
  ConsSpec.well_formed (effective c arg) (Z.of_nat (assets w)) ->
  complete_cp (e_cone E) -> complete_chol (e_chol E) -> moments w mu cov -> psd (assets w) (uncertainty w cov) ->
  (iw_of w k = None \/ pc_of w k = None) -> bounded (assets w) (allowed (effective c arg) (assets w)) -> 0 <= gm -> 0 <= gs ->
  exists L, root_of (assets w) (uncertainty w cov) L /\
    answers_iff (solve_robust_gamma E w gm gs arg k)
      (exists y, allowed (effective c arg) (assets w) y /\ norm2 (assets w) (mv (assets w) L y) <= sqrt gs).
Proof.
  intros HE HC HF Hwf Hcc Hch Hm Hp Hnc Hb Hgm Hgs.
  destruct (resolved w c arg HC HF Hwf) as (m & Er & HFi & HB).
  destruct (robust_gamma_answers (e_cone E) (e_chol E) (assets w) mu (uncertainty w cov) (rows_G m) (rows_A m) gm gs
    (proj1 (proj2 (proj2 HE))) Hcc (proj1 (proj2 (proj2 (proj2 HE)))) Hch Hp (HB Hb) Hgm Hgs) as (L & j & Hj & HL & A1 & A2).
  exists L. split; [exists j; auto|].
  assert (Eg : robust_gamma (e_cone E) (e_chol E) (assets w) mu (uncertainty w cov) (iw_of w k) (pc_of w k) (rows_G m) (rows_A m) gm gs =
               robust_gamma (e_cone E) (e_chol E) (assets w) mu (uncertainty w cov) None None (rows_G m) (rows_A m) gm gs).
  { unfold robust_gamma, robust_init. destruct Hnc as [-> | ->]; [reflexivity|]. destruct (iw_of w k); reflexivity. }
  unfold solve_robust_gamma. rewrite (require_ok w mu cov Hm). cbn [bind fst snd]. rewrite Er. cbn [bind]. rewrite resolve_costs_eq.
  fold (assets w) (uncertainty w cov). rewrite Eg. split.
  - intros (y & Hy & Hn). destruct A1 as [r ->]; [exists y; split; [apply HFi; exact Hy|exact Hn]|]. cbn [bind]. eauto.
  - intros Hn. rewrite A2; [reflexivity|]. intros (y & Hy & Hq). apply Hn. exists y. split; [apply HFi; exact Hy|exact Hq].
Qed.

(** Only eight targets are ever tried. *)
Lemma relaxed_ext solve solve' t lower : (forall i, (i < 8)%nat -> solve (Some (attempt t lower i)) (Some lower) = solve' (Some (attempt t lower i)) (Some lower)) ->
  solve None None = solve' None None -> solve_relaxed solve (Some t) lower = solve_relaxed solve' (Some t) lower.
Proof.
  intros H1 H2. unfold solve_relaxed. rewrite H2.
  assert (Q : forall n k, (k + n <= 8)%nat -> rp_tries solve lower (attempt t lower k) n = rp_tries solve' lower (attempt t lower k) n).
  { induction n as [|n IH]; intros k Hk; [reflexivity|]. cbn [rp_tries]. rewrite (H1 k) by lia.
    destruct (solve' (Some (attempt t lower k)) (Some lower)); [reflexivity|]. destruct (runtime_err _); [|reflexivity].
    replace (next_target lower (attempt t lower k)) with (attempt t lower (S k)); [apply IH; lia|].
    cbn [attempt]. unfold next_target. replace (1 / 2 * (attempt t lower k + lower)) with ((attempt t lower k + lower) / 2) by field. reflexivity. }
  specialize (Q 8%nat 0%nat (le_n 8)). cbn [attempt] in Q. rewrite Q. reflexivity.
Qed.
