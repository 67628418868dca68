(** Projections, meshes, axes, rows shown and shares. *)
From Coq Require Import List ZArith Lia Lra Permutation Psatz.
Import ListNotations.
From Verif Require Import Err RBase SortLib QpBase OptProofs3 MomModel GlModel GlSpec PoProofs EigLib Pl3Model Pl3Spec Pl3Proofs.
Open Scope R_scope.
Open Scope list_scope.

Lemma sym_symmetrise n A : symmetric n (symmetrise A).
Proof. intros i j _ _. unfold symmetrise. rewrite Rplus_comm. reflexivity. Qed.
Lemma quad_symmetrise n A x : quad n (symmetrise A) x = quad n A x.
Proof.
  unfold quad, symmetrise. transitivity ((sumn n (fun i => sumn n (fun j => A i j * x i * x j)) + sumn n (fun i => sumn n (fun j => A j i * x i * x j))) / 2).
  - unfold Rdiv. rewrite <- sumn_plus, <- sumn_scale_r. apply sumn_ext. intros i Hi. rewrite <- sumn_plus, <- sumn_scale_r. apply sumn_ext. intros; lra.
  - rewrite (sumn_swap n n (fun i j => A j i * x i * x j)).
    replace (sumn n (fun j => sumn n (fun i => A j i * x i * x j))) with (sumn n (fun i => sumn n (fun j => A i j * x i * x j))); [lra|].
    apply sumn_ext; intros; apply sumn_ext; intros; ring.
Qed.
Lemma psd_symmetrise n A : psd n A -> psd n (symmetrise A).
Proof. intros P x. rewrite quad_symmetrise. apply P. Qed.

Lemma project_ok eigh argsort n mean r c cov scen comp : exact_eigen eigh ->
  (exists p, project eigh argsort n mean r c cov scen comp = Ok p) <-> r = n /\ c = n.
Proof.
  intros E. unfold project. destruct (Nat.eqb_spec r c) as [-> | N]; cbn [negb]; [|split; [intros (p & [=])|intros [-> ->]; congruence]].
  destruct (Nat.eqb_spec c n) as [-> | N]; cbn [negb]; [|split; [intros (p & [=])|intros [-> _]; congruence]].
  split; [auto|intros _]. cbv zeta. destruct (Nat.leb 3 n); [|eexists; reflexivity].
  destruct comp as [V|]; [cbn [bind]; eexists; reflexivity|]. destruct (E n (symmetrise cov) (sym_symmetrise n cov)) as (d & Q & -> & _). cbn [bind]. eexists. reflexivity.
Qed.

Lemma project_pca eigh argsort n mean cov scen : exact_eigen eigh -> sorts Rle 0 argsort -> (3 <= n)%nat ->
  exists p l, project eigh argsort n mean n n cov scen None = Ok p /\ principal3 n (symmetrise cov) (pj_comp p) l /\
    (forall f g, (f < 3)%nat -> (g < 3)%nat -> pj_cov p f g = delta f g * l f).
Proof.
  intros E SA Hn. destruct (E n (symmetrise cov) (sym_symmetrise n cov)) as (d & Q & EQ & D). unfold project. rewrite !Nat.eqb_refl. cbn [negb]. cbv zeta.
  replace (Nat.leb 3 n) with true by (symmetry; apply Nat.leb_le; exact Hn). rewrite EQ. cbn [bind].
  destruct (order_descending argsort n d SA) as [P S0]. set (order := rev (argsort (map d (seq 0 n)))) in *.
  pose proof (decomposition_perm n _ d Q order P D) as D'.
  eexists. exists (fun r => d (nth r order 0%nat)). split; [reflexivity|]. cbn [pj_comp pj_cov]. split; [constructor|].
  - intros f g Hf Hg. destruct D' as [D1 _]. apply D1; lia.
  - intros f g Hf Hg. apply (eig_form n _ _ _ D'); lia.
  - intros f w Hf U O. apply (eig_max n _ _ _ D' S0); [lia|exact U|exact O].
  - intros f g Hf Hg. apply (eig_form n _ _ _ D'); lia.
Qed.

Lemma sumn3 f : sumn 3 f = f 0%nat + f 1%nat + f 2%nat.
Proof. cbn [sumn]. ring. Qed.

(** Linear readings of the picture. *)
Lemma project_mean eigh argsort n mean r c cov scen comp p a : project eigh argsort n mean r c cov scen comp = Ok p ->
  dot 3 (pj_mean p) a = dot n mean (direction (pj_comp p) a).
Proof.
  intros H. unfold project in H. destruct (negb _); [discriminate|]. destruct (negb _); [discriminate|]. cbv zeta in H. destruct (Nat.leb 3 n) eqn:L3.
  - apply bind_ok in H as (V & _ & H). injection H as <-. cbn [pj_mean pj_comp]. unfold dot, direction.
    transitivity (sumn 3 (fun f => sumn n (fun i => mean i * (V i f * a f)))).
    + apply sumn_ext. intros f Hf. rewrite <- sumn_scale_r. apply sumn_ext. intros; ring.
    + rewrite sumn_swap. apply sumn_ext. intros i Hi. apply sumn_scale.
  - injection H as <-. cbn [pj_mean pj_comp]. apply Nat.leb_gt in L3. unfold dot, direction, eye_. destruct n as [|[|[|n]]]; [cbn; ring|cbn; ring|cbn; ring|lia].
Qed.
Lemma project_cov eigh argsort n mean r c cov scen comp p a : project eigh argsort n mean r c cov scen comp = Ok p ->
  quad 3 (pj_cov p) a = quad n cov (direction (pj_comp p) a).
Proof.
  intros H. rewrite <- (quad_symmetrise n cov). unfold project in H. destruct (negb _); [discriminate|]. destruct (negb _); [discriminate|]. cbv zeta in H. set (C := symmetrise cov) in *. destruct (Nat.leb 3 n) eqn:L3.
  - apply bind_ok in H as (V & _ & H). injection H as <-. cbn [pj_cov pj_comp]. unfold quad, direction.
    transitivity (sumn 3 (fun f => sumn 3 (fun g => sumn n (fun i => sumn n (fun j => C i j * (V i f * a f) * (V j g * a g)))))).
    + apply sumn_ext. intros f Hf. apply sumn_ext. intros g Hg. cbv beta. rewrite Rmult_assoc. rewrite <- sumn_scale_r. apply sumn_ext. intros i Hi. rewrite <- sumn_scale_r. apply sumn_ext. intros; ring.
    + transitivity (sumn 3 (fun f => sumn n (fun i => sumn 3 (fun g => sumn n (fun j => C i j * (V i f * a f) * (V j g * a g)))))); [apply sumn_ext; intros; apply sumn_swap|].
      rewrite sumn_swap. apply sumn_ext. intros i Hi.
      transitivity (sumn 3 (fun f => sumn n (fun j => sumn 3 (fun g => C i j * (V i f * a f) * (V j g * a g))))); [apply sumn_ext; intros; apply sumn_swap|].
      rewrite sumn_swap. apply sumn_ext. intros j Hj. rewrite !sumn3. ring.
  - injection H as <-. cbn [pj_cov pj_comp]. apply Nat.leb_gt in L3. unfold quad, direction, eye_. destruct n as [|[|[|n]]]; [cbn; ring|cbn; ring|cbn; ring|lia].
Qed.
Lemma project_scen eigh argsort n mean r c cov T X comp p : project eigh argsort n mean r c cov (Some (T, X)) comp = Ok p ->
  exists Y, pj_scen p = Some (T, Y) /\ forall t a, dot 3 (Y t) a = dot n (X t) (direction (pj_comp p) a).
Proof.
  intros H. unfold project in H. destruct (negb _); [discriminate|]. destruct (negb _); [discriminate|]. cbv zeta in H. destruct (Nat.leb 3 n) eqn:L3.
  - apply bind_ok in H as (V & _ & H). injection H as <-. cbn [pj_scen pj_comp option_map fst snd]. eexists. split; [reflexivity|]. intros t a. unfold dot, direction.
    transitivity (sumn 3 (fun f => sumn n (fun i => X t i * (V i f * a f)))).
    + apply sumn_ext. intros f Hf. rewrite <- sumn_scale_r. apply sumn_ext. intros; ring.
    + rewrite sumn_swap. apply sumn_ext. intros i Hi. apply sumn_scale.
  - injection H as <-. cbn [pj_scen pj_comp option_map fst snd]. eexists. split; [reflexivity|]. intros t a. apply Nat.leb_gt in L3. unfold dot, direction, eye_. destruct n as [|[|[|n]]]; [cbn; ring|cbn; ring|cbn; ring|lia].
Qed.

(** ** Ellipsoids *)
Section Ellipsoid.
Variables (C : mat) (d : vec) (Q : mat) (m : R) (s : vec).
Hypothesis D : eigen_decomposition 3 C d Q.
Hypothesis P : psd 3 C.
Hypothesis U : dot 3 s s = 1.
Let e : vec := fun a => sumn 3 (fun k => Q a k * (m * sqrt (Rmax (d k) 0 + tiny) * s k)).
Lemma tiny_pos : 0 < tiny. Proof. unfold tiny. lra. Qed.
Lemma rad k : (k < 3)%nat -> Rmax (d k) 0 + tiny = d k + tiny /\ 0 < d k + tiny /\ sqrt (d k + tiny) * sqrt (d k + tiny) = d k + tiny /\ sqrt (d k + tiny) <> 0.
Proof.
  intros Hk. pose proof (eig_psd 3 C d Q D k P Hk). pose proof tiny_pos. assert (0 < d k + tiny) by lra.
  repeat split; [rewrite Rmax_left by lra; reflexivity|lra|apply sqrt_sqrt; lra|]. apply Rgt_not_eq. apply sqrt_lt_R0. lra.
Qed.
Lemma e_coord (a : vec) : dot 3 a e = sumn 3 (fun k => (m * sqrt (d k + tiny) * s k) * dot 3 (fun i => Q i k) a).
Proof.
  unfold e, dot. transitivity (sumn 3 (fun i => sumn 3 (fun k => (m * sqrt (d k + tiny) * s k) * (Q i k * a i)))).
  - apply sumn_ext. intros i Hi. rewrite <- sumn_scale. apply sumn_ext. intros k Hk. destruct (rad k Hk) as (-> & _). ring.
  - rewrite sumn_swap. apply sumn_ext. intros k Hk. apply sumn_scale.
Qed.
Lemma e_bound a : (dot 3 a e) ^ 2 <= m ^ 2 * (quad 3 C a + tiny * dot 3 a a).
Proof.
  rewrite e_coord. rewrite (eig_quad 3 C d Q D a), (eig_norm 3 C d Q D a).
  set (c := fun k => dot 3 (fun i => Q i k) a).
  pose proof (cauchy 3 s (fun k => m * sqrt (d k + tiny) * c k)) as CS. rewrite U, Rmult_1_l in CS.
  assert (E1 : sumn 3 (fun k => m * sqrt (d k + tiny) * s k * dot 3 (fun i => Q i k) a) = dot 3 s (fun k => m * sqrt (d k + tiny) * c k)) by (unfold dot at 2; apply sumn_ext; intros; unfold c; ring).
  rewrite E1. match goal with |- ?z ^ 2 <= _ => replace (z ^ 2) with (z * z) by ring end.
  eapply Rle_trans; [exact CS|]. apply Req_le. unfold dot at 1. rewrite <- (sumn_scale 3 tiny), <- sumn_plus, <- sumn_scale.
  apply sumn_ext. intros k Hk. destruct (rad k Hk) as (_ & _ & R & _). fold (c k).
  replace (m * sqrt (d k + tiny) * c k * (m * sqrt (d k + tiny) * c k)) with (m ^ 2 * (sqrt (d k + tiny) * sqrt (d k + tiny)) * (c k * c k)) by ring. rewrite R. ring.
Qed.
Lemma e_on : on_ellipsoid C m e.
Proof.
  exists (fun a => sumn 3 (fun k => Q a k * (m * s k / sqrt (d k + tiny)))). split.
  - intros i Hi. set (y := fun a => sumn 3 (fun k => Q a k * (m * s k / sqrt (d k + tiny)))).
    change (mv 3 C y i + y i / 10000000000000000 = e i). replace (y i / 10000000000000000) with (tiny * y i) by (unfold tiny; lra).
    assert (M : mv 3 C y i = sumn 3 (fun k => d k * Q i k * (m * s k / sqrt (d k + tiny)))).
    { unfold mv, dot, y. transitivity (sumn 3 (fun a => sumn 3 (fun k => (m * s k / sqrt (d k + tiny)) * (C i a * Q a k)))).
      - apply sumn_ext. intros a Ha. rewrite <- sumn_scale. apply sumn_ext. intros; ring.
      - rewrite sumn_swap. apply sumn_ext. intros k Hk. rewrite sumn_scale. change (sumn 3 (fun a => C i a * Q a k)) with (mv 3 C (fun a => Q a k) i).
        rewrite (eig_vec 3 C d Q D k i Hk Hi). ring. }
    rewrite M. unfold y, e. rewrite <- (sumn_scale 3 tiny), <- sumn_plus. apply sumn_ext. intros k Hk. destruct (rad k Hk) as (E & _ & R & N). rewrite E.
    transitivity ((d k + tiny) * (Q i k * (m * s k / sqrt (d k + tiny)))); [ring|]. rewrite <- R at 1. field. exact N.
  - rewrite (dot_comm 3 e). rewrite e_coord. 
    assert (Cf : forall k, (k < 3)%nat -> dot 3 (fun i => Q i k) (fun a => sumn 3 (fun j => Q a j * (m * s j / sqrt (d j + tiny)))) = m * s k / sqrt (d k + tiny)).
    { intros k Hk. unfold dot. transitivity (sumn 3 (fun i => sumn 3 (fun j => (m * s j / sqrt (d j + tiny)) * (Q i k * Q i j)))).
      - apply sumn_ext. intros i Hi. rewrite <- sumn_scale. apply sumn_ext. intros; ring.
      - rewrite sumn_swap. transitivity (sumn 3 (fun j => delta k j * (m * s j / sqrt (d j + tiny)))).
        + apply sumn_ext. intros j Hj. rewrite sumn_scale. destruct D as [D1 _]. rewrite D1 by assumption. ring.
        + exact (dot_delta_l 3 k (fun j => m * s j / sqrt (d j + tiny)) Hk). }
    transitivity (sumn 3 (fun k => m ^ 2 * (s k * s k))).
    + apply sumn_ext. intros k Hk. rewrite Cf by assumption. destruct (rad k Hk) as (_ & _ & _ & N). field. exact N.
    + rewrite sumn_scale. unfold dot in U. rewrite U. ring.
Qed.
End Ellipsoid.
