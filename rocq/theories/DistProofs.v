From Coq Require Import Lia Lra.
From Verif Require Import RBase QpBase MomModel MomSpec MomProperties ConsModel DistModel OptSpec DistSpec.
Open Scope R_scope.
Open Scope list_scope.

Lemma nd_all_iff f a : nd_all f a = true <-> forall k, (k < nd_size a)%nat -> f (nd_at a k) = true.
Proof.
  unfold nd_all. rewrite forallb_forall. split; intros H k Hk; apply H.
  - apply in_seq; lia.
  - apply in_seq in Hk; lia.
Qed.
Lemma nd_any_iff f a : nd_any f a = false <-> forall k, (k < nd_size a)%nat -> f (nd_at a k) = false.
Proof.
  unfold nd_any. split.
  - intros H k Hk. destruct (f (nd_at a k)) eqn:E; [|reflexivity].
    rewrite <- H. symmetry. apply existsb_exists. exists k. split; [apply in_seq; lia|exact E].
  - intros H. apply Bool.not_true_iff_false. intros E. apply existsb_exists in E as (k & Hk & E).
    apply in_seq in Hk. rewrite H in E by lia. discriminate.
Qed.

Lemma fin_val x : p_fin x = true <-> x = Fin (val x).
Proof. destruct x; simpl; split; intros; try discriminate; reflexivity. Qed.

Lemma all_fin_real a : nd_all p_fin a = true <-> real_array a (nd_shape a) (as_vec a).
Proof.
  rewrite nd_all_iff. unfold real_array, as_vec. split.
  - intros H. split; [reflexivity|]. intros k Hk. apply fin_val, H; exact Hk.
  - intros [_ H] k Hk. rewrite (H k Hk). reflexivity.
Qed.
Lemma has_shape_fin a s : has_shape a s <-> nd_shape a = s /\ nd_all p_fin a = true.
Proof.
  split.
  - intros (f & Hs & H). split; [exact Hs|]. apply nd_all_iff. intros k Hk. rewrite (H k Hk). reflexivity.
  - intros [<- H]. exists (as_vec a). apply all_fin_real, H.
Qed.
Lemma size1 a t : nd_shape a = [t] -> nd_size a = t.
Proof. unfold nd_size. intros ->. simpl. lia. Qed.
Lemma size2 a t n : nd_shape a = [t; n] -> nd_size a = (t * n)%nat.
Proof. unfold nd_size. intros ->. simpl. lia. Qed.

(** ** Sums of floats *)
Lemma fold_p_add (f : nat -> pyf) l : (forall k, In k l -> exists r, f k = Fin r) ->
  fold_right p_add (Fin 0) (map f l) = Fin (rsum (map (fun k => val (f k)) l)).
Proof.
  induction l as [|k l IH]; intros H; [reflexivity|]. simpl.
  rewrite IH by (intros; apply H; right; assumption).
  destruct (H k (or_introl eq_refl)) as [r ->]. reflexivity.
Qed.
Lemma fold_p_add_inv (f : nat -> pyf) l s : fold_right p_add (Fin 0) (map f l) = Fin s -> forall k, In k l -> p_fin (f k) = true.
Proof.
  revert s. induction l as [|k l IH]; intros s H k' Hk'; [destruct Hk'|]. simpl in H.
  destruct (fold_right p_add (Fin 0) (map f l)) eqn:E; destruct (f k) eqn:Ek; simpl in H; try discriminate.
  destruct Hk' as [<- |Hk']; [rewrite Ek; reflexivity|]. eapply IH; [reflexivity|exact Hk'].
Qed.

(** ** Probabilities *)
Lemma scen_probs_core t (raw : nat -> pyf) :
  (forall pr, (if nd_any p_lt0 (mkND [t] raw) then Err ValueError else
      match nd_sum (mkND [t] raw) with
      | Fin s => if Rleb s 0 then Err ValueError else Ok (mkND [t] (fun k => p_scale (raw k) s))
      | _ => Err ValueError end) = Ok pr ->
     (forall k, (k < t)%nat -> raw k = Fin (val (raw k)) /\ 0 <= val (raw k)) /\
     0 < sumn t (fun k => val (raw k)) /\
     pr = mkND [t] (fun k => p_scale (raw k) (sumn t (fun k => val (raw k))))) /\
  ((forall k, (k < t)%nat -> raw k = Fin (val (raw k)) /\ 0 <= val (raw k)) -> 0 < sumn t (fun k => val (raw k)) ->
   (if nd_any p_lt0 (mkND [t] raw) then Err ValueError else
      match nd_sum (mkND [t] raw) with
      | Fin s => if Rleb s 0 then Err ValueError else Ok (mkND [t] (fun k => p_scale (raw k) s))
      | _ => Err ValueError end) = Ok (mkND [t] (fun k => p_scale (raw k) (sumn t (fun k => val (raw k)))))).
Proof.
  assert (Hsz : nd_size (mkND [t] raw) = t) by (apply size1; reflexivity).
  split.
  - intros pr H. destruct (nd_any p_lt0 (mkND [t] raw)) eqn:E; [discriminate|].
    unfold nd_sum in H. rewrite Hsz in H. cbn [nd_at] in H.
    destruct (fold_right p_add (Fin 0) (map raw (seq 0 t))) as [s| | |] eqn:Es; try discriminate.
    pose proof (fold_p_add_inv _ _ _ Es) as Hf.
    assert (Hall : forall k, (k < t)%nat -> raw k = Fin (val (raw k))).
    { intros k Hk. apply fin_val, Hf, in_seq. lia. }
    rewrite fold_p_add in Es by (intros k Hk; apply in_seq in Hk; exists (val (raw k)); apply Hall; lia).
    injection Es as Es. rewrite rsum_seq in Es. simpl in Es.
    destruct (Rleb_spec s 0) as [|Hs]; [discriminate|]. injection H as <-.
    rewrite nd_any_iff, Hsz in E. cbn [nd_at] in E.
    split; [|split].
    + intros k Hk. split; [apply Hall; exact Hk|]. specialize (E k Hk). rewrite (Hall k Hk) in E. simpl in E. apply Rltb_false in E. exact E.
    + rewrite Es. lra.
    + rewrite Es. reflexivity.
  - intros Hall Hs. replace (nd_any p_lt0 (mkND [t] raw)) with false.
    2:{ symmetry. apply nd_any_iff. rewrite Hsz. intros k Hk. cbn [nd_at]. destruct (Hall k Hk) as [-> H0]. simpl. apply Rltb_false. exact H0. }
    unfold nd_sum. rewrite Hsz. cbn [nd_at].
    rewrite fold_p_add by (intros k Hk; apply in_seq in Hk; exists (val (raw k)); apply Hall; lia).
    rewrite rsum_seq. simpl. destruct (Rleb_spec (sumn t (fun i => val (raw i))) 0); [lra|reflexivity].
Qed.

Lemma scen_probs_ok t p pr : scen_probs t p = Ok pr ->
  (0 < t)%nat /\ usable_probs t p /\ exists q, real_array pr [t] q /\ prob_vec t q /\ normalised t p q.
Proof.
  unfold scen_probs. intros H. apply bind_ok in H as (r & Er & H).
  assert (Hr : exists raw, r = mkND [t] raw) by (destruct p as [p|]; [destruct (Nat.eqb (nd_size p) t)|destruct (Nat.eqb t 0)]; try discriminate; injection Er as <-; eexists; reflexivity).
  destruct Hr as [raw ->]. destruct (proj1 (scen_probs_core t raw) pr H) as (Hall & Hs & ->). clear H.
  assert (Ht : (0 < t)%nat) by (destruct t; [simpl in Hs; lra|lia]).
  split; [exact Ht|].
  set (s := sumn t (fun k => val (raw k))) in *.
  assert (Hq : real_array (mkND [t] (fun k => p_scale (raw k) s)) [t] (fun k => val (raw k) / s)).
  { split; [reflexivity|]. intros k Hk. rewrite size1 with (t := t) in Hk by reflexivity. cbn [nd_at].
    destruct (Hall k Hk) as [-> _]. reflexivity. }
  assert (Hp : prob_vec t (fun k => val (raw k) / s)).
  { split.
    - intros k Hk. destruct (Hall k Hk) as [_ H0]. unfold Rdiv. apply Rmult_le_pos; [exact H0|]. left. apply Rinv_0_lt_compat. exact Hs.
    - rewrite sumn_div. fold s. field. lra. }
  destruct p as [p|].
  - destruct (Nat.eqb_spec (nd_size p) t) as [E|]; [|discriminate]. injection Er as <-.
    split.
    + split; [exact E|]. exists (fun k => val (nd_at p k)). split; [|exact Hs].
      intros k Hk. exact (Hall k Hk).
    + eexists. split; [exact Hq|]. split; [exact Hp|]. intros k Hk. reflexivity.
  - destruct (Nat.eqb_spec t 0) as [|_]; [discriminate|]. injection Er as <-. split; [exact I|].
    eexists. split; [exact Hq|]. split; [exact Hp|]. intros k Hk. subst s. simpl. rewrite sumn_const.
    field. apply not_0_INR. lia.
Qed.

Lemma scen_probs_some t p : (0 < t)%nat -> usable_probs t p -> exists pr, scen_probs t p = Ok pr.
Proof.
  intros Ht Hp. unfold scen_probs. destruct p as [p|].
  - destruct Hp as (E & f & Hf & Hs). rewrite E, Nat.eqb_refl. cbn [bind].
    eexists. apply (proj2 (scen_probs_core t (nd_at p))).
    + intros k Hk. destruct (Hf k Hk) as [-> H]. split; [reflexivity|exact H].
    + rewrite (sumn_ext t _ f); [exact Hs|]. intros k Hk. destruct (Hf k Hk) as [-> _]. reflexivity.
  - destruct (Nat.eqb_spec t 0); [lia|]. cbn [bind]. eexists. apply (proj2 (scen_probs_core t (fun _ => Fin (1 / INR t)))).
    + intros k Hk. split; [reflexivity|]. simpl. unfold Rdiv. rewrite Rmult_1_l. left. apply Rinv_0_lt_compat, lt_0_INR, Ht.
    + simpl. rewrite sumn_const. replace (INR t * (1 / INR t)) with 1; [lra|]. field. apply not_0_INR. lia.
Qed.

Lemma scen_probs_err t p e : scen_probs t p = Err e -> e = ValueError.
Proof.
  unfold scen_probs. destruct p as [p|].
  - destruct (Nat.eqb (nd_size p) t); cbn [bind]; [|congruence].
    destruct (nd_any _ _); [congruence|]. destruct (nd_sum _); try congruence. destruct (Rleb _ _); congruence.
  - destruct (Nat.eqb t 0); cbn [bind]; [congruence|].
    destruct (nd_any _ _); [congruence|]. destruct (nd_sum _); try congruence. destruct (Rleb _ _); congruence.
Qed.

(** ** Estimated moments *)
Lemma est_moments_ok t n X pr q : nd_shape X = [t; n] -> real_array pr [t] q -> prob_vec t q ->
  exists m c, est_moments t n X pr = Ok (m, c) /\ nd_shape m = [n] /\ nd_shape c = [n; n] /\
    (nd_all p_fin X = true ->
       (forall j, nd_at m j = Fin (mean_of t q (as_mat n X) j)) /\
       (forall i j, (j < n)%nat -> nd_at c (pos n i j) = Fin (cov_of t q (as_mat n X) i j))).
Proof.
  intros HX [Hps Hq] Hp. unfold est_moments. destruct (nd_all p_fin X).
  2:{ eexists _, _. repeat split; discriminate. }
  assert (Hv : forall k, (k < t)%nat -> as_vec pr k = q k).
  { intros k Hk. unfold as_vec. rewrite Hq by (rewrite (size1 pr t Hps); exact Hk). reflexivity. }
  rewrite sample_moments_total.
  2:{ split; [intros k Hk; rewrite Hv by exact Hk; apply Hp; exact Hk|]. rewrite (sumn_ext t _ q) by exact Hv. apply Hp. }
  cbn [bind fst snd].
  assert (Em : forall j, wmean t (as_vec pr) (as_mat n X) j = mean_of t q (as_mat n X) j).
  { intros j. apply sumn_ext. intros k Hk. rewrite Hv by exact Hk. ring. }
  eexists _, _. split; [reflexivity|]. split; [reflexivity|]. split; [reflexivity|]. intros _. split.
  - intros j. cbn [nd_at]. rewrite Em. reflexivity.
  - intros i j Hj. cbn [nd_at]. unfold pos. rewrite (Nat.add_comm (i * n)), Nat.div_add, Nat.mod_add by lia.
    rewrite (Nat.div_small j n), (Nat.mod_small j n) by exact Hj. f_equal. simpl. unfold wcov, symmetrise, cov_of.
    match goal with |- (?a + ?b) / 2 = ?c => assert (a = c /\ b = c) as [-> ->]; [|field] end. split.
    + apply sumn_ext. intros k Hk. rewrite !Em, Hv by exact Hk. ring.
    + apply sumn_ext. intros k Hk. rewrite !Em, Hv by exact Hk. ring.
Qed.
