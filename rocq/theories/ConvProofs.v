From Coq Require Import Lia Lra.
From Verif Require Import RBase QpBase ConsModel DistModel ConvModel ConvSpec PsdLib.
Open Scope R_scope.
Open Scope list_scope.

Lemma log2simple_cov mu C i j : snd (log2simple mu C) i j =
  exp (mu i + 1 / 2 * C i i) * exp (mu j + 1 / 2 * C j j) * (exp (C i j) - 1).
Proof.
  unfold log2simple. cbn [snd]. rewrite Rmult_minus_distr_l, <- !exp_plus, Rmult_1_r. f_equal. f_equal. field.
Qed.

Lemma log2simple_psd n mu C : symmetric n C -> psd n C ->
  symmetric n (snd (log2simple mu C)) /\ psd n (snd (log2simple mu C)).
Proof.
  intros HS HP. split.
  - intros i j Hi Hj. rewrite !log2simple_cov. rewrite (HS i j Hi Hj). ring.
  - intros x. set (e := fun i => exp (mu i + 1 / 2 * C i i)).
    rewrite (quad_ext n _ (fun i j => (exp (C i j) - 1) * (e i * e j)) x x).
    + pose proof (expm1_psd n C HS HP (fun i => e i * x i)) as H. unfold quad in *.
      erewrite sumn_ext; [exact H|]. intros i Hi. apply sumn_ext. intros j Hj. ring.
    + intros i j Hi Hj. rewrite log2simple_cov. unfold e. ring.
    + auto.
Qed.

Lemma p_log1p_ok x : -1 < x -> p_log1p (Fin x) = Fin (ln (1 + x)).
Proof. intros H. unfold p_log1p. destruct (Rltb_spec (-1) x); [reflexivity|lra]. Qed.
Lemma p_log1p_fin x y : p_log1p (Fin x) = Fin y -> -1 < x /\ y = ln (1 + x).
Proof. unfold p_log1p. destruct (Rltb_spec (-1) x); [intros E; injection E as <-; auto|]. destruct (Reqb x (-1)); discriminate. Qed.

Lemma existsb_seq f n : existsb f (seq 0 n) = false <-> (forall i, (i < n)%nat -> f i = false).
Proof.
  split.
  - intros H i Hi. destruct (f i) eqn:E; [|reflexivity]. rewrite <- H. symmetry. apply existsb_exists. exists i. split; [apply in_seq; lia|exact E].
  - intros H. destruct (existsb f (seq 0 n)) eqn:E; [|reflexivity]. apply existsb_exists in E. destruct E as (i & Hi & E). apply in_seq in Hi. rewrite H in E by lia. discriminate.
Qed.

Lemma simple2log_dom n mu C : ((exists r, simple2log n mu C = Ok r) <-> forall i, (i < n)%nat -> -1 < mu i) /\
  (forall e, simple2log n mu C = Err e -> e = ValueError).
Proof.
  unfold simple2log. destruct (existsb _ _) eqn:E.
  - split; [|intros e H; injection H as <-; reflexivity]. split; [intros (r & H); discriminate|].
    intros H. apply existsb_exists in E. destruct E as (i & Hi & E). apply in_seq in Hi. specialize (H i ltac:(lia)). apply Rleb_true in E. lra.
  - split; [|discriminate]. split; [|eauto]. intros _ i Hi. apply existsb_seq with (i := i) in E; [|exact Hi]. apply Rleb_false in E. lra.
Qed.

Lemma simple2log_ok n mu C : (forall i, (i < n)%nat -> -1 < mu i) ->
  simple2log n mu C = Ok (fun i => p_sub_half (ln (mu i + 1)) (p_log1p (Fin (C i i / ((mu i + 1) * (mu i + 1))))),
                          fun i j => if Nat.eqb i j then p_log1p (Fin (C i i / ((mu i + 1) * (mu i + 1)))) else p_log1p (Fin (C i j / ((mu i + 1) * (mu j + 1))))).
Proof.
  intros H. unfold simple2log. destruct (existsb _ _) eqn:E; [|reflexivity].
  apply existsb_exists in E. destruct E as (i & Hi & E). apply in_seq in Hi. specialize (H i ltac:(lia)). apply Rleb_true in E. lra.
Qed.

Lemma log_round n mu C : exists m c, simple2log n (fst (log2simple mu C)) (snd (log2simple mu C)) = Ok (m, c) /\
  (forall i, (i < n)%nat -> m i = Fin (mu i)) /\
  (forall i j, (i < n)%nat -> (j < n)%nat -> c i j = Fin (C i j)).
Proof.
  assert (Hp : forall i, 0 < exp (mu i + 1 / 2 * C i i)) by (intros; apply exp_pos).
  assert (HC : forall i j, p_log1p (Fin (snd (log2simple mu C) i j / ((fst (log2simple mu C) i + 1) * (fst (log2simple mu C) j + 1)))) = Fin (C i j)).
  { intros i j. rewrite log2simple_cov. unfold log2simple. cbn [fst]. set (ei := exp (mu i + _)). set (ej := exp (mu j + _)).
    assert (0 < ei) by apply exp_pos. assert (0 < ej) by apply exp_pos.
    replace (ei * ej * (exp (C i j) - 1) / ((ei - 1 + 1) * (ej - 1 + 1))) with (exp (C i j) - 1) by (field; split; lra).
    rewrite p_log1p_ok by (pose proof (exp_pos (C i j)); lra). f_equal. replace (1 + (exp (C i j) - 1)) with (exp (C i j)) by ring. apply ln_exp. }
  eexists _, _. split; [apply simple2log_ok|split].
  - intros i Hi. unfold log2simple. cbn [fst]. specialize (Hp i). lra.
  - intros i Hi. cbv beta. rewrite HC. unfold p_sub_half. f_equal. unfold log2simple. cbn [fst].
    replace (exp (mu i + 1 / 2 * C i i) - 1 + 1) with (exp (mu i + 1 / 2 * C i i)) by ring. rewrite ln_exp. lra.
  - intros i j Hi Hj. cbv beta. destruct (Nat.eqb_spec i j) as [->|]; apply HC.
Qed.

Lemma simple_round n mu C : (forall i, (i < n)%nat -> -1 < mu i) ->
  (forall i j, (i < n)%nat -> (j < n)%nat -> 0 < (1 + mu i) * (1 + mu j) + C i j) ->
  exists m c mg cg, simple2log n mu C = Ok (m, c) /\
    (forall i, (i < n)%nat -> m i = Fin (mg i)) /\
    (forall i j, (i < n)%nat -> (j < n)%nat -> c i j = Fin (cg i j)) /\
    (forall i, (i < n)%nat -> fst (log2simple mg cg) i = mu i) /\
    (forall i j, (i < n)%nat -> (j < n)%nat -> snd (log2simple mg cg) i j = C i j).
Proof.
  intros Hm Hc. set (g := fun i j => C i j / ((mu i + 1) * (mu j + 1))).
  assert (Hg : forall i j, (i < n)%nat -> (j < n)%nat -> -1 < g i j).
  { intros i j Hi Hj. unfold g. specialize (Hc i j Hi Hj). pose proof (Hm i Hi). pose proof (Hm j Hj).
    assert (0 < (mu i + 1) * (mu j + 1)) by (apply Rmult_lt_0_compat; lra).
    apply Rmult_lt_reg_r with ((mu i + 1) * (mu j + 1)); [assumption|].
    replace (C i j / ((mu i + 1) * (mu j + 1)) * ((mu i + 1) * (mu j + 1))) with (C i j) by (field; lra). lra. }
  exists (fun i => p_sub_half (ln (mu i + 1)) (p_log1p (Fin (g i i)))), (fun i j => if Nat.eqb i j then p_log1p (Fin (g i i)) else p_log1p (Fin (g i j))),
    (fun i => ln (mu i + 1) - 1 / 2 * ln (1 + g i i)), (fun i j => ln (1 + g i j)).
  split; [apply simple2log_ok; exact Hm|]. split; [|split; [|split]].
  - intros i Hi. cbv beta. rewrite p_log1p_ok by (apply Hg; exact Hi). reflexivity.
  - intros i j Hi Hj. cbv beta. destruct (Nat.eqb_spec i j) as [->|]; rewrite p_log1p_ok by (apply Hg; assumption); reflexivity.
  - intros i Hi. unfold log2simple. cbn [fst].
    replace (ln (mu i + 1) - 1 / 2 * ln (1 + g i i) + 1 / 2 * ln (1 + g i i)) with (ln (mu i + 1)) by ring.
    rewrite exp_ln by (specialize (Hm i Hi); lra). ring.
  - intros i j Hi Hj. rewrite log2simple_cov.
    replace (ln (mu i + 1) - 1 / 2 * ln (1 + g i i) + 1 / 2 * ln (1 + g i i)) with (ln (mu i + 1)) by ring.
    replace (ln (mu j + 1) - 1 / 2 * ln (1 + g j j) + 1 / 2 * ln (1 + g j j)) with (ln (mu j + 1)) by ring.
    pose proof (Hm i Hi). pose proof (Hm j Hj). pose proof (Hg i j Hi Hj).
    rewrite !exp_ln by lra. unfold g. field. split; lra.
Qed.

(** Outside that domain an entry is NaN or infinite. *)
Lemma simple2log_fin n mu C m c : simple2log n mu C = Ok (m, c) ->
  ((forall i j, (i < n)%nat -> (j < n)%nat -> p_fin (c i j) = true) <->
   (forall i j, (i < n)%nat -> (j < n)%nat -> 0 < (1 + mu i) * (1 + mu j) + C i j)).
Proof.
  intros H. assert (Hm : forall i, (i < n)%nat -> -1 < mu i) by (apply (simple2log_dom n mu C); eauto).
  split.
  - intros HF i j Hi Hj. rewrite simple2log_ok in H by exact Hm. injection H as <- <-. specialize (HF i j Hi Hj). cbv beta in HF.
    assert (K : p_fin (p_log1p (Fin (C i j / ((mu i + 1) * (mu j + 1))))) = true) by (destruct (Nat.eqb_spec i j) as [E|]; [subst j|]; exact HF).
    destruct (p_log1p (Fin (C i j / ((mu i + 1) * (mu j + 1))))) as [y| | |] eqn:EL; try discriminate K. apply p_log1p_fin in EL. destruct EL as [L _].
    pose proof (Hm i Hi). pose proof (Hm j Hj). assert (P : 0 < (mu i + 1) * (mu j + 1)) by (apply Rmult_lt_0_compat; lra).
    apply (Rmult_lt_compat_r _ _ _ P) in L. replace (C i j / ((mu i + 1) * (mu j + 1)) * ((mu i + 1) * (mu j + 1))) with (C i j) in L by (field; lra). lra.
  - intros HC i j Hi Hj. destruct (simple_round n mu C Hm HC) as (m' & c' & mg & cg & E & _ & Ec & _). rewrite E in H. injection H as <- <-.
    rewrite Ec by assumption. reflexivity.
Qed.

(** ** Meaning *)
Lemma ex_minus E f g : expectation E -> E (fun x => f x - g x) = E f - E g.
Proof.
  intros H. rewrite (ex_ext E H (fun x => f x - g x) (fun x => f x + (-1) * g x)) by (intros; ring).
  rewrite (ex_plus E H), (ex_scale E H). ring.
Qed.
Lemma ex_const E k : expectation E -> E (fun _ => k) = k.
Proof. intros H. rewrite (ex_ext E H (fun _ => k) (fun _ => k * 1)) by (intros; ring). rewrite (ex_scale E H), (ex_one E H). ring. Qed.
Lemma covariance_alt E f g : expectation E -> covariance E f g = E (fun x => f x * g x) - E f * E g.
Proof.
  intros H. unfold covariance.
  rewrite (ex_ext E H (fun x => (f x - E f) * (g x - E g)) (fun x => (f x * g x - E g * f x) - (E f * g x - E f * E g))) by (intros; ring).
  rewrite (ex_minus E (fun x => f x * g x - E g * f x) (fun x => E f * g x - E f * E g) H).
  rewrite (ex_minus E (fun x => f x * g x) (fun x => E g * f x) H), (ex_minus E (fun x => E f * g x) (fun _ => E f * E g) H).
  rewrite !(ex_scale E H), (ex_const E _ H). ring.
Qed.

Lemma lognormal_moments n E mu C : expectation E -> lognormal n E mu C ->
  (forall i, (i < n)%nat -> mean E (fun x => exp (x i) - 1) = fst (log2simple mu C) i) /\
  (forall i j, (i < n)%nat -> (j < n)%nat -> covariance E (fun x => exp (x i) - 1) (fun x => exp (x j) - 1) = snd (log2simple mu C) i j).
Proof.
  intros H [H1 H2].
  assert (HM : forall i, (i < n)%nat -> E (fun x => exp (x i) - 1) = exp (mu i + 1 / 2 * C i i) - 1).
  { intros i Hi. rewrite (ex_minus E (fun x => exp (x i)) (fun _ => 1) H), (ex_const E _ H), H1 by exact Hi. do 2 f_equal. field. }
  split.
  - intros i Hi. unfold mean. rewrite HM by exact Hi. reflexivity.
  - intros i j Hi Hj. rewrite (covariance_alt E _ _ H), !HM by assumption.
    rewrite (ex_ext E H (fun x => (exp (x i) - 1) * (exp (x j) - 1)) (fun x => (exp (x i + x j) - exp (x i)) - (exp (x j) - 1))).
    2:{ intros x. rewrite exp_plus. ring. }
    rewrite (ex_minus E (fun x => exp (x i + x j) - exp (x i)) (fun x => exp (x j) - 1) H), (ex_minus E (fun x => exp (x i + x j)) (fun x => exp (x i)) H), HM by exact Hj.
    rewrite H2, H1 by assumption. unfold log2simple. cbn [snd].
    replace (exp (mu i + C i i / 2)) with (exp (mu i + 1 / 2 * C i i)) by (f_equal; field).
    replace (exp (mu i + mu j + (C i i + C j j + 2 * C i j) / 2)) with (exp (mu i + mu j + 1 / 2 * (C i i + C j j + 2 * C i j))) by (f_equal; field). ring.
Qed.

(** ** Scenario conversions *)
Lemma nd_any_false f a : nd_any f a = false <-> forall k, (k < nd_size a)%nat -> f (nd_at a k) = false.
Proof. apply existsb_seq. Qed.
Lemma compound_round a : (forall k, (k < nd_size a)%nat -> nd_at a k <> NInf) ->
  exists b, simple_to_compound (compound_to_simple a) = Ok b /\ nd_shape b = nd_shape a /\
    forall k, (k < nd_size a)%nat -> nd_at b k = nd_at a k.
Proof.
  intros H. unfold simple_to_compound.
  assert (E : nd_any p_le_m1 (compound_to_simple a) = false).
  { apply nd_any_false. intros k Hk. specialize (H k Hk). simpl. destruct (nd_at a k) as [x| | |]; simpl; try reflexivity; [|contradiction].
    apply Rleb_false. pose proof (exp_pos x). lra. }
  rewrite E. eexists. split; [reflexivity|]. split; [reflexivity|]. intros k Hk. simpl. specialize (H k Hk).
  destruct (nd_at a k) as [x| | |]; simpl; try reflexivity; [|contradiction].
  destruct (Rltb_spec (-1) (exp x - 1)) as [L|L]; [|pose proof (exp_pos x); lra]. f_equal. replace (1 + (exp x - 1)) with (exp x) by ring. apply ln_exp.
Qed.
Lemma simple_round_scen a : 
  ((exists b, simple_to_compound a = Ok b) <-> (forall k, (k < nd_size a)%nat -> p_le_m1 (nd_at a k) = false)) /\
  (forall e, simple_to_compound a = Err e -> e = ValueError) /\
  (forall b, simple_to_compound a = Ok b -> nd_shape b = nd_shape a /\
     forall k, (k < nd_size a)%nat -> nd_at (compound_to_simple b) k = nd_at a k).
Proof.
  unfold simple_to_compound. destruct (nd_any p_le_m1 a) eqn:E.
  - split; [|split; [intros e H; injection H as <-; reflexivity|discriminate]]. split; [intros (b & H); discriminate|].
    intros H. apply nd_any_false in H. congruence.
  - pose proof (proj1 (nd_any_false _ _) E) as E'. split; [split; [intros _; exact E'|eauto]|]. split; [discriminate|].
    intros b H. injection H as <-. split; [reflexivity|]. intros k Hk. specialize (E' k Hk). simpl.
    destruct (nd_at a k) as [x| | |]; simpl in *; try reflexivity; [|discriminate].
    apply Rleb_false in E'. destruct (Rltb_spec (-1) x) as [L|L]; [|lra]. simpl. rewrite exp_ln by lra. f_equal. ring.
Qed.
