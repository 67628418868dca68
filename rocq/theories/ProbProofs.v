From Verif Require Import QBase ProbModel ProbSpec.
Open Scope Q_scope.

Lemma finite_inv l : forallb fl_finite l = true -> exists qs, l = map Fin qs.
Proof.
  induction l as [|x xs IH]; simpl; intros H; [exists []; reflexivity|].
  apply andb_prop in H as [Hx H]. destruct (IH H) as [qs ->].
  destruct x as [q| | |]; try discriminate. exists (q :: qs). reflexivity.
Qed.

Lemma finite_map qs : forallb fl_finite (map Fin qs) = true.
Proof. induction qs; simpl; auto. Qed.

Lemma fl_sum_fin qs : fl_sum (map Fin qs) = Fin (qsum qs).
Proof. induction qs as [|q qs IH]; [reflexivity|].
  change (fl_add (Fin q) (fl_sum (map Fin qs)) = Fin (q + qsum qs)). rewrite IH. reflexivity. Qed.

Lemma map_fin_inj a b : map Fin a = map Fin b -> a = b.
Proof.
  revert b; induction a as [|x xs IH]; destruct b as [|y ys]; simpl; try discriminate; auto.
  intros H. injection H as -> H. f_equal; auto.
Qed.

Lemma exists_pos_sum qs : (forall x, In x qs -> 0 <= x) ->
  (0 < qsum qs <-> exists x, In x qs /\ 0 < x).
Proof.
  induction qs as [|q qs IH]; simpl; intros Hnn.
  - split; [lra | intros (x & [] & _)].
  - assert (Hq : 0 <= q) by auto.
    assert (IH' := IH (fun x Hx => Hnn x (or_intror Hx))).
    assert (0 <= qsum qs) by (apply qsum_nonneg, Forall_forall; auto).
    split.
    + intros Hs. destruct (Qlt_le_dec 0 q) as [Hp|Hn]; [eauto|].
      assert (0 < qsum qs) as Hs2 by lra. apply IH' in Hs2 as (x & Hi & Hx). eauto.
    + intros (x & [<-|Hi] & Hx); [lra|].
      assert (0 < qsum qs) by (apply IH'; eauto). lra.
Qed.

Lemma existsb_lt0_map qs : existsb fl_lt0 (map Fin qs) = false <-> forall x, In x qs -> 0 <= x.
Proof.
  induction qs as [|q qs IH]; simpl; [split; intros; [tauto|reflexivity]|].
  rewrite orb_false_iff, IH, Qlt_bool_false. split.
  - intros [H1 H2] x [<-|Hx]; auto.
  - intros H; split; auto.
Qed.

Lemma existsb_le0_map qs : existsb fl_le0 (map Fin qs) = false <-> forall x, In x qs -> 0 < x.
Proof.
  induction qs as [|q qs IH]; simpl; [split; intros; [tauto|reflexivity]|].
  rewrite orb_false_iff, IH, Qle_bool_false. split.
  - intros [H1 H2] x [<-|Hx]; auto.
  - intros H; split; auto.
Qed.

(** The exact value of the function on acceptable inputs. *)
Lemma normalize_value strict raw qs : acceptable strict raw qs ->
  normalize_probability_vector strict raw =
    Ok (if isclose (qsum qs) 1 then raw else map (fun x => Fin (x / qsum qs)) qs).
Proof.
  intros (-> & Hne & Hsgn & Hpos).
  assert (Hnn : forall x, In x qs -> 0 <= x).
  { intros x Hx. specialize (Hsgn x Hx). destruct strict; lra. }
  assert (Ht : 0 < qsum qs) by (apply exists_pos_sum; auto).
  unfold normalize_probability_vector. rewrite map_length.
  destruct (Nat.eqb_spec (length qs) 0) as [H0|_].
  { destruct qs; [congruence|simpl in H0; discriminate]. }
  rewrite finite_map; simpl.
  replace (if strict then existsb fl_le0 (map Fin qs) else existsb fl_lt0 (map Fin qs)) with false.
  2:{ symmetry. destruct strict; [apply existsb_le0_map|apply existsb_lt0_map]; auto. }
  rewrite fl_sum_fin.
  replace (Qle_bool (qsum qs) 0) with false by (symmetry; apply Qle_bool_false; auto).
  simpl. destruct (isclose (qsum qs) 1); simpl; [reflexivity|].
  rewrite map_map. reflexivity.
Qed.

Lemma normalize_error strict raw :
  (forall qs, ~ acceptable strict raw qs) ->
  normalize_probability_vector strict raw = Err ValueError.
Proof.
  intros Hno. unfold normalize_probability_vector.
  destruct (Nat.eqb_spec (length raw) 0) as [|Hlen]; [reflexivity|].
  destruct (forallb fl_finite raw) eqn:Hf; [simpl|reflexivity].
  destruct (finite_inv _ Hf) as [qs ->].
  destruct (if strict then existsb fl_le0 (map Fin qs) else existsb fl_lt0 (map Fin qs)) eqn:Hs;
    [reflexivity|].
  rewrite fl_sum_fin.
  destruct (Qle_bool (qsum qs) 0) eqn:Hle; [reflexivity|].
  exfalso. apply (Hno qs). apply Qle_bool_false in Hle.
  assert (Hsgn : forall x, In x qs -> if strict then 0 < x else 0 <= x).
  { destruct strict; [apply existsb_le0_map|apply existsb_lt0_map]; auto. }
  split; [reflexivity|split; [intros ->; apply Hlen; reflexivity|split; [exact Hsgn|]]].
  apply exists_pos_sum; [|exact Hle].
  intros x Hx; specialize (Hsgn x Hx); destruct strict; lra.
Qed.

Lemma acceptable_dec strict raw : (exists qs, acceptable strict raw qs) \/
  (forall qs, ~ acceptable strict raw qs).
Proof.
  destruct (normalize_probability_vector strict raw) as [out|e] eqn:H.
  - left. revert H. unfold normalize_probability_vector.
    destruct (Nat.eqb_spec (length raw) 0) as [|Hlen]; [discriminate|].
    destruct (forallb fl_finite raw) eqn:Hf; [simpl|discriminate].
    destruct (finite_inv _ Hf) as [qs ->].
    destruct (if strict then existsb fl_le0 (map Fin qs) else existsb fl_lt0 (map Fin qs)) eqn:Hs;
      [discriminate|].
    rewrite fl_sum_fin.
    destruct (Qle_bool (qsum qs) 0) eqn:Hle; [discriminate|]. intros _.
    apply Qle_bool_false in Hle. exists qs.
    assert (Hsgn : forall x, In x qs -> if strict then 0 < x else 0 <= x).
    { destruct strict; [apply existsb_le0_map|apply existsb_lt0_map]; auto. }
    split; [reflexivity|split; [intros ->; apply Hlen; reflexivity|split; [exact Hsgn|]]].
    apply exists_pos_sum; [|exact Hle].
    intros x Hx; specialize (Hsgn x Hx); destruct strict; lra.
  - right. intros qs Hacc. rewrite (normalize_value _ _ _ Hacc) in H. discriminate.
Qed.

Lemma acceptable_total strict raw qs : acceptable strict raw qs -> 0 < qsum qs.
Proof.
  intros (_ & _ & Hs & Hp). apply exists_pos_sum; auto.
  intros x Hx; specialize (Hs x Hx); destruct strict; lra.
Qed.

Lemma Forall2_map_r {A B} (P : A -> B -> Prop) (f : A -> B) l :
  (forall x, In x l -> P x (f x)) -> Forall2 P l (map f l).
Proof. induction l; simpl; intros H; constructor; auto. Qed.

Lemma Forall2_self {A} (P : A -> A -> Prop) l : (forall x, P x x) -> Forall2 P l l.
Proof. induction l; constructor; auto. Qed.

Lemma normalize_correct_l strict raw :
  (exists qs ps k, acceptable strict raw qs /\
     normalize_probability_vector strict raw = Ok (map Fin ps) /\
     rescaled qs ps k /\ length ps = length qs /\ (forall p, In p ps -> 0 <= p)) \/
  ((forall qs, ~ acceptable strict raw qs) /\
     normalize_probability_vector strict raw = Err ValueError).
Proof.
  destruct (acceptable_dec strict raw) as [(qs & Hacc)|Hno].
  2:{ right; split; auto using normalize_error. }
  left. pose proof (acceptable_total _ _ _ Hacc) as Ht.
  assert (Hnn : forall x, In x qs -> 0 <= x).
  { destruct Hacc as (_ & _ & Hs & _). intros x Hx; specialize (Hs x Hx); destruct strict; lra. }
  rewrite (normalize_value _ _ _ Hacc).
  exists qs. destruct (isclose (qsum qs) 1).
  - exists qs, 1. destruct (Hacc) as (-> & _).
    repeat split; auto; try apply Hacc; try lra.
    apply Forall2_self; intros; lra.
  - exists (map (fun x => x / qsum qs) qs), (/ qsum qs).
    repeat split; auto; try apply Hacc.
    + rewrite map_map. reflexivity.
    + apply Qinv_lt_0_compat; exact Ht.
    + apply Forall2_map_r. intros x _. unfold Qdiv. ring.
    + apply map_length.
    + intros p Hp. apply in_map_iff in Hp as (x & <- & Hx). apply Qle_shift_div_l; auto.
      rewrite Qmult_0_l. auto.
Qed.

Lemma sum_div qs t : ~ t == 0 -> qsum (map (fun x => x / t) qs) == qsum qs / t.
Proof.
  intros Ht. induction qs as [|q qs IH]; simpl; [field; auto|]. rewrite IH. field; auto.
Qed.

Lemma normalize_sum_l strict raw qs ps :
  acceptable strict raw qs -> normalize_probability_vector strict raw = Ok (map Fin ps) ->
  (band < Qabs (qsum qs - 1) -> qsum ps == 1) /\
  (Qabs (qsum qs - 1) <= band -> ps = qs) /\
  Qabs (qsum ps - 1) <= band.
Proof.
  intros Hacc H. pose proof (acceptable_total _ _ _ Hacc) as Ht.
  rewrite (normalize_value _ _ _ Hacc) in H.
  assert (Hb : q_atol + q_rtol * Qabs 1 == band) by reflexivity.
  destruct (isclose (qsum qs) 1) eqn:Hc; unfold isclose in Hc.
  - apply Qle_bool_iff in Hc. rewrite Hb in Hc.
    destruct Hacc as (-> & _). injection H as H. apply map_fin_inj in H. subst ps.
    repeat split; auto; intros; try lra.
  - apply Qle_bool_false in Hc. rewrite Hb in Hc.
    assert (map Fin (map (fun x => x / qsum qs) qs) = map Fin ps) as H'.
    { rewrite map_map. congruence. }
    apply map_fin_inj in H'. subst ps.
    assert (Hs : qsum (map (fun x => x / qsum qs) qs) == 1).
    { rewrite sum_div by lra. field. lra. }
    repeat split; intros; auto; try lra.
    rewrite Hs. vm_compute. discriminate.
Qed.

Lemma sum_to_one_refuted_l : exists raw ps,
  normalize_probability_vector false raw = Ok (map Fin ps) /\ ~ qsum ps == 1.
Proof.
  exists [Fin (1#2); Fin (500001 # 1000000)], [1#2; 500001 # 1000000].
  split; [vm_compute; reflexivity|]. vm_compute. discriminate.
Qed.

Lemma uniform_l n : match generate_uniform_probabilities n with
  | Ok out => (0 < n)%Z /\ exists ps, out = map Fin ps /\ Z.of_nat (length ps) = n /\
      qsum ps == 1 /\ (forall p, In p ps -> p == 1 / inject_Z n /\ 0 < p)
  | Err e => (n <= 0)%Z /\ e = ValueError
  end.
Proof.
  unfold generate_uniform_probabilities. destruct (Z.leb_spec n 0) as [H|H]; [auto|].
  split; [exact H|]. exists (repeat (1 / inject_Z n) (Z.to_nat n)).
  assert (Hn : 0 < inject_Z n) by (change 0 with (inject_Z 0); rewrite <- Zlt_Qlt; exact H).
  split; [|split; [|split]].
  - generalize (Z.to_nat n). intros m. induction m; simpl; f_equal; auto.
  - rewrite repeat_length. lia.
  - assert (Hs : forall m, qsum (repeat (1 / inject_Z n) m) == inject_Z (Z.of_nat m) / inject_Z n).
    { induction m as [|m IH]; cbn [repeat qsum fold_right].
      - simpl. field. lra.
      - unfold qsum in IH. rewrite IH. rewrite Nat2Z.inj_succ, <- Z.add_1_r, inject_Z_plus. field. lra. }
    rewrite Hs, Z2Nat.id by lia. field. lra.
  - intros p Hp. apply repeat_spec in Hp. subst p. split; [lra|].
    apply Qlt_shift_div_l; lra.
Qed.

Lemma resolve_l pv n strict : resolve_probabilities pv n strict =
  match pv with
  | None => generate_uniform_probabilities n
  | Some raw => match normalize_probability_vector strict raw with
                | Err e => Err e
                | Ok ps => if (Z.of_nat (length raw) =? n)%Z then Ok ps else Err ValueError
                end
  end.
Proof.
  destruct pv as [raw|]; [|reflexivity]. simpl.
  destruct (normalize_probability_vector strict raw) as [ps|e] eqn:H; simpl; [|reflexivity].
  assert (Hl : length ps = length raw).
  { destruct (normalize_correct_l strict raw) as [(qs & ps' & k & Hacc & H' & _ & Hlen & _)|[_ He]];
      [|congruence].
    rewrite H in H'. injection H' as ->. destruct Hacc as (-> & _).
    rewrite !map_length. exact Hlen. }
  rewrite Hl. destruct (Z.of_nat (length raw) =? n)%Z; reflexivity.
Qed.

Lemma resolve_ok_l pv n strict out : resolve_probabilities pv n strict = Ok out ->
  exists ps, out = map Fin ps /\ Z.of_nat (length ps) = n /\ (0 < n)%Z /\
    (forall p, In p ps -> 0 <= p) /\ Qabs (qsum ps - 1) <= band.
Proof.
  destruct pv as [raw|]; intros H.
  - rewrite resolve_l in H.
    destruct (normalize_probability_vector strict raw) as [o|e] eqn:Hn; [|discriminate].
    destruct (normalize_correct_l strict raw) as [(qs & ps & k & Hacc & H' & Hr & Hlen & Hp)|[_ He]];
      [|congruence].
    rewrite Hn in H'. injection H' as ->.
    destruct (Z.eqb_spec (Z.of_nat (length raw)) n) as [<-|]; [|discriminate].
    injection H as <-. exists ps. split; [reflexivity|].
    assert (length raw = length qs) as Hl.
    { destruct Hacc as (-> & _). apply map_length. }
    split; [lia|]. split; [|split; [exact Hp|]].
    + destruct Hacc as (_ & Hne & _). destruct qs; [congruence|]. simpl in Hl. lia.
    + apply (normalize_sum_l strict raw qs ps Hacc Hn).
  - simpl in H. pose proof (uniform_l n) as Hu. rewrite H in Hu.
    destruct Hu as (Hn & ps & -> & Hlen & Hs & Hp). exists ps. repeat split; auto.
    + intros p Hi. apply Hp in Hi. lra.
    + rewrite Hs. vm_compute. discriminate.
Qed.
