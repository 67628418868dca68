From Verif Require Import RBase ConsModel MomModel DistModel DataModel DataSpec.
From Coq Require Import Lra Lia.
Open Scope R_scope.
Open Scope list_scope.

Notation entry M t j := (nth j (nth t M []) NaN).

Lemma length_map2' : forall A B C (f : A -> B -> C) l m, List.length l = List.length m -> List.length (map2 f l m) = List.length l.
Proof. induction l as [|x l IH]; intros [|y m] H; simpl in *; try discriminate; [reflexivity|]. rewrite IH; lia. Qed.
Lemma nth_map2' : forall A B C (f : A -> B -> C) l m j da db dc, List.length l = List.length m -> (j < List.length l)%nat ->
  nth j (map2 f l m) dc = f (nth j l da) (nth j m db).
Proof.
  induction l as [|x l IH]; intros [|y m] j da db dc H Hj; simpl in *; try discriminate; try lia.
  destruct j; [reflexivity|]. apply IH; lia.
Qed.

(** ** Filling *)
Fixpoint carry (v : pyf) (c : nat -> pyf) (t : nat) : pyf :=
  match t with O => keep v (c O) | S t' => keep (carry v c t') (c (S t')) end.
Lemma carry_shift : forall c v t, carry v c (S t) = carry (keep v (c O)) (fun s => c (S s)) t.
Proof. induction t as [|t IH]; [reflexivity|]. change (carry v c (S (S t))) with (keep (carry v c (S t)) (c (S (S t)))). rewrite IH. reflexivity. Qed.

Definition width (w : nat) (M : list (list pyf)) : Prop := Forall (fun r => List.length r = w) M.

Lemma ffill_len : forall M last, List.length (ffill_rows last M) = List.length M.
Proof. induction M as [|r M IH]; intros last; simpl; [reflexivity|]. rewrite IH. reflexivity. Qed.
Lemma ffill_width : forall M last w, List.length last = w -> width w M -> width w (ffill_rows last M).
Proof.
  induction M as [|r M IH]; intros last w HL H; [constructor|]. inversion H; subst. cbn [ffill_rows]. constructor.
  - rewrite length_map2'; congruence.
  - apply IH; [|assumption]. rewrite length_map2'; congruence.
Qed.
Lemma ffill_nth : forall M last w, List.length last = w -> width w M -> forall t j, (t < List.length M)%nat -> (j < w)%nat ->
  entry (ffill_rows last M) t j = carry (nth j last NaN) (fun s => entry M s j) t.
Proof.
  induction M as [|r M IH]; intros last w HL H t j Ht Hj; [simpl in Ht; lia|]. inversion H; subst. cbn [ffill_rows].
  destruct t as [|t].
  - cbn [nth carry]. apply nth_map2'; congruence.
  - rewrite carry_shift. cbn [nth]. rewrite (IH _ (List.length last)); [| rewrite length_map2'; congruence | assumption | simpl in Ht; lia | assumption].
    f_equal. apply nth_map2'; congruence.
Qed.

Lemma fillna_entry : forall M w t j, width w M -> (t < List.length M)%nat -> (j < w)%nat ->
  entry (fillna0 M) t j = keep (Fin 0) (entry M t j).
Proof.
  intros M w t j H Ht Hj. unfold fillna0.
  rewrite (nth_indep (map (map (keep (Fin 0))) M) [] (map (keep (Fin 0)) [])) by (rewrite map_length; exact Ht).
  rewrite map_nth. rewrite (nth_indep _ NaN (keep (Fin 0) NaN)).
  - apply map_nth.
  - rewrite map_length. unfold width in H. rewrite Forall_nth in H. rewrite (H t []); assumption.
Qed.
Lemma fillna_width : forall M w, width w M -> width w (fillna0 M).
Proof. intros M w H. unfold fillna0, width in *. rewrite Forall_map. eapply Forall_impl; [|exact H]. intros r Hr. rewrite map_length. exact Hr. Qed.
Lemma fillna_len : forall M, List.length (fillna0 M) = List.length M.
Proof. intros. apply map_length. Qed.

Lemma width_nth : forall M w t, width w M -> (t < List.length M)%nat -> List.length (nth t M []) = w.
Proof. intros M w t H Ht. unfold width in H. rewrite Forall_nth in H. apply H. exact Ht. Qed.

(** A matrix of finite entries. *)
Lemma matrix_build : forall M w (P : nat -> nat -> R -> Prop), width w M ->
  (forall t j, (t < List.length M)%nat -> (j < w)%nat -> exists v, entry M t j = Fin v /\ P t j v) ->
  exists g, matrix_is M (List.length M) w g /\ forall t j, (t < List.length M)%nat -> (j < w)%nat -> P t j (g t j).
Proof.
  intros M w P HW H. exists (fun t j => val (entry M t j)). split.
  - split; [reflexivity|]. intros t Ht. apply (nth_ext _ _ NaN NaN).
    + rewrite map_length, seq_length. apply width_nth; assumption.
    + intros j Hj. rewrite (width_nth M w t HW Ht) in Hj. rewrite (nth_map_seq _ _ _ _ Hj).
      destruct (H t j Ht Hj) as (v & E & _). rewrite E. reflexivity.
  - intros t j Ht Hj. destruct (H t j Ht Hj) as (v & E & Pv). rewrite E. exact Pv.
Qed.

Lemma carry_latest : forall (r : nat -> option R) (c : nat -> pyf) t, (forall s, (s <= t)%nat -> c s = cell_of (r s)) ->
  exists v, keep (Fin 0) (carry NaN c t) = Fin v /\ latest r t v.
Proof.
  intros r c t H.
  assert (A : (exists v, carry NaN c t = Fin v /\ exists s, (s <= t)%nat /\ r s = Some v /\ forall u, (s < u <= t)%nat -> r u = None) \/
              (carry NaN c t = NaN /\ forall u, (u <= t)%nat -> r u = None)).
  { revert H. induction t as [|t IH]; intros H.
    - simpl. rewrite (H O (le_n _)). destruct (r O) as [v|] eqn:E; simpl.
      + left. exists v. split; [reflexivity|]. exists O. split; [lia|]. split; [exact E|]. intros u Hu; lia.
      + right. split; [reflexivity|]. intros u Hu. replace u with O by lia. exact E.
    - cbn [carry]. rewrite (H (S t) (le_n _)). destruct (r (S t)) as [v|] eqn:E; simpl.
      + left. exists v. split; [reflexivity|]. exists (S t). split; [lia|]. split; [exact E|]. intros u Hu; lia.
      + destruct IH as [(v & C & s & Hs & Es & Hu)|(C & Hu)]; [intros; apply H; lia| |].
        * left. exists v. split; [unfold keep; simpl; exact C|]. exists s. split; [lia|]. split; [exact Es|].
          intros u Hu'. destruct (Nat.eq_dec u (S t)) as [->|]; [exact E|apply Hu; lia].
        * right. split; [exact C|]. intros u Hu'. destruct (Nat.eq_dec u (S t)) as [->|]; [exact E|apply Hu; lia]. }
  destruct A as [(v & C & s & Hs)|(C & Hu)].
  - exists v. rewrite C. split; [reflexivity|]. left. exists s. exact Hs.
  - exists 0. rewrite C. split; [reflexivity|]. right. auto.
Qed.

Lemma latest_rev : forall r n t v, (t < n)%nat -> latest (fun s => r (n - 1 - s)%nat) (n - 1 - t) v -> upcoming r n t v.
Proof.
  intros r n t v Ht [(s & Hs & E & Hu)|(Hu & ->)].
  - left. exists (n - 1 - s)%nat. split; [lia|]. split; [exact E|]. intros u Hu'.
    replace u with (n - 1 - (n - 1 - u))%nat by lia. apply Hu. lia.
  - right. split; [|reflexivity]. intros u Hu'. replace u with (n - 1 - (n - 1 - u))%nat by lia. apply Hu. lia.
Qed.

Lemma rev_entry : forall (M : list (list pyf)) t, (t < List.length M)%nat -> nth t (rev M) [] = nth (List.length M - 1 - t) M [].
Proof. intros M t Ht. rewrite rev_nth by exact Ht. f_equal. lia. Qed.
Lemma rev_width : forall w M, width w M -> width w (rev M).
Proof. intros w M H. apply Forall_rev. exact H. Qed.

(** The filled matrix, from the raw one. *)
Lemma filled_ffill : forall M w n r, width w M -> List.length M = n ->
  (forall t j, (t < n)%nat -> (j < w)%nat -> entry M t j = cell_of (r t j)) ->
  exists g, matrix_is (fillna0 (ffill w M)) n w g /\ forall t j, (t < n)%nat -> (j < w)%nat -> latest (fun s => r s j) t (g t j).
Proof.
  intros M w n r HW HL H.
  assert (HL' : List.length (fillna0 (ffill w M)) = n) by (rewrite fillna_len; unfold ffill; rewrite ffill_len; exact HL).
  assert (W' : width w (ffill w M)) by (apply ffill_width; [apply repeat_length|exact HW]).
  destruct (matrix_build (fillna0 (ffill w M)) w (fun t j v => latest (fun s => r s j) t v)) as (g & G1 & G2).
  - apply fillna_width; exact W'.
  - intros t j Ht Hj. rewrite HL' in Ht. rewrite (fillna_entry _ w); [|exact W'|unfold ffill; rewrite ffill_len; lia|exact Hj].
    unfold ffill. rewrite (ffill_nth M _ w); [|apply repeat_length|exact HW|lia|exact Hj].
    rewrite nth_repeat. apply carry_latest. intros s Hs. apply H; lia.
  - rewrite HL' in G1, G2. exists g. auto.
Qed.

Lemma filled_bfill : forall M w n r, width w M -> List.length M = n ->
  (forall t j, (t < n)%nat -> (j < w)%nat -> entry M t j = cell_of (r t j)) ->
  exists g, matrix_is (fillna0 (bfill w M)) n w g /\ forall t j, (t < n)%nat -> (j < w)%nat -> upcoming (fun s => r s j) n t (g t j).
Proof.
  intros M w n r HW HL H.
  assert (HR : List.length (ffill w (rev M)) = n) by (unfold ffill; rewrite ffill_len, rev_length; exact HL).
  assert (HB : List.length (bfill w M) = n) by (unfold bfill; rewrite rev_length; exact HR).
  assert (HL' : List.length (fillna0 (bfill w M)) = n) by (rewrite fillna_len; exact HB).
  assert (WR : width w (ffill w (rev M))) by (apply ffill_width; [apply repeat_length|apply rev_width; exact HW]).
  assert (W' : width w (bfill w M)) by (apply rev_width; exact WR).
  destruct (matrix_build (fillna0 (bfill w M)) w (fun t j v => upcoming (fun s => r s j) n t v)) as (g & G1 & G2).
  - apply fillna_width; exact W'.
  - intros t j Ht Hj. rewrite HL' in Ht. rewrite (fillna_entry _ w); [|exact W'|lia|exact Hj].
    unfold bfill. rewrite rev_entry by lia. rewrite HR. unfold ffill.
    rewrite (ffill_nth (rev M) _ w); [|apply repeat_length|apply rev_width; exact HW|rewrite rev_length; lia|exact Hj].
    rewrite nth_repeat.
    destruct (carry_latest (fun s => r (n - 1 - s)%nat j) (fun s => entry (rev M) s j) (n - 1 - t)) as (v & E & L).
    + intros s Hs. rewrite rev_entry by lia. rewrite HL. apply H; lia.
    + exists v. split; [exact E|]. apply (latest_rev (fun s => r s j)); [exact Ht|exact L].
  - rewrite HL' in G1, G2. exists g. auto.
Qed.

Lemma filled_zero : forall M w n r, width w M -> List.length M = n ->
  (forall t j, (t < n)%nat -> (j < w)%nat -> entry M t j = cell_of (r t j)) ->
  matrix_is (fillna0 (fillna0 M)) n w (fun t j => match r t j with Some x => x | None => 0 end).
Proof.
  intros M w n r HW HL H. assert (W' := fillna_width _ _ HW). assert (W'' := fillna_width _ _ W').
  split; [rewrite !fillna_len; exact HL|]. intros t Ht. apply (nth_ext _ _ NaN NaN).
  - rewrite map_length, seq_length. apply width_nth; [exact W''|rewrite !fillna_len; lia].
  - intros j Hj. rewrite (width_nth _ w) in Hj; [|exact W''|rewrite !fillna_len; lia].
    rewrite (nth_map_seq _ _ _ _ Hj). rewrite (fillna_entry _ w); [|exact W'|rewrite fillna_len; lia|exact Hj].
    rewrite (fillna_entry _ w) by (try assumption; lia). rewrite H by assumption. destruct (r t j); reflexivity.
Qed.

Lemma filled_drop : forall w (r : nat -> nat -> option R) ts,
  let row t := map (fun j => cell_of (r t j)) (seq 0 w) in
  let cs := filter (fun t => forallb (fun j => match r t j with Some _ => true | None => false end) (seq 0 w)) ts in
  exists g, matrix_is (fillna0 (dropna (map row ts))) (List.length cs) w g /\
    forall i j, (i < List.length cs)%nat -> (j < w)%nat -> r (nth i cs 0%nat) j = Some (g i j).
Proof.
  intros w r ts row cs.
  assert (E : fillna0 (dropna (map row ts)) = map (fun t => map (fun j => Fin (match r t j with Some x => x | None => 0 end)) (seq 0 w)) cs).
  { unfold cs. clear cs. induction ts as [|t ts IH]; [reflexivity|]. cbn [map dropna filter].
    assert (B : forallb (fun x => negb (p_nan x)) (row t) = forallb (fun j => match r t j with Some _ => true | None => false end) (seq 0 w)).
    { unfold row. generalize (seq 0 w). induction l as [|j l IHl]; [reflexivity|]. cbn [map forallb]. rewrite IHl. destruct (r t j); reflexivity. }
    rewrite B. destruct (forallb _ (seq 0 w)) eqn:C; [|exact IH].
    cbn [fillna0 map]. f_equal; [|exact IH]. unfold row. rewrite map_map. apply map_ext_in. intros j Hj.
    rewrite forallb_forall in C. specialize (C j Hj). destruct (r t j); [reflexivity|discriminate]. }
  exists (fun i j => match r (nth i cs 0%nat) j with Some x => x | None => 0 end). split.
  - rewrite E. split; [apply map_length|]. intros t Ht.
    rewrite (nth_indep _ [] (map (fun j => Fin (match r 0%nat j with Some x => x | None => 0 end)) (seq 0 w))) by (rewrite map_length; exact Ht).
    rewrite (map_nth (fun t => map (fun j => Fin (match r t j with Some x => x | None => 0 end)) (seq 0 w)) cs 0%nat). reflexivity.
  - intros i j Hi Hj.
    assert (I : In (nth i cs 0%nat) cs) by (apply nth_In; exact Hi). unfold cs in I at 2. apply filter_In in I. destruct I as (_ & I).
    rewrite forallb_forall in I. specialize (I j). rewrite in_seq in I. specialize (I ltac:(lia)).
    destruct (r (nth i cs 0%nat) j); [reflexivity|discriminate].
Qed.

(** ** Picking *)
Lemma nodup_named : forall cs c, NoDup (map col_name cs) -> In c cs -> cols_named (col_name c) cs = [c].
Proof.
  intros cs c. unfold cols_named. induction cs as [|d cs IH]; intros ND I; [destruct I|]. inversion ND as [|x l N1 N2]; subst. destruct I as [<-|I]; cbn [filter].
  - rewrite String.eqb_refl. f_equal. rename d into c.
    assert (A : forall l, ~ In (col_name c) (map col_name l) -> filter (fun d => String.eqb (col_name d) (col_name c)) l = []).
    { induction l as [|x l IHl]; intros HN; [reflexivity|]. cbn [filter]. destruct (String.eqb_spec (col_name x) (col_name c)) as [E|_].
      - exfalso. apply HN. left. exact E.
      - apply IHl. intros H. apply HN. right. exact H. }
    apply A. exact N1.
  - destruct (String.eqb_spec (col_name d) (col_name c)) as [E|_].
    + exfalso. apply N1. rewrite E. apply in_map. exact I.
    + apply IH; assumption.
Qed.

Lemma left_nodup : forall d cs, NoDup (map col_name cs) -> NoDup (map col_name (drop_named d cs)).
Proof.
  intros d cs. unfold drop_named. induction cs as [|c cs IH]; intros ND; [constructor|]. inversion ND; subst. cbn [filter].
  destruct (negb _); [|auto]. cbn [map]. constructor; [|auto]. intros H. apply H1. rewrite in_map_iff in *.
  destruct H as (x & E & I). apply filter_In in I. exists x. tauto.
Qed.

Lemma set_date_ok : forall date f names, NoDup (map col_name (fr_cols f)) -> date_usable date f names ->
  exists cs, set_date date f = Ok cs /\ NoDup (map col_name cs) /\
    forall c, In c (fr_cols f) -> In (col_name c) names -> In c cs.
Proof.
  intros [d|] f names ND H; cbn [set_date].
  - destruct (String.eqb_spec d "") as [|Nd]; [exists (fr_cols f); auto|].
    destruct (match fr_index f with Some i => String.eqb i d | None => false end) eqn:EI; [exists (fr_cols f); auto|].
    destruct H as [H|[H|(Nn & c & I & Ec & Pc)]]; [contradiction|rewrite H, String.eqb_refl in EI; discriminate|].
    subst d. rewrite (nodup_named _ _ ND I), Pc. eexists. split; [reflexivity|]. split; [apply left_nodup; exact ND|].
    intros x Ix Nx. unfold drop_named. apply filter_In. split; [exact Ix|]. apply negb_true_iff. apply String.eqb_neq. intros E.
    apply Nn. rewrite <- E. exact Nx.
  - exists (fr_cols f). auto.
Qed.

Lemma pick_named : forall names cs rows, NoDup (map col_name cs) -> names <> [] ->
  (forall n, In n names -> exists c, In c cs /\ col_name c = n) ->
  exists ps, pick_columns (Some names) rows cs = Ok ps /\ Forall2 (fun n c => In c cs /\ col_name c = n) names ps.
Proof.
  intros names cs rows ND Nn H. destruct names as [|n0 names']; [contradiction|]. unfold pick_columns. set (names := n0 :: names') in *. clearbody names. clear Nn n0 names'.
  assert (E : forallb (fun n => existsb (fun c => String.eqb (col_name c) n) cs) names = true).
  { apply forallb_forall. intros n I. destruct (H n I) as (c & Ic & E). apply existsb_exists. exists c. split; [exact Ic|]. apply String.eqb_eq. exact E. }
  rewrite E. clear E. eexists. split; [reflexivity|].
  induction names as [|n names IH]; [constructor|]. cbn [map List.concat].
  destruct (H n (or_introl eq_refl)) as (c & Ic & E). pose proof (nodup_named _ _ ND Ic) as F. rewrite E in F. rewrite F. cbn [app].
  constructor; [auto|]. apply IH. intros x Ix. apply H. right. exact Ix.
Qed.

(** ** Cells *)
Lemma calc_cells : forall k o1 o0, (forall x, o0 = Some x -> 0 < x) -> (forall x, o1 = Some x -> 0 < x) ->
  (match k with Log => calc_log | Simple => calc_simple end) (cell_of o1) (cell_of o0) =
  cell_of (match o0, o1 with Some a, Some b => Some (growth k a b) | _, _ => None end).
Proof.
  intros k [b|] [a|] H0 H1; destruct k; cbn; try reflexivity; specialize (H0 _ eq_refl); specialize (H1 _ eq_refl);
    unfold calc_log, calc_simple, p_div; unfold Reqb; destruct (Req_EM_T a 0) as [E|_]; try lra; cbn.
  - unfold p_ln, Rltb, Reqb. assert (0 < b / a) by (apply Rdiv_lt_0_compat; assumption).
    destruct (Rlt_dec (b / a) 0); [lra|]. destruct (Req_EM_T (b / a) 0); [lra|]. reflexivity.
  - reflexivity.
Qed.

Lemma calc_of_name : forall k, calc_of (calc_name k) = Ok (match k with Log => calc_log | Simple => calc_simple end).
Proof. destruct k; reflexivity. Qed.

Lemma raw_width : forall calc T ps, width (List.length ps) (raw_rows calc T ps).
Proof. intros. unfold width, raw_rows. rewrite Forall_map, Forall_forall. intros. apply map_length. Qed.
Lemma raw_len : forall calc T ps, List.length (raw_rows calc T ps) = (T - 1)%nat.
Proof. intros. unfold raw_rows. rewrite map_length, seq_length. reflexivity. Qed.

Lemma raw_table : forall k T p ps, (forall t j x, p t j = Some x -> 0 < x) ->
  (forall j c, nth_error ps j = Some c -> col_cells c = map (fun t => cell_of (p t j)) (seq 0 T)) ->
  raw_rows (match k with Log => calc_log | Simple => calc_simple end) T ps =
  map (fun t => map (fun j => cell_of (period_return k p t j)) (seq 0 (List.length ps))) (seq 0 (T - 1)).
Proof.
  intros k T p ps HP H. unfold raw_rows. apply map_ext_in. intros t Ht. rewrite in_seq in Ht.
  apply (nth_ext _ _ NaN NaN); [rewrite !map_length, seq_length; reflexivity|]. intros j Hj. rewrite map_length in Hj.
  rewrite (nth_map_seq _ _ _ _ Hj).
  destruct (nth_error ps j) as [c|] eqn:E; [|apply nth_error_None in E; lia].
  rewrite (nth_indep _ NaN ((match k with Log => calc_log | Simple => calc_simple end) (cell c (S t)) (cell c t))) by (rewrite map_length; exact Hj).
  rewrite (map_nth (fun c => (match k with Log => calc_log | Simple => calc_simple end) (cell c (S t)) (cell c t))).
  rewrite (nth_error_nth _ _ c E). unfold cell. rewrite (H j c E), !nth_map_seq by lia.   unfold period_return. apply calc_cells; intros; eapply HP; eassumption.
Qed.
