From Verif Require Import RBase ConsModel MomModel DistModel DistSpec DataModel DataSpec DataProofs.
From Coq Require Import Lra Lia Permutation.
Open Scope R_scope.
Open Scope list_scope.

Lemma forall2_nth : forall A B (P : A -> B -> Prop) l m, Forall2 P l m -> forall j b, nth_error m j = Some b ->
  exists a, nth_error l j = Some a /\ P a b.
Proof.
  intros A B P l m H. induction H as [|x y l m Hxy H IH]; intros [|j] b E; cbn in E; try discriminate.
  - inversion E; subst. exists x. auto.
  - apply IH. exact E.
Qed.

Lemma returns_ok : forall f names T p date k fk, holds_prices f names T p -> date_usable date f names ->
  exists M, returns_of_frame (DFrame f) (Some names) date (calc_name k) (fill_name fk) = Ok M /\
    filled fk (period_return k p) T (List.length names) M.
Proof.
  intros f names T p date k fk (ER & ND & Nn & HC & HP) HD.
  destruct (set_date_ok date f names ND HD) as (cs & E1 & ND' & HI).
  assert (HIn : forall n, In n names -> exists c, In c cs /\ col_name c = n).
  { intros n I. apply In_nth_error in I. destruct I as (j & Ej). destruct (HC j n Ej) as (c & Ic & En & _).
    exists c. split; [|exact En]. apply HI; [exact Ic|]. rewrite En. eapply nth_error_In; exact Ej. }
  destruct (pick_named names cs (fr_rows f) ND' Nn HIn) as (ps & E2 & F2).
  assert (HL : List.length ps = List.length names) by (clear -F2; induction F2; simpl; congruence).
  assert (sub : forall c, In c cs -> In c (fr_cols f)).
  { intros c. clear -E1. unfold set_date in E1. destruct date as [d|]; [|inversion E1; auto].
    destruct (String.eqb d ""); [inversion E1; auto|].
    destruct (match fr_index f with Some i => String.eqb i d | None => false end); [inversion E1; auto|].
    destruct (cols_named d (fr_cols f)) as [|c0 [|]]; try discriminate. destruct (col_parses c0); inversion E1; subst.
    intros I. apply filter_In in I. tauto. }
  assert (CC : forall j c, nth_error ps j = Some c -> col_numeric c = true /\ col_cells c = map (fun t => cell_of (p t j)) (seq 0 T)).
  { intros j c Ej. destruct (forall2_nth _ _ _ _ _ F2 j c Ej) as (n & En & Ic & Ec).
    destruct (HC j n En) as (c' & Ic' & Ec' & Nu & Ce).
    assert (c' = c) as ->.
    { pose proof (nodup_named _ _ ND Ic') as A. pose proof (nodup_named _ _ ND (sub c Ic)) as B.
      rewrite Ec' in A. rewrite Ec in B. rewrite A in B. inversion B. reflexivity. }
    auto. }
  assert (NUM : forallb col_numeric ps = true).
  { apply forallb_forall. intros c Ic. apply In_nth_error in Ic. destruct Ic as (j & Ej). apply (CC j c Ej). }
  cbn [returns_of_frame]. rewrite E1. cbn [bind]. rewrite E2. cbn [bind]. rewrite calc_of_name. cbn [bind].
  unfold apply_calc. rewrite NUM. cbn [bind]. rewrite ER.
  assert (RT := raw_table k T p ps HP (fun j c E => proj2 (CC j c E))). rewrite HL in *.
  assert (RW := raw_width (match k with Log => calc_log | Simple => calc_simple end) T ps). rewrite HL in RW.
  assert (RL := raw_len (match k with Log => calc_log | Simple => calc_simple end) T ps).
  assert (RE : forall t j, (t < T - 1)%nat -> (j < List.length names)%nat ->
    entry (raw_rows (match k with Log => calc_log | Simple => calc_simple end) T ps) t j = cell_of (period_return k p t j)).
  { intros t j Ht Hj. rewrite RT. rewrite (nth_map_seq _ _ _ _ Ht), (nth_map_seq _ _ _ _ Hj). reflexivity. }
  destruct fk; cbn [fill_name filled].
  - eexists. split; [reflexivity|]. exact (filled_ffill _ _ _ (period_return k p) RW RL RE).
  - eexists. split; [reflexivity|]. exact (filled_bfill _ _ _ (period_return k p) RW RL RE).
  - eexists. split; [reflexivity|]. exact (filled_zero _ _ _ (period_return k p) RW RL RE).
  - eexists. split; [reflexivity|]. rewrite RT. exact (filled_drop (List.length names) (period_return k p) (seq 0 (T - 1))).
Qed.

(** ** Acceptance *)
Lemma filter_all : forall A (g : A -> bool) l, (forall t, In t l -> g t = true) -> filter g l = l.
Proof.
  intros A g l. induction l as [|a l IH]; intros Y; [reflexivity|]. cbn [filter]. rewrite (Y a (or_introl eq_refl)). f_equal. apply IH. intros t I. apply Y. right. exact I.
Qed.
Lemma set_date_iff : forall date f,
  (serves_date date f -> set_date date f = Ok (left_columns date f)) /\
  (forall cs, set_date date f = Ok cs -> serves_date date f /\ cs = left_columns date f) /\
  (forall e, set_date date f = Err e -> e = ValueError).
Proof.
  intros [d|] f; unfold set_date, left_columns, serves_date.
  2:{ assert (A : filter (fun c => negb (moved None f c)) (fr_cols f) = fr_cols f).
      { apply filter_all. reflexivity. }
      rewrite A. split; [auto|]. split; [intros cs E; inversion E; auto|discriminate]. }
  destruct (String.eqb_spec d "") as [Ed|Ed].
  { assert (A : filter (fun c => negb (moved (Some d) f c)) (fr_cols f) = fr_cols f).
    { apply filter_all. intros c _. unfold moved. destruct (String.eqb_spec d ""); [reflexivity|contradiction]. }
    rewrite A. split; [auto|]. split; [intros cs E; inversion E; auto|discriminate]. }
  destruct (match fr_index f with Some i => String.eqb i d | None => false end) eqn:EI.
  { assert (A : filter (fun c => negb (moved (Some d) f c)) (fr_cols f) = fr_cols f).
    { apply filter_all. intros c _. unfold moved. rewrite EI. cbn [negb]. rewrite andb_false_r. reflexivity. }
    rewrite A. assert (fr_index f = Some d) by (destruct (fr_index f) as [i|]; [f_equal; apply String.eqb_eq; exact EI|discriminate]).
    split; [auto|]. split; [intros cs E; inversion E; auto|discriminate]. }
  assert (NI : fr_index f <> Some d) by (intros E; rewrite E, String.eqb_refl in EI; discriminate).
  assert (A : filter (fun c => negb (moved (Some d) f c)) (fr_cols f) = drop_named d (fr_cols f)).
  { unfold drop_named. apply filter_ext. intros c. unfold moved. rewrite EI. destruct (String.eqb_spec d ""); [contradiction|]. reflexivity. }
  rewrite A. split; [|split].
  - intros [E|[E|(c & E & P)]]; [contradiction|contradiction|]. rewrite E, P. reflexivity.
  - intros cs E. destruct (cols_named d (fr_cols f)) as [|c [|]] eqn:EC; try discriminate. destruct (col_parses c) eqn:P; [|discriminate].
    inversion E. split; [|reflexivity]. right. right. exists c. auto.
  - intros e E. destruct (cols_named d (fr_cols f)) as [|c [|]]; try (inversion E; reflexivity). destruct (col_parses c); inversion E. reflexivity.
Qed.

Lemma calc_iff : forall m, (exists c, calc_of m = Ok c) <-> exists k, m = calc_name k.
Proof.
  intros m. unfold calc_of. destruct (String.eqb_spec m "log") as [->|N1]; [split; eauto; exists Log; reflexivity|].
  destruct (String.eqb_spec m "simple") as [->|N2]; [split; eauto; exists Simple; reflexivity|].
  split; [intros (c & E); discriminate|]. intros ([|] & E); contradiction.
Qed.
Lemma fill_iff : forall m, (exists c, fill_of m = Ok c) <-> exists k, m = fill_name k.
Proof.
  intros m. unfold fill_of. destruct (String.eqb_spec m "ffill") as [->|N1]; [split; eauto; exists Ffill; reflexivity|].
  destruct (String.eqb_spec m "bfill") as [->|N2]; [split; eauto; exists Bfill; reflexivity|].
  destruct (String.eqb_spec m "zero") as [->|N3]; [split; eauto; exists Zero; reflexivity|].
  destruct (String.eqb_spec m "drop") as [->|N4]; [split; eauto; exists Drop; reflexivity|].
  split; [intros (c & E); discriminate|]. intros ([| | |] & E); contradiction.
Qed.
Lemma calc_err : forall m e, calc_of m = Err e -> e = ValueError.
Proof. intros m e. unfold calc_of. destruct (String.eqb _ _); [discriminate|]. destruct (String.eqb _ _); [discriminate|]. intros E; inversion E; reflexivity. Qed.
Lemma fill_err : forall m e, fill_of m = Err e -> e = ValueError.
Proof. intros m e. unfold fill_of. repeat (destruct (String.eqb _ _); [discriminate|]). intros E; inversion E; reflexivity. Qed.

Definition pickable (wanted : option (list string)) (rows : nat) (cs : list column) : Prop :=
  match wanted with
  | None | Some [] => rows <> 0%nat /\ exists c, In c cs /\ col_numeric c = true
  | Some names => forall n, In n names -> exists c, In c cs /\ col_name c = n
  end.
Lemma pick_iff : forall wanted rows cs,
  ((exists ps, pick_columns wanted rows cs = Ok ps) <-> pickable wanted rows cs) /\
  (forall e, pick_columns wanted rows cs = Err e -> e = ValueError).
Proof.
  assert (D : forall rows cs, let r := match filter col_numeric cs, rows with [], _ | _, O => Err ValueError | _, _ => Ok (filter col_numeric cs) end in
    ((exists ps, r = Ok ps) <-> (rows <> 0%nat /\ exists c, In c cs /\ col_numeric c = true)) /\ (forall e, r = Err e -> e = ValueError)).
  { intros rows cs r. unfold r. destruct (filter col_numeric cs) as [|c l] eqn:EF.
    - split; [|intros e E; inversion E; reflexivity]. split; [intros (ps & E); discriminate|]. intros (_ & c & I & N).
      assert (X : In c (filter col_numeric cs)) by (apply filter_In; auto). rewrite EF in X. destruct X.
    - assert (X : In c (filter col_numeric cs)) by (rewrite EF; left; reflexivity). apply filter_In in X.
      destruct rows; (split; [|intros e E; inversion E; reflexivity]); split.
      + intros (ps & E); discriminate.
      + intros (N & _); contradiction.
      + intros _. split; [discriminate|]. exists c. exact X.
      + intros _. eauto. }
  intros [[|n names]|] rows cs; cbn [pick_columns pickable]; [apply D| |apply D].
  destruct (forallb _ (n :: names)) eqn:E.
  - split; [|discriminate]. split; [intros _|eauto]. rewrite forallb_forall in E. intros m I. specialize (E m I).
    apply existsb_exists in E. destruct E as (c & Ic & Ec). exists c. split; [exact Ic|]. apply String.eqb_eq. exact Ec.
  - split; [|intros e X; inversion X; reflexivity]. split; [intros (ps & X); discriminate|]. intros H. exfalso.
    assert (X : forallb (fun n0 => existsb (fun c => String.eqb (col_name c) n0) cs) (n :: names) = true).
    { apply forallb_forall. intros m I. destruct (H m I) as (c & Ic & Ec). apply existsb_exists. exists c. split; [exact Ic|]. apply String.eqb_eq. exact Ec. }
    rewrite X in E. discriminate.
Qed.
Lemma pick_in : forall wanted rows cs ps c, pick_columns wanted rows cs = Ok ps ->
  (In c ps <-> In c cs /\ match wanted with None | Some [] => col_numeric c = true | Some names => In (col_name c) names end).
Proof.
  intros wanted rows cs ps c E.
  assert (D : match filter col_numeric cs, rows with [], _ | _, O => Err ValueError | _, _ => Ok (filter col_numeric cs) end = Ok ps ->
    (In c ps <-> In c cs /\ col_numeric c = true)).
  { intros X. rewrite <- filter_In. destruct (filter col_numeric cs); [discriminate|]. destruct rows; inversion X. reflexivity. }
  destruct wanted as [[|n names]|]; cbn [pick_columns] in E; [apply D; exact E| |apply D; exact E].
  destruct (forallb _ _); [|discriminate]. assert (X : List.concat (map (fun n0 => cols_named n0 cs) (n :: names)) = ps) by (inversion E; reflexivity).
  rewrite <- X, in_concat. split.
  - intros (l & Il & Ic). apply in_map_iff in Il. destruct Il as (m & <- & Im). apply filter_In in Ic. destruct Ic as (Ic & Em).
    apply String.eqb_eq in Em. rewrite Em. auto.
  - intros (Ic & In'). exists (cols_named (col_name c) cs). split; [apply in_map_iff; eauto|]. apply filter_In. split; [exact Ic|apply String.eqb_refl].
Qed.

Lemma returns_accept : forall f wanted date method fill,
  ((exists M, returns_of_frame (DFrame f) wanted date method fill = Ok M) <-> servable f wanted date method fill).
Proof.
  intros f wanted date method fill. cbn [returns_of_frame]. destruct (set_date_iff date f) as (S1 & S2 & S3). split.
  - intros (M & E).
    destruct (set_date date f) as [cs|] eqn:E1; [|discriminate]. cbn [bind] in E. destruct (S2 cs eq_refl) as (SD & ->).
    destruct (pick_columns wanted (fr_rows f) _) as [ps|] eqn:E2; [|discriminate]. cbn [bind] in E.
    destruct (calc_of method) as [calc|] eqn:E3; [|discriminate]. cbn [bind] in E.
    unfold apply_calc in E. destruct (forallb col_numeric ps) eqn:E4; [|discriminate]. cbn [bind] in E.
    destruct (fill_of fill) as [fl|] eqn:E5; [|discriminate].
    split; [exact SD|]. split; [|split; [apply calc_iff; eauto|apply fill_iff; eauto]].
    pose proof (proj1 (proj1 (pick_iff wanted (fr_rows f) (left_columns date f))) (ex_intro _ ps E2)) as PK.
    destruct wanted as [[|n names]|]; [exact PK| |exact PK].
    intros m I. split; [apply PK; exact I|]. intros c Ic Ec.
    rewrite forallb_forall in E4. apply E4. apply (proj2 (pick_in _ _ _ _ c E2)). rewrite Ec. auto.
  - intros (SD & SW & SC & SF). rewrite (S1 SD). cbn [bind].
    assert (PK : pickable wanted (fr_rows f) (left_columns date f)).
    { destruct wanted as [[|n names]|]; [exact SW| |exact SW]. intros m I. apply (SW m I). }
    destruct (proj2 (proj1 (pick_iff wanted (fr_rows f) (left_columns date f))) PK) as (ps & E2). rewrite E2. cbn [bind].
    destruct (proj2 (calc_iff method) SC) as (calc & E3). rewrite E3. cbn [bind].
    assert (E4 : forallb col_numeric ps = true).
    { apply forallb_forall. intros c Ic. apply (pick_in _ _ _ _ c E2) in Ic. destruct Ic as (Ic & Iw).
      destruct wanted as [[|n names]|]; [exact Iw| |exact Iw]. apply (proj2 (SW _ Iw)); auto. }
    unfold apply_calc. rewrite E4. cbn [bind]. destruct (proj2 (fill_iff fill) SF) as (fl & E5). rewrite E5. cbn [bind]. eauto.
Qed.

Lemma returns_errors : forall arg wanted date method fill e, returns_of_frame arg wanted date method fill = Err e ->
  e = ValueError \/ (e = TypeError /\ exists f names c, arg = DFrame f /\ wanted = Some names /\
    In c (fr_cols f) /\ In (col_name c) names /\ col_numeric c = false).
Proof.
  intros [f|] wanted date method fill e E; [|left; inversion E; reflexivity]. cbn [returns_of_frame] in E.
  destruct (set_date_iff date f) as (S1 & S2 & S3).
  destruct (set_date date f) as [cs|] eqn:E1; cbn [bind] in E; [|left; apply S3; congruence].
  destruct (S2 cs eq_refl) as (_ & ->).
  destruct (pick_columns wanted (fr_rows f) _) as [ps|] eqn:E2; cbn [bind] in E.
  2:{ left. apply (proj2 (pick_iff _ _ _)) in E2. congruence. }
  destruct (calc_of method) as [calc|] eqn:E3; cbn [bind] in E; [|left; apply calc_err in E3; congruence].
  unfold apply_calc in E. destruct (forallb col_numeric ps) eqn:E4; cbn [bind] in E.
  - left. destruct (fill_of fill) as [fl|] eqn:E5; cbn [bind] in E; [discriminate|]. apply fill_err in E5. congruence.
  - right. split; [congruence|].
    assert (X : exists c, In c ps /\ col_numeric c = false).
    { clear -E4. induction ps as [|c ps IH]; [discriminate|]. cbn in E4. destruct (col_numeric c) eqn:N.
      - destruct (IH E4) as (d & I & Nd). exists d. split; [right; exact I|exact Nd].
      - exists c. split; [left; reflexivity|exact N]. }
    destruct X as (c & Ic & Nc). apply (pick_in _ _ _ _ c E2) in Ic. destruct Ic as (Ic & Iw). unfold left_columns in Ic. apply filter_In in Ic.
    destruct wanted as [[|n names]|]; [congruence| |congruence]. exists f, (n :: names), c. tauto.
Qed.

(** ** Shape *)
Lemma keep0 : forall x, p_nan (keep (Fin 0) x) = false.
Proof. intros x. unfold keep. destruct (p_nan x) eqn:E; [reflexivity|exact E]. Qed.

Lemma returns_shape : forall f wanted date method fill M, returns_of_frame (DFrame f) wanted date method fill = Ok M ->
  exists w, Forall (fun r => List.length r = w /\ Forall (fun x => x <> NaN) r) M /\
    (List.length M <= fr_rows f - 1)%nat /\ (fill <> "drop"%string -> List.length M = fr_rows f - 1)%nat.
Proof.
  intros f wanted date method fill M E. cbn [returns_of_frame] in E.
  destruct (set_date date f) as [cs|] eqn:E1; [|discriminate]. cbn [bind] in E.
  destruct (pick_columns wanted (fr_rows f) cs) as [ps|] eqn:E2; [|discriminate]. cbn [bind] in E.
  destruct (calc_of method) as [calc|] eqn:E3; [|discriminate]. cbn [bind] in E.
  unfold apply_calc in E. destruct (forallb col_numeric ps) eqn:E4; [|discriminate]. cbn [bind] in E.
  destruct (fill_of fill) as [fl|] eqn:E5; [|discriminate]. cbn [bind] in E.
  assert (EM : fillna0 (fl (List.length ps) (raw_rows calc (fr_rows f) ps)) = M) by (inversion E; reflexivity). clear E.
  pose proof (raw_width calc (fr_rows f) ps) as RW. pose proof (raw_len calc (fr_rows f) ps) as RL.
  set (raw := raw_rows calc (fr_rows f) ps) in *. clearbody raw. set (w := List.length ps) in *. clearbody w.
  assert (X : width w (fl w raw) /\ (List.length (fl w raw) <= fr_rows f - 1)%nat /\ (fill <> "drop"%string -> List.length (fl w raw) = fr_rows f - 1)%nat).
  { unfold fill_of in E5. revert E5. destruct (String.eqb_spec fill "ffill"); [|destruct (String.eqb_spec fill "bfill"); [|destruct (String.eqb_spec fill "zero"); [|destruct (String.eqb_spec fill "drop"); [|discriminate]]]];
      intros E5; inversion E5; subst fl.
    - split; [apply ffill_width; [apply repeat_length|exact RW]|]. unfold ffill. rewrite ffill_len. lia.
    - split; [apply rev_width; apply ffill_width; [apply repeat_length|apply rev_width; exact RW]|].
      unfold bfill, ffill. rewrite rev_length, ffill_len, rev_length. lia.
    - split; [apply fillna_width; exact RW|]. rewrite fillna_len. lia.
    - split; [|split; [|intros N; contradiction]].
      + unfold dropna, width in *. rewrite Forall_forall in *. intros r I. apply filter_In in I. apply RW. tauto.
      + unfold dropna. rewrite <- RL. clear. induction raw as [|r raw IH]; [auto|]. cbn [filter]. destruct (forallb _ r); cbn [List.length]; lia. }
  destruct X as (X1 & X2 & X3). exists w. rewrite <- EM, fillna_len. split; [|auto].
  apply fillna_width in X1. unfold width in X1. rewrite Forall_forall in *. intros r I. split; [apply X1; exact I|].
  unfold fillna0 in I. apply in_map_iff in I. destruct I as (r0 & <- & _). rewrite Forall_map. apply Forall_forall. intros x _ E.
  pose proof (keep0 x) as K. rewrite E in K. discriminate.
Qed.

(** ** Column order *)
Lemma cols_named_perm : forall n cs cs', NoDup (map col_name cs) -> Permutation cs cs' -> cols_named n cs = cols_named n cs'.
Proof.
  intros n cs cs' ND P.
  assert (ND' : NoDup (map col_name cs')) by (eapply Permutation_NoDup; [apply Permutation_map; exact P|exact ND]).
  destruct (cols_named n cs) as [|c l] eqn:E.
  - destruct (cols_named n cs') as [|c l] eqn:E'; [reflexivity|].
    assert (I : In c (cols_named n cs')) by (rewrite E'; left; reflexivity). apply filter_In in I.
    assert (I' : In c (cols_named n cs)) by (apply filter_In; split; [apply (Permutation_in _ (Permutation_sym P)); tauto|tauto]).
    rewrite E in I'. destruct I'.
  - assert (I : In c (cols_named n cs)) by (rewrite E; left; reflexivity). apply filter_In in I. destruct I as (I & En). apply String.eqb_eq in En. subst n.
    rewrite <- E. rewrite (nodup_named cs c ND I). symmetry. apply nodup_named; [exact ND'|]. apply (Permutation_in _ P I).
Qed.
Lemma filter_perm : forall A (g : A -> bool) l m, Permutation l m -> Permutation (filter g l) (filter g m).
Proof.
  intros A g l m P. induction P; cbn; auto.
  - destruct (g x); [constructor|]; assumption.
  - destruct (g x), (g y); try apply Permutation_refl. constructor.
  - eapply Permutation_trans; eassumption.
Qed.
Lemma returns_order : forall f f' names date method fill, names <> [] -> NoDup (map col_name (fr_cols f)) ->
  fr_index f' = fr_index f -> fr_rows f' = fr_rows f -> Permutation (fr_cols f) (fr_cols f') ->
  returns_of_frame (DFrame f') (Some names) date method fill = returns_of_frame (DFrame f) (Some names) date method fill.
Proof.
  intros f f' names date method fill Nn ND EI ER P. cbn [returns_of_frame].
  assert (A : (exists e, set_date date f = Err e /\ set_date date f' = Err e) \/
    exists cs cs', set_date date f = Ok cs /\ set_date date f' = Ok cs' /\ Permutation cs cs' /\ NoDup (map col_name cs)).
  { unfold set_date. rewrite EI. destruct date as [d|]; [|right; eauto 8].
    destruct (String.eqb d ""); [right; eauto 8|]. destruct (match fr_index f with Some i => String.eqb i d | None => false end); [right; eauto 8|].
    rewrite <- (cols_named_perm d _ _ ND P). destruct (cols_named d (fr_cols f)) as [|c [|]]; [left; eauto| |left; eauto].
    destruct (col_parses c); [|left; eauto]. right. eexists. eexists. split; [reflexivity|]. split; [reflexivity|].
    split; [apply filter_perm; exact P|apply left_nodup; exact ND]. }
  destruct A as [(e & E1 & E2)|(cs & cs' & E1 & E2 & PC & NC)]; rewrite E1, E2; [reflexivity|]. cbn [bind]. rewrite ER.
  assert (B : pick_columns (Some names) (fr_rows f) cs' = pick_columns (Some names) (fr_rows f) cs).
  { destruct names as [|n0 ns]; [contradiction|]. cbn [pick_columns]. set (names := n0 :: ns). clearbody names.
    assert (F : forall n, existsb (fun c => String.eqb (col_name c) n) cs' = existsb (fun c => String.eqb (col_name c) n) cs).
    { intros n. apply eq_iff_eq_true. rewrite !existsb_exists. split; intros (c & I & E); exists c; split; try exact E.
      - apply (Permutation_in _ (Permutation_sym PC) I).
      - apply (Permutation_in _ PC I). }
    assert (G : map (fun n => cols_named n cs') names = map (fun n => cols_named n cs) names).
    { apply map_ext. intros n. symmetry. apply cols_named_perm; assumption. }
    rewrite G.
    assert (K : forallb (fun n => existsb (fun c => String.eqb (col_name c) n) cs') names = forallb (fun n => existsb (fun c => String.eqb (col_name c) n) cs) names).
    { clear -F. induction names as [|n names IH]; [reflexivity|]. cbn [forallb]. rewrite F, IH. reflexivity. }
    rewrite K. reflexivity. }
  rewrite B. reflexivity.
Qed.

(** ** Complete prices *)
Lemma returns_complete : forall f names T p q date k fk, holds_prices f names T p -> date_usable date f names ->
  (forall t j, (t < T)%nat -> (j < List.length names)%nat -> p t j = Some (q t j)) ->
  exists M, returns_of_frame (DFrame f) (Some names) date (calc_name k) (fill_name fk) = Ok M /\
    matrix_is M (T - 1) (List.length names) (fun t j => growth k (q t j) (q (S t) j)).
Proof.
  intros f names T p q date k fk H D Q. destruct (returns_ok f names T p date k fk H D) as (M & E & F). exists M. split; [exact E|].
  assert (PR : forall t j, (t < T - 1)%nat -> (j < List.length names)%nat -> period_return k p t j = Some (growth k (q t j) (q (S t) j))).
  { intros t j Ht Hj. unfold period_return. rewrite !Q by lia. reflexivity. }
  assert (X : forall g, matrix_is M (T - 1) (List.length names) g ->
    (forall t j, (t < T - 1)%nat -> (j < List.length names)%nat -> g t j = growth k (q t j) (q (S t) j)) ->
    matrix_is M (T - 1) (List.length names) (fun t j => growth k (q t j) (q (S t) j))).
  { intros g (G1 & G2) G. split; [exact G1|]. intros t Ht. rewrite (G2 t Ht). apply map_ext_in. intros j Hj. rewrite in_seq in Hj. rewrite G by lia. reflexivity. }
  destruct fk; cbn [filled] in F.
  - destruct F as (g & G & L). apply (X g G). intros t j Ht Hj. destruct (L t j Ht Hj) as [(s & Hs & Es & Hu)|(Hu & _)].
    + destruct (Nat.eq_dec s t) as [->|Ns]; [rewrite PR in Es by assumption; congruence|]. specialize (Hu t ltac:(lia)). cbn beta in Hu. rewrite PR in Hu by assumption. discriminate.
    + specialize (Hu t ltac:(lia)). cbn beta in Hu. rewrite PR in Hu by assumption. discriminate.
  - destruct F as (g & G & L). apply (X g G). intros t j Ht Hj. destruct (L t j Ht Hj) as [(s & Hs & Es & Hu)|(Hu & _)].
    + destruct (Nat.eq_dec s t) as [->|Ns]; [rewrite PR in Es by assumption; congruence|]. specialize (Hu t ltac:(lia)). cbn beta in Hu. rewrite PR in Hu by assumption. discriminate.
    + specialize (Hu t ltac:(lia)). cbn beta in Hu. rewrite PR in Hu by assumption. discriminate.
  - apply (X _ F). intros t j Ht Hj. rewrite PR by assumption. reflexivity.
  - destruct F as (g & G & L).
    assert (C : complete_periods (period_return k p) T (List.length names) = seq 0 (T - 1)).
    { unfold complete_periods. apply filter_all. intros t Ht. rewrite in_seq in Ht. apply forallb_forall. intros j Hj. rewrite in_seq in Hj. rewrite PR by lia. reflexivity. }
    rewrite C, seq_length in *. apply (X g G). intros t j Ht Hj. specialize (L t j Ht Hj). rewrite seq_nth in L by lia. cbn [plus] in L.
    rewrite PR in L by assumption. congruence.
Qed.

Lemma compound_growth : forall (q : nat -> nat -> R) j T, (forall t, (t <= T)%nat -> 0 < q t j) ->
  compound (q 0%nat j) (fun s => growth Simple (q s j) (q (S s) j)) T = q T j /\
  q 0%nat j * exp (sumn T (fun s => growth Log (q s j) (q (S s) j))) = q T j.
Proof.
  intros q j T. induction T as [|T IH]; intros H.
  - cbn. rewrite exp_0. split; [reflexivity|lra].
  - destruct IH as (I1 & I2); [intros; apply H; lia|]. assert (HT := H T ltac:(lia)). assert (HS := H (S T) ltac:(lia)). split.
    + cbn [compound]. rewrite I1. cbn [growth]. field. lra.
    + cbn [sumn]. rewrite exp_plus, <- Rmult_assoc, I2. cbn [growth]. rewrite exp_ln by (apply Rdiv_lt_0_compat; assumption). field. lra.
Qed.
