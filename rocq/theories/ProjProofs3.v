From Coq Require Import Lia Lra ZArith String FunctionalExtensionality.
From Verif Require Import RBase QpBase ConsModel DistModel ProjModel ProjSpec ProjProofs2.
Open Scope R_scope.
Open Scope list_scope.

Lemma last_index_some inv x i : last_index inv x = Some i -> (i < List.length inv)%nat /\ nth i inv EmptyString = x.
Proof.
  revert i. induction inv as [|y l IH]; simpl; [discriminate|]. intros i H. destruct (last_index l x) as [k|].
  - injection H as <-. destruct (IH k eq_refl). split; [lia|assumption].
  - destruct (String.eqb_spec y x) as [->|]; [|discriminate]. injection H as <-. split; [lia|reflexivity].
Qed.
Lemma last_index_none inv x : last_index inv x = None <-> ~ In x inv.
Proof.
  induction inv as [|y l IH]; simpl; [tauto|]. destruct (last_index l x) as [k|].
  - split; [discriminate|]. intros H. exfalso. assert (In x l); [|tauto]. destruct (in_dec string_dec x l) as [|N]; [assumption|]. apply IH in N. discriminate.
  - destruct (String.eqb_spec y x) as [->|N]; [split; [discriminate|intros H; exfalso; tauto]|]. split; [|auto]. intros _ [E|E]; [congruence|]. apply IH in E; [exact E|reflexivity].
Qed.
Lemma lookup_ok inv x i : lookup inv x = Ok i -> (i < List.length inv)%nat /\ nth i inv EmptyString = x.
Proof. unfold lookup. destruct (last_index inv x) eqn:E; [|discriminate]. intros H. injection H as <-. apply last_index_some. exact E. Qed.
Lemma lookup_in inv x : (exists i, lookup inv x = Ok i) <-> In x inv.
Proof.
  unfold lookup. destruct (last_index inv x) as [i|] eqn:E.
  - split; [|eauto]. intros _. apply last_index_some in E. destruct E as [H <-]. apply nth_In. exact H.
  - split; [intros (i & H); discriminate|]. intros H. apply last_index_none in E. contradiction.
Qed.
Lemma lookup_err inv x e : lookup inv x = Err e -> e = KeyError.
Proof. unfold lookup. destruct (last_index inv x); congruence. Qed.

Lemma mapM_Forall2 {A B} (f : A -> res B) l r : mapM f l = Ok r -> Forall2 (fun a b => f a = Ok b) l r.
Proof.
  revert r. induction l as [|a l IH]; simpl; intros r H; [injection H as <-; constructor|].
  apply bind_ok in H. destruct H as (b & Eb & H). apply bind_ok in H. destruct H as (bs & Ebs & H). injection H as <-. constructor; auto.
Qed.
Lemma mapM_err {A B} (f : A -> res B) l e : mapM f l = Err e -> exists a, In a l /\ f a = Err e.
Proof.
  induction l as [|a l IH]; simpl; [discriminate|]. destruct (f a) as [b|e'] eqn:E; simpl.
  - destruct (mapM f l) as [bs|e''] eqn:E2; simpl; [discriminate|]. intros H. injection H as <-. destruct (IH eq_refl) as (a' & Ha & Ea). eauto.
  - intros H. injection H as <-. eauto.
Qed.
Lemma mapM_ok_iff {A B} (f : A -> res B) l : (exists r, mapM f l = Ok r) <-> forall a, In a l -> exists b, f a = Ok b.
Proof.
  induction l as [|a l IH]; simpl; [split; [intros _ a []|eauto]|]. split.
  - intros (r & H). apply bind_ok in H. destruct H as (b & Eb & H). apply bind_ok in H. destruct H as (bs & Ebs & H).
    intros x [<-|Hx]; [eauto|]. apply IH; eauto.
  - intros H. destruct (H a (or_introl eq_refl)) as (b & Eb). destruct (proj2 IH) as (bs & Ebs); [intros; apply H; auto|]. rewrite Eb, Ebs. simpl. eauto.
Qed.
Lemma mapM_ext2 {A A' B} (f : A -> res B) (g : A' -> res B) l l' : Forall2 (fun a b => f a = g b) l l' -> mapM f l = mapM g l'.
Proof. induction 1 as [|a b l l' E _ IH]; simpl; [reflexivity|]. rewrite E, IH. reflexivity. Qed.

Lemma parse_spec_ok inv s : (exists r, parse_spec inv s = Ok r) <-> spec_ok inv s.
Proof.
  destruct s as [nm sp]. unfold parse_spec, spec_ok, repricer, driver_names. simpl. destruct sp as [f|d [f|]|].
  - split.
    + intros (r & H). apply bind_ok in H. destruct H as (i & E & _). split; [discriminate|]. intros x [<-|[]]. apply lookup_in; eauto.
    + intros [_ H]. assert (Hi : In nm inv) by (apply H; left; reflexivity). apply lookup_in in Hi. destruct Hi as (i & Ei). rewrite Ei. simpl. eauto.
  - assert (G : forall l, (exists cols, mapM (lookup inv) l = Ok cols) <-> forall x, In x l -> In x inv).
    { intros l. rewrite mapM_ok_iff. split; intros H x Hx; apply lookup_in; auto. }
    split.
    + intros (r & H). apply bind_ok in H. destruct H as (c & E & _). split; [discriminate|]. destruct d as [x|l]; apply G; eauto.
    + intros [_ H]. assert (Hi : forall x, In x (match d with DOne x => [x] | DMany l => l end) -> In x inv) by (destruct d; exact H). apply G in Hi. destruct Hi as (c & Ec). rewrite Ec. simpl. eauto.
  - split; [intros (r & H); discriminate|]. intros [H _]. contradiction.
  - split; [intros (r & H); discriminate|]. intros [H _]. contradiction.
Qed.
Lemma parse_spec_err inv s e : parse_spec inv s = Err e ->
  (e = KeyError /\ repricer s <> None /\ exists x, In x (driver_names s) /\ ~ In x inv) \/ (e = TypeError /\ repricer s = None).
Proof.
  destruct s as [nm sp]. unfold parse_spec, repricer, driver_names. simpl. destruct sp as [f|d [f|]|].
  - destruct (lookup inv nm) as [i|e'] eqn:E; simpl; [discriminate|]. intros H. injection H as <-. left. pose proof (lookup_err _ _ _ E). split; [assumption|]. split; [discriminate|].
    exists nm. split; [auto|]. intros Hi. apply lookup_in in Hi. destruct Hi as (i & Ei). congruence.
  - destruct (mapM (lookup inv) _) as [c|e'] eqn:E; simpl; [discriminate|]. intros H. injection H as <-. apply mapM_err in E. destruct E as (x & Hx & E).
    left. split; [apply (lookup_err _ _ _ E)|]. split; [discriminate|]. exists x. split; [destruct d; exact Hx|]. intros Hi. apply lookup_in in Hi. destruct Hi as (i & Ei). congruence.
  - intros H. injection H as <-. right. auto.
  - intros H. injection H as <-. right. auto.
Qed.

Lemma parse_cols inv s cols f : parse_spec inv s = Ok (cols, f) ->
  repricer s = Some f /\ Forall2 (fun x c => (c < List.length inv)%nat /\ nth c inv EmptyString = x) (driver_names s) cols.
Proof.
  destruct s as [nm sp]. unfold parse_spec, repricer, driver_names. simpl. destruct sp as [g|d [g|]|]; try discriminate.
  - destruct (lookup inv nm) as [i|] eqn:E; simpl; [|discriminate]. intros H. injection H as <- <-. split; [reflexivity|]. constructor; [apply lookup_ok; exact E|constructor].
  - destruct (mapM (lookup inv) _) as [c|] eqn:E; simpl; [|discriminate]. intros H. injection H as <- <-. split; [reflexivity|].
    apply mapM_Forall2 in E. revert E. clear. induction 1 as [|x c l l' H _ IH]; constructor; [apply lookup_ok; exact H|exact IH].
Qed.

Lemma chunk_named inv n f names cols : names <> [] ->
  Forall2 (fun x c => (c < List.length inv)%nat /\ nth c inv EmptyString = x) names cols ->
  chunk (table_of inv n f) cols = Ok (named_chunk n f names).
Proof.
  intros HN HF. set (K := List.length inv).
  destruct HF as [|x c names cols [Hc Hx] HF]; [contradiction|].
  assert (HK : (0 < K)%nat) by (unfold K; lia).
  destruct HF as [|x' c' names cols [Hc' Hx'] HF].
  - unfold chunk, table_of. cbn [r_shape r_at]. fold K. destruct (Nat.ltb_spec c K) as [_|]; [|lia]. unfold named_chunk. do 2 f_equal.
    apply functional_extensionality. intros s. destruct (div_mod_pos K s c Hc) as [-> ->]. rewrite Hx. reflexivity.
  - set (ns := x :: x' :: names). set (cs := c :: c' :: cols).
    assert (HF' : Forall2 (fun x c => (c < K)%nat /\ nth c inv EmptyString = x) ns cs) by (repeat constructor; auto).
    assert (HL : List.length ns = List.length cs) by (clear - HF'; induction HF'; simpl; congruence).
    assert (E : chunk (table_of inv n f) cs = if forallb (fun c => (c <? K)%nat) cs then Ok (mkR [n; List.length cs] (fun q => r_at (table_of inv n f) ((q / List.length cs) * K + nth (q mod List.length cs) cs 0)%nat)) else Err IndexError) by reflexivity.
    rewrite E. clear E.
    assert (E : forallb (fun c => (c <? K)%nat) cs = true).
    { apply forallb_forall. intros y Hy. apply Nat.ltb_lt. clear - HF' Hy. induction HF' as [|a b l l' [H _] _ IH]; [destruct Hy|]. destruct Hy as [<-|Hy]; auto. }
    rewrite E. change (named_chunk n f ns) with (table_of ns n f). unfold table_of. cbn [r_at]. fold K. rewrite HL. do 2 f_equal.
    apply functional_extensionality. intros q. set (m := (q mod List.length cs)%nat).
    assert (Hm : (m < List.length cs)%nat) by (apply Nat.mod_upper_bound; unfold cs; simpl; lia).
    assert (G : forall k, (k < List.length cs)%nat -> (nth k cs 0 < K)%nat /\ nth (nth k cs 0%nat) inv EmptyString = nth k ns EmptyString).
    { clear - HF'. induction HF' as [|a b l l' H _ IH]; intros k Hk; simpl in Hk; [lia|]. destruct k as [|k]; simpl; [exact H|apply IH; lia]. }
    destruct (G m Hm) as [G1 G2]. destruct (div_mod_pos K (q / List.length cs) _ G1) as [-> ->]. rewrite G2. reflexivity.
Qed.

Lemma assign_col_spec n o : assign_col n (r_list o) =
  if Nat.eqb (r_size o) n then Ok (r_list o) else if Nat.eqb (r_size o) 1 then Ok (repeat (r_at o 0) n) else Err ValueError.
Proof.
  unfold assign_col. assert (L : List.length (r_list o) = r_size o) by (unfold r_list; rewrite map_length, seq_length; reflexivity).
  rewrite L. destruct (Nat.eqb_spec (r_size o) n); [reflexivity|]. unfold r_list in *. destruct (r_size o) as [|[|k]]; simpl; [reflexivity|reflexivity|reflexivity].
Qed.

Lemma combined_pnl inv n f d parsed : (forall s, In s d -> driver_names s <> []) -> mapM (parse_spec inv) d = Ok parsed ->
  combined parsed (table_of inv n f) = pnl_table n f d.
Proof.
  intros HN H. apply mapM_Forall2 in H. unfold combined, pnl_table.
  assert (L : List.length parsed = List.length d) by (clear - H; induction H; simpl; congruence). rewrite L.
  assert (E : mapM (fun cf => let* c := chunk (table_of inv n f) (fst cf) in let* o := snd cf c in assign_col (hd 0%nat (r_shape (table_of inv n f))) (r_list o)) parsed = mapM (pnl_column n f) d).
  { symmetry. apply mapM_ext2. clear L. induction H as [|s [cols g] d parsed E H IH]; constructor.
    - apply parse_cols in E. destruct E as [E1 E2]. unfold pnl_column. rewrite E1. cbn [fst snd].
      rewrite (chunk_named inv n f (driver_names s) cols); [|apply HN; left; reflexivity|exact E2]. cbn [bind].
      destruct (g (named_chunk n f (driver_names s))) as [o|e]; cbn [bind]; [|reflexivity]. rewrite assign_col_spec. reflexivity.
    - apply IH. intros s' Hs'. apply HN. right. exact Hs'. }
  change (hd 0%nat (r_shape (table_of inv n f))) with n in *. rewrite E. destruct (mapM (pnl_column n f) d); reflexivity.
Qed.
