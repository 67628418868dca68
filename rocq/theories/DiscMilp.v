(** The mixed-integer programme: what its feasible points mean. *)
From Verif Require Import QBase ProbModel DiscModel DiscSpec DiscProofs.
Open Scope Q_scope.
Open Scope list_scope.

Lemma qdot_app a b c d : List.length a = List.length c -> qdot (a ++ b) (c ++ d) == qdot a c + qdot b d.
Proof.
  unfold qdot. revert c. induction a as [|x a IH]; intros [|y c] H; simpl in *; try discriminate; [lra|].
  rewrite IH by lia. lra.
Qed.

Lemma qdot_zeros n x : qdot (zeros n) x == 0.
Proof. unfold qdot, zeros. revert x. induction n as [|n IH]; intros [|y x]; simpl; try lra. rewrite IH. lra. Qed.

Lemma qdot_set_at i v row x : (i < List.length row)%nat -> (i < List.length x)%nat ->
  qdot (set_at i v row) x == qdot row x + (v - nth i row 0) * nth i x 0.
Proof.
  unfold qdot, set_at. revert i x. induction row as [|y row IH]; intros [|i] [|z x] H1 H2; simpl in *; try lia.
  - lra.
  - rewrite IH by lia. lra.
Qed.

Lemma set_at_length i v l : List.length (set_at i v l) = List.length l.
Proof. apply upd_length. Qed.

Lemma nth_set_other i j v l : i <> j -> nth j (set_at i v l) 0 = nth j l 0.
Proof. unfold set_at. revert i j. induction l as [|x l IH]; intros [|i] [|j] H; simpl; try congruence; auto. Qed.

Lemma zeros_length n : List.length (zeros n) = n. Proof. apply repeat_length. Qed.
Lemma nth_zeros n i : nth i (zeros n) 0 = 0. Proof. unfold zeros. revert i; induction n; intros [|i]; simpl; auto. Qed.

Lemma qdot_row2 nv i j v w x : i <> j -> (i < nv)%nat -> (j < nv)%nat -> List.length x = nv ->
  qdot (set_at j w (set_at i v (zeros nv))) x == v * nth i x 0 + w * nth j x 0.
Proof.
  intros Hij Hi Hj Hx. rewrite qdot_set_at, qdot_set_at, qdot_zeros; rewrite ?set_at_length, ?zeros_length; try lia.
  rewrite nth_set_other, !nth_zeros by auto. lra.
Qed.

Lemma qdot_ones n x : List.length x = n -> qdot (repeat 1 n) x == qsum x.
Proof. unfold qdot. revert x. induction n as [|n IH]; intros [|y x] H; simpl in *; try discriminate; [lra|]. rewrite IH by lia. lra. Qed.

Lemma map2_nth {A B C} (f : A -> B -> C) l m i d da db : (i < List.length l)%nat -> (i < List.length m)%nat ->
  nth i (map2 f l m) d = f (nth i l da) (nth i m db).
Proof.
  revert l m. induction i as [|i IH]; intros [|x l] [|y m] H1 H2; simpl in *; try lia; [reflexivity|apply IH; lia].
Qed.

Lemma in_map2_seq {B C} (f : nat -> B -> C) (m : list B) r d :
  In r (map2 f (seq 0 (List.length m)) m) <-> exists i, (i < List.length m)%nat /\ r = f i (nth i m d).
Proof.
  assert (HL : List.length (map2 f (seq 0 (List.length m)) m) = List.length m).
  { rewrite map2_length, seq_length. lia. }
  split.
  - intros H. apply (In_nth _ _ r) in H as (i & Hi & E). rewrite HL in Hi. exists i. split; [auto|].
    rewrite <- E. rewrite (map2_nth f _ m i r 0%nat d); rewrite ?seq_length; auto. rewrite seq_nth; auto.
  - intros (i & Hi & ->). replace (f i (nth i m d)) with (nth i (map2 f (seq 0 (List.length m)) m) (f i (nth i m d))).
    + apply nth_In. rewrite HL. auto.
    + rewrite (map2_nth f _ m i _ 0%nat d); rewrite ?seq_length; auto. rewrite seq_nth; auto.
Qed.

Definition dasset : asset := mkA EmptyString 0 1 1.

(** ** Reading the programme *)
Record reading (inp : inputs) (pen : Q) (mc : option Q) (xs us : list Q) (r : Q) : Prop := mkRd {
  rd_x : forall i, (i < List.length (in_assets inp))%nat ->
     (if Qle_bool 0 (a_w (nth i (in_assets inp) dasset)) then 0 else - inject_Z (max_lots (in_total inp) (nth i (in_assets inp) dasset)))
       <= nth i xs 0 <= inject_Z (max_lots (in_total inp) (nth i (in_assets inp) dasset));
  rd_u : forall i, (i < List.length (in_assets inp))%nat -> 0 <= nth i us 0 <= in_total inp;
  rd_r : 0 <= r <= cash_ub (in_total inp) (in_assets inp) mc;
  rd_int : forall i, (i < List.length (in_assets inp))%nat -> exists z, nth i xs 0 == inject_Z z;
  rd_eq : qdot (map lot_cost (in_assets inp)) xs + r == in_total inp;
  rd_abs : forall i, (i < List.length (in_assets inp))%nat ->
     Qabs (lot_cost (nth i (in_assets inp) dasset) * nth i xs 0 - a_w (nth i (in_assets inp) dasset) * in_total inp) <= nth i us 0 }.

Lemma nth_map_lt' {A} (f : A -> Q) l i d : (i < List.length l)%nat -> nth i (map f l) 0 = f (nth i l d).
Proof. intros H. rewrite (nth_indep _ 0 (f d)) by (rewrite map_length; auto). apply map_nth. Qed.

Lemma nth_app3 (a b c : list Q) i n : List.length a = n -> List.length b = n -> 
  nth i (a ++ b ++ c) 0 = if (i <? n)%nat then nth i a 0 else if (i <? 2 * n)%nat then nth (i - n) b 0 else nth (i - 2 * n) c 0.
Proof.
  intros Ha Hb. destruct (Nat.ltb_spec i n); [rewrite app_nth1 by lia; auto|]. rewrite app_nth2 by lia.
  destruct (Nat.ltb_spec i (2 * n)); [rewrite app_nth1 by lia; f_equal; lia|]. rewrite app_nth2 by lia. f_equal. lia.
Qed.

Lemma Qabs_le_iff x y : Qabs x <= y <-> x <= y /\ - x <= y.
Proof. rewrite Qabs_Qle_condition. split; intros [? ?]; split; lra. Qed.

Lemma milp_reading inp pen mc xs us r :
  List.length xs = List.length (in_assets inp) -> List.length us = List.length (in_assets inp) ->
  milp_feasible (build_milp inp pen mc) (xs ++ us ++ [r]) <-> reading inp pen mc xs us r.
Proof.
  intros Hx Hu. set (l := in_assets inp) in *. set (n := List.length l) in *. set (V := in_total inp).
  assert (HX : List.length (xs ++ us ++ [r]) = (2 * n + 1)%nat) by (rewrite !app_length; simpl; lia).
  assert (Hrow : forall i v, (i < n)%nat ->
     qdot (set_at (n + i) (-1) (set_at i v (zeros (2 * n + 1)))) (xs ++ us ++ [r]) == v * nth i xs 0 - nth i us 0).
  { intros i v Hi. rewrite qdot_row2; try lia. rewrite !(nth_app3 xs us [r] _ n Hx Hu).
    destruct (Nat.ltb_spec i n); [|lia]. destruct (Nat.ltb_spec (n + i) n); [lia|].
    destruct (Nat.ltb_spec (n + i) (2 * n)); [|lia]. replace (n + i - n)%nat with i by lia. lra. }
  assert (Heq : qdot (map lot_cost l ++ zeros n ++ [1]) (xs ++ us ++ [r]) == qdot (map lot_cost l) xs + r).
  { rewrite qdot_app by (rewrite map_length; fold n; lia). rewrite qdot_app by (rewrite zeros_length; lia).
    rewrite qdot_zeros. unfold qdot at 2. simpl. lra. }
  assert (Hlb : forall i, nth i (p_lb (build_milp inp pen mc)) 0 =
     if (i <? n)%nat then (if Qle_bool 0 (a_w (nth i l dasset)) then 0 else - inject_Z (max_lots V (nth i l dasset))) else 0).
  { intros i. cbn [build_milp p_lb]. fold l n V. destruct (Nat.ltb_spec i n).
    - rewrite app_nth1 by (rewrite map_length; auto).
      rewrite (nth_map_lt' (fun a => if Qle_bool 0 (a_w a) then 0 else - inject_Z (max_lots V a)) l i dasset) by auto. reflexivity.
    - rewrite app_nth2 by (rewrite map_length; auto). apply nth_zeros. }
  assert (Hub : forall i, (i < 2 * n + 1)%nat -> nth i (p_ub (build_milp inp pen mc)) 0 =
     if (i <? n)%nat then inject_Z (max_lots V (nth i l dasset)) else if (i <? 2 * n)%nat then V else cash_ub V l mc).
  { intros i Hi. cbn [build_milp p_ub]. fold l n V. rewrite (nth_app3 _ _ _ i n) by (rewrite ?map_length, ?repeat_length; auto).
    destruct (Nat.ltb_spec i n); [apply (nth_map_lt' (fun a => inject_Z (max_lots V a)) l i dasset); auto|].
    destruct (Nat.ltb_spec i (2 * n)).
    - assert (E : forall m j, (j < m)%nat -> nth j (repeat V m) 0 = V) by (clear; induction m; intros [|j] H; simpl; try lia; auto; apply IHm; lia).
      apply E. lia.
    - replace (i - 2 * n)%nat with 0%nat by lia. reflexivity. }
  split.
  - intros (F1 & F2 & F3 & F4 & F5).
    assert (FB : forall i, (i < 2 * n + 1)%nat -> nth i (p_lb (build_milp inp pen mc)) 0 <= nth i (xs ++ us ++ [r]) 0 <= nth i (p_ub (build_milp inp pen mc)) 0)
      by (intros i Hi; apply F2; lia).
    split; fold l; fold n; fold V.
    + intros i Hi. specialize (FB i ltac:(lia)). rewrite Hlb, Hub, (nth_app3 xs us [r] i n Hx Hu) in FB by lia.
      destruct (Nat.ltb_spec i n); [|lia]. exact FB.
    + intros i Hi. specialize (FB (n + i)%nat ltac:(lia)). rewrite Hlb, Hub, (nth_app3 xs us [r] _ n Hx Hu) in FB by lia.
      destruct (Nat.ltb_spec (n + i) n); [lia|]. destruct (Nat.ltb_spec (n + i) (2 * n)); [|lia].
      replace (n + i - n)%nat with i in FB by lia. exact FB.
    + specialize (FB (2 * n)%nat ltac:(lia)). rewrite Hlb, Hub, (nth_app3 xs us [r] _ n Hx Hu) in FB by lia.
      destruct (Nat.ltb_spec (2 * n) n); [lia|]. destruct (Nat.ltb_spec (2 * n) (2 * n)); [lia|].
      rewrite Nat.sub_diag in FB. exact FB.
    + intros i Hi. destruct (F3 i) as [z Hz]; [exact Hi|]. exists z. rewrite (nth_app3 xs us [r] i n Hx Hu) in Hz.
      destruct (Nat.ltb_spec i n); [|lia]. exact Hz.
    + cbn [build_milp p_eq fst snd] in F4. fold l n V in F4. rewrite Heq in F4. exact F4.
    + intros i Hi. apply Qabs_le_iff.
      assert (G1 := F5 (set_at (n + i) (-1) (set_at i (lot_cost (nth i l dasset)) (zeros (2 * n + 1)))) (a_w (nth i l dasset) * V)).
      assert (G2 := F5 (set_at (n + i) (-1) (set_at i (- lot_cost (nth i l dasset)) (zeros (2 * n + 1)))) (- (a_w (nth i l dasset) * V))).
      cbn [build_milp p_le] in G1, G2. fold l n V in G1, G2. rewrite Hrow in G1, G2 by auto.
      split.
      * assert (lot_cost (nth i l dasset) * nth i xs 0 - nth i us 0 <= a_w (nth i l dasset) * V); [|lra].
        apply G1. apply in_app_iff. left. apply (in_map2_seq _ l _ dasset). exists i. auto.
      * assert (- lot_cost (nth i l dasset) * nth i xs 0 - nth i us 0 <= - (a_w (nth i l dasset) * V)); [|lra].
        apply G2. apply in_app_iff. right. apply (in_map2_seq _ l _ dasset). exists i. auto.
  - intros [R1 R2 R3 R4 R5 R6]. fold l in R1, R2, R3, R4, R5, R6. fold n in R1, R2, R4, R6. fold V in R1, R2, R3, R5, R6.
    split; [|split; [|split; [|split]]].
    + rewrite HX. cbn [build_milp p_c]. rewrite !app_length, zeros_length, repeat_length. fold l n. simpl. lia.
    + intros i Hi. rewrite HX in Hi. rewrite Hlb, Hub, (nth_app3 xs us [r] i n Hx Hu) by auto.
      destruct (Nat.ltb_spec i n); [apply R1; auto|]. destruct (Nat.ltb_spec i (2 * n)); [apply R2; lia|].
      replace (i - 2 * n)%nat with 0%nat by lia. exact R3.
    + intros i Hi. cbn [build_milp p_nint] in Hi. fold l n in Hi. destruct (R4 i Hi) as [z Hz]. exists z.
      rewrite (nth_app3 xs us [r] i n Hx Hu). destruct (Nat.ltb_spec i n); [|lia]. exact Hz.
    + cbn [build_milp p_eq fst snd]. fold l n V. rewrite Heq. exact R5.
    + intros row rhs Hin. cbn [build_milp p_le] in Hin. fold l n V in Hin.
      apply in_app_iff in Hin as [Hin|Hin]; apply (in_map2_seq _ l _ dasset) in Hin as (i & Hi & E);
        fold n in Hi; injection E as -> ->; rewrite Hrow by auto; specialize (R6 i Hi); apply Qabs_le_iff in R6; lra.
Qed.

Lemma obj_reading inp pen mc xs us r :
  List.length xs = List.length (in_assets inp) -> List.length us = List.length (in_assets inp) ->
  qdot (p_c (build_milp inp pen mc)) (xs ++ us ++ [r]) == qsum us + pen * r.
Proof.
  intros Hx Hu. cbn [build_milp p_c]. rewrite qdot_app by (rewrite zeros_length; auto).
  rewrite qdot_app by (rewrite repeat_length; auto). rewrite qdot_zeros, qdot_ones by auto.
  unfold qdot. simpl. lra.
Qed.

Lemma skipn_add {A} (m n : nat) (l : list A) : skipn m (skipn n l) = skipn (n + m) l.
Proof. revert l. induction n as [|n IH]; intros [|x l]; simpl; auto. destruct m; reflexivity. Qed.

Lemma split3 (x : list Q) n : List.length x = (2 * n + 1)%nat ->
  exists xs us r, x = xs ++ us ++ [r] /\ List.length xs = n /\ List.length us = n.
Proof.
  intros H. exists (firstn n x), (firstn n (skipn n x)), (nth (2 * n) x 0).
  assert (H2 : skipn n (skipn n x) = [nth (2 * n) x 0]).
  { rewrite skipn_add. replace (n + n)%nat with (2 * n)%nat by lia.
    assert (E := firstn_skipn (2 * n) x). assert (L := skipn_length (2 * n) x).
    destruct (skipn (2 * n) x) as [|y [|z t]] eqn:Es; simpl in L; try lia. f_equal.
    rewrite <- E. rewrite app_nth2 by (rewrite firstn_length; lia). rewrite firstn_length.
    replace (2 * n - Nat.min (2 * n) (List.length x))%nat with 0%nat by lia. reflexivity. }
  rewrite <- H2, firstn_skipn, firstn_skipn. split; [reflexivity|].
  rewrite !firstn_length, skipn_length. lia.
Qed.

(** ** Rounding *)
Lemma rint_int x z : x == inject_Z z -> rint x = z.
Proof.
  intros H. unfold rint. assert (Hf : Qfloor x = z).
  { rewrite H. apply Qfloor_Z. }
  rewrite Hf. replace (Qlt_bool (x - inject_Z z) (1 # 2)) with true; [reflexivity|].
  symmetry. apply Qlt_bool_iff. rewrite H. lra.
Qed.

(** ** Holdings given by a list of lots *)
Lemma share_map2 {B} (G : asset -> Z -> B) (l : list asset) ks : NoDup (map a_name l) ->
  List.length ks = List.length l ->
  map (fun a => G a (share_of (map2 (fun a k => (a_name a, (k * a_lot a)%Z)) l ks) (a_name a))) l =
  map2 (fun a k => G a (k * a_lot a)%Z) l ks.
Proof.
  revert ks. induction l as [|a l IH]; intros [|k ks] HN HL; simpl in *; try discriminate; [reflexivity|].
  inversion HN; subst. f_equal.
  - unfold share_of. simpl. rewrite String.eqb_refl. reflexivity.
  - rewrite <- (IH ks) by (auto; lia). apply map_ext_in. intros b Hb. unfold share_of. simpl.
    destruct (String.eqb_spec (a_name b) (a_name a)) as [E|]; [|reflexivity].
    exfalso. apply H1. rewrite <- E. apply in_map. exact Hb.
Qed.

Lemma map2_fst (l : list asset) ks : List.length ks = List.length l ->
  map fst (map2 (fun a k => (a_name a, (k * a_lot a)%Z)) l ks) = map a_name l.
Proof. revert ks. induction l as [|a l IH]; intros [|k ks] H; simpl in *; try discriminate; [auto|]. f_equal. auto. Qed.

Lemma share_map2_lots (l : list asset) ks a : NoDup (map a_name l) -> List.length ks = List.length l -> In a l ->
  exists i, (i < List.length l)%nat /\ nth i l dasset = a /\
    share_of (map2 (fun a k => (a_name a, (k * a_lot a)%Z)) l ks) (a_name a) = (nth i ks 0 * a_lot a)%Z.
Proof.
  intros HN HL Ha. apply (In_nth _ _ dasset) in Ha as (i & Hi & E). exists i. split; [auto|]. split; [auto|].
  assert (H := share_map2 (fun _ z => z) l ks HN HL).
  assert (H' := f_equal (fun t => nth i t 0%Z) H). cbv beta in H'.
  rewrite (map2_nth _ l ks i 0%Z dasset 0%Z) in H' by lia. rewrite E in H'. rewrite <- H'.
  rewrite (nth_indep _ 0%Z (share_of (map2 (fun a k => (a_name a, (k * a_lot a)%Z)) l ks) (a_name dasset))) by (rewrite map_length; auto).
  rewrite (map_nth (fun a => share_of (map2 (fun a k => (a_name a, (k * a_lot a)%Z)) l ks) (a_name a))), E. reflexivity.
Qed.

Lemma qsum_map2_le {A B} (f g : A -> B -> Q) l m da db : List.length l = List.length m ->
  (forall i, (i < List.length l)%nat -> f (nth i l da) (nth i m db) <= g (nth i l da) (nth i m db)) ->
  qsum (map2 f l m) <= qsum (map2 g l m).
Proof.
  revert m. induction l as [|x l IH]; intros [|y m] HL H; simpl in *; try discriminate HL; [lra|].
  assert (H0 := H 0%nat ltac:(lia)). simpl in H0.
  assert (qsum (map2 f l m) <= qsum (map2 g l m)); [|lra].
  apply IH; [lia|]. intros i Hi. apply (H (S i)). lia.
Qed.

Lemma qsum_map2_nth {A B} (f : A -> B -> Q) l m us da db : List.length l = List.length m -> List.length us = List.length l ->
  (forall i, (i < List.length l)%nat -> f (nth i l da) (nth i m db) <= nth i us 0) ->
  qsum (map2 f l m) <= qsum us.
Proof.
  revert m us. induction l as [|x l IH]; intros [|y m] [|u us] HL HU H; simpl in *; try discriminate HL; try discriminate HU; [lra|].
  assert (H0 := H 0%nat ltac:(lia)). simpl in H0.
  assert (qsum (map2 f l m) <= qsum us); [|lra].
  apply IH; [lia|lia|]. intros i Hi. apply (H (S i)). lia.
Qed.

Lemma qsum_map2_eq {A B} (f g : A -> B -> Q) l m : (forall a b, f a b == g a b) -> qsum (map2 f l m) == qsum (map2 g l m).
Proof. intros H. revert m. induction l as [|x l IH]; intros [|y m]; simpl; try lra. rewrite H, IH. lra. Qed.

Lemma cost_dot (l : list asset) ks xs : List.length ks = List.length l -> List.length xs = List.length l ->
  (forall i, (i < List.length l)%nat -> nth i xs 0 == inject_Z (nth i ks 0%Z)) ->
  qsum (map2 (fun a k => inject_Z (k * a_lot a) * a_price a) l ks) == qdot (map lot_cost l) xs.
Proof.
  unfold qdot. revert ks xs. induction l as [|a l IH]; intros [|k ks] [|x xs] H1 H2 H; simpl in *; try discriminate; [lra|].
  assert (H0 := H 0%nat ltac:(lia)). simpl in H0. rewrite lots_value, H0, (IH ks xs); [lra|lia|lia|].
  intros i Hi. apply (H (S i)). lia.
Qed.

Lemma track_scale V (l : list asset) ks : 0 < V ->
  V * qsum (map2 (fun a k => Qabs (a_w a - inject_Z (k * a_lot a) * a_price a / V)) l ks) ==
  qsum (map2 (fun a k => Qabs (lot_cost a * inject_Z k - a_w a * V)) l ks).
Proof.
  intros HV. revert ks. induction l as [|a l IH]; intros [|k ks]; simpl; try lra.
  rewrite Qmult_plus_distr_r, IH.
  assert (E : V * Qabs (a_w a - inject_Z (k * a_lot a) * a_price a / V) == Qabs (lot_cost a * inject_Z k - a_w a * V)).
  { rewrite <- (Qabs_pos V) at 1 by lra. rewrite <- Qabs_Qmult, <- Qabs_opp.
    assert (E2 : - (V * (a_w a - inject_Z (k * a_lot a) * a_price a / V)) == lot_cost a * inject_Z k - a_w a * V).
    { rewrite lots_value. field. lra. }
    rewrite E2. reflexivity. }
  rewrite E. reflexivity.
Qed.
