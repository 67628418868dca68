(** IEEE binary64 arithmetic, round to nearest even, over the reals that are binary64 numbers (Flocq).  Overflow,
    infinities and NaN are not represented: results beyond 1.8e308 are out of scope. *)
From Flocq Require Import Core Plus_error Relative Sterbenz.
From Verif Require Import RBase.
Open Scope R_scope.

Definition b64 : Z -> Z := FLT_exp (-1074) 53.
Definition isf (x : R) : Prop := generic_format radix2 b64 x.
Definition rnd (x : R) : R := round radix2 b64 ZnearestE x.
Definition fadd (x y : R) : R := rnd (x + y).
Definition fsub (x y : R) : R := rnd (x - y).
Definition fmul (x y : R) : R := rnd (x * y).
Definition fdiv (x y : R) : R := rnd (x / y).
(** Unit roundoff 2^-53 and half the smallest positive number, 2^-1075. *)
Definition ur : R := bpow radix2 (-53).
Definition eta : R := bpow radix2 (-1075).

Global Instance prec53 : Prec_gt_0 53. Proof. reflexivity. Qed.
Global Instance b64_valid : Valid_exp b64. Proof. unfold b64. apply FLT_exp_valid. reflexivity. Qed.
Global Instance b64_mono : Monotone_exp b64. Proof. unfold b64. apply FLT_exp_monotone. Qed.

Lemma Rabs_bd x y : Rabs x <= y -> - y <= x <= y.
Proof. intros H. pose proof (Rle_abs x). pose proof (Rle_abs (- x)) as K. rewrite Rabs_Ropp in K. lra. Qed.
Lemma ur_pos : 0 < ur. Proof. apply bpow_gt_0. Qed.
Lemma eta_pos : 0 < eta. Proof. apply bpow_gt_0. Qed.
Lemma ur_val : ur = / 9007199254740992. Proof. reflexivity. Qed.
Lemma ur_small : ur <= 1 / 1000000000000000. Proof. rewrite ur_val. lra. Qed.

Lemma rnd_isf x : isf (rnd x). Proof. apply generic_format_round; auto with typeclass_instances. Qed.
Lemma rnd_id x : isf x -> rnd x = x. Proof. intros H. apply round_generic; auto with typeclass_instances. Qed.
Lemma isf_0 : isf 0. Proof. apply generic_format_0. Qed.
Lemma isf_opp x : isf x -> isf (- x). Proof. apply generic_format_opp. Qed.
Lemma rnd_0 : rnd 0 = 0. Proof. apply rnd_id, isf_0. Qed.
Lemma rnd_le x y : x <= y -> rnd x <= rnd y. Proof. intros H. apply round_le; auto with typeclass_instances. Qed.
Lemma rnd_ge0 x : 0 <= x -> 0 <= rnd x. Proof. intros H. rewrite <- rnd_0. apply rnd_le. exact H. Qed.
Lemma rnd_le0 x : x <= 0 -> rnd x <= 0. Proof. intros H. rewrite <- rnd_0. apply rnd_le. exact H. Qed.
Lemma isf_int z : (Z.abs z <= 2 ^ 53)%Z -> isf (IZR z).
Proof.
  intros H. unfold isf. replace (IZR z) with (F2R (Float radix2 z 0)) by (unfold F2R; simpl; ring).
  destruct (Z.eq_dec (Z.abs z) (2 ^ 53)) as [E|E].
  - assert (z = 2 ^ 53 \/ z = - 2 ^ 53)%Z as [-> | ->] by lia.
    + replace (F2R (Float radix2 (2 ^ 53) 0)) with (bpow radix2 53) by (unfold F2R; simpl; lra). apply generic_format_bpow; unfold b64, FLT_exp; lia.
    + replace (F2R (Float radix2 (- 2 ^ 53) 0)) with (- bpow radix2 53) by (unfold F2R; simpl; lra). apply generic_format_opp, generic_format_bpow; unfold b64, FLT_exp; lia.
  - apply generic_format_FLT. exists (Float radix2 z 0); [reflexivity|simpl; lia|simpl; lia].
Qed.
Lemma isf_1 : isf 1. Proof. apply (isf_int 1). simpl; lia. Qed.

(** Error of one operation. *)
Lemma u_ro_ur : u_ro radix2 53 = ur.
Proof. unfold u_ro, ur. replace (-53)%Z with (-1 + (-53 + 1))%Z by reflexivity. rewrite bpow_plus. simpl. lra. Qed.
Lemma add_err x y : isf x -> isf y -> exists e, Rabs e <= ur /\ fadd x y = (x + y) * (1 + e).
Proof.
  intros Hx Hy. destruct (FLT_plus_error_N_ex radix2 (-1074) 53 (fun x => negb (Z.even x)) x y Hx Hy) as (e & He & E). exists e.
  split; [|exact E]. eapply Rle_trans; [exact He|]. rewrite <- u_ro_ur. apply u_rod1pu_ro_le_u_ro.
Qed.
Lemma sub_err x y : isf x -> isf y -> exists e, Rabs e <= ur /\ fsub x y = (x - y) * (1 + e).
Proof. intros Hx Hy. apply (add_err x (- y) Hx (isf_opp _ Hy)). Qed.
Lemma rnd_err x : exists e f, Rabs e <= ur /\ Rabs f <= eta /\ rnd x = x * (1 + e) + f.
Proof.
  destruct (relative_error_N_FLT'_ex radix2 (-1074) 53 ltac:(reflexivity) (fun x => negb (Z.even x)) x) as (e & f & He & Hf & _ & E).
  exists e, f. split; [|split; [|exact E]].
  - eapply Rle_trans; [exact He|]. rewrite <- u_ro_ur. apply u_rod1pu_ro_le_u_ro.
  - eapply Rle_trans; [exact Hf|]. unfold eta. replace (-1075)%Z with (-1 + -1074)%Z by reflexivity. rewrite bpow_plus. simpl (bpow radix2 (-1)). lra.
Qed.
Lemma rnd_abs x : Rabs (rnd x - x) <= ur * Rabs x + eta.
Proof.
  destruct (rnd_err x) as (e & f & He & Hf & ->). replace (x * (1 + e) + f - x) with (x * e + f) by ring.
  eapply Rle_trans; [apply Rabs_triang|]. rewrite Rabs_mult. pose proof (Rabs_pos x). nra.
Qed.
Lemma fadd_abs x y : isf x -> isf y -> Rabs (fadd x y - (x + y)) <= ur * Rabs (x + y).
Proof.
  intros Hx Hy. destruct (add_err x y Hx Hy) as (e & He & ->). replace ((x + y) * (1 + e) - (x + y)) with ((x + y) * e) by ring.
  rewrite Rabs_mult. pose proof (Rabs_pos (x + y)). nra.
Qed.
(** Subtraction from 1 is exact from one half on. *)
Lemma one_minus_exact c : isf c -> 1 / 2 <= c <= 1 -> fsub 1 c = 1 - c.
Proof. intros Hc H. apply rnd_id. apply (sterbenz radix2 b64); [apply isf_1|exact Hc|lra]. Qed.

(** The value of a rounding, from its binade and nearest integer significand. *)
Lemma rnd_val x m e : (-1074 <= e)%Z -> bpow radix2 (e + 52) <= x < bpow radix2 (e + 53) -> Rabs (x * bpow radix2 (- e) - IZR m) < 1 / 2 ->
  rnd x = IZR m * bpow radix2 e.
Proof.
  intros He (H1 & H2) H3. unfold rnd, round.
  assert (Hx : 0 < x) by (eapply Rlt_le_trans; [apply bpow_gt_0|exact H1]).
  assert (Em : mag radix2 x = (e + 53)%Z :> Z). { apply mag_unique. replace (e + 53 - 1)%Z with (e + 52)%Z by lia. rewrite Rabs_pos_eq by lra. split; assumption. }
  assert (Ec : cexp radix2 b64 x = e). { unfold cexp. rewrite Em. unfold b64, FLT_exp. lia. }
  unfold F2R, scaled_mantissa. rewrite Ec. cbn [Fnum Fexp]. rewrite (Znearest_imp _ _ m); [reflexivity|]. lra.
Qed.

(** ** Sums *)
(** [np.cumsum]: left to right. *)
Fixpoint fcumsum (acc : R) (l : list R) : list R :=
  match l with [] => [] | x :: xs => fadd acc x :: fcumsum (fadd acc x) xs end.
(** [np.sum] adds in an order that depends on the layout (pairwise, with interleaved accumulators): any bracketing of any
    reordering of the terms. *)
Inductive sum_tree := Leaf (x : R) | Node (l r : sum_tree).
Fixpoint leaves (t : sum_tree) : list R := match t with Leaf x => [x] | Node l r => leaves l ++ leaves r end.
Fixpoint tsum (t : sum_tree) : R := match t with Leaf x => x | Node l r => fadd (tsum l) (tsum r) end.
(** [s] is a float sum of [l]. *)
Definition fsum_of (l : list R) (s : R) : Prop := (l = [] /\ s = 0) \/ exists t, Permutation (leaves t) l /\ tsum t = s.

Definition gam (n : nat) : R := (1 + ur) ^ n - 1.
Lemma gam_ge0 n : 0 <= gam n. Proof. unfold gam. pose proof ur_pos. assert (1 ^ n <= (1 + ur) ^ n) by (apply pow_incr; lra). rewrite pow1 in *. lra. Qed.
Lemma gam_mono n m : (n <= m)%nat -> gam n <= gam m.
Proof. intros H. unfold gam. pose proof ur_pos. assert ((1 + ur) ^ n <= (1 + ur) ^ m) by (apply Rle_pow; [lra|exact H]). lra. Qed.
Lemma gam_lin n : INR n * ur <= 1 / 2 -> gam n <= 2 * INR n * ur.
Proof.
  unfold gam. pose proof ur_pos as Hu. induction n as [|n IH]; intros H; [simpl; lra|].
  rewrite S_INR in *. pose proof (pos_INR n) as Hn. assert (IH' : (1 + ur) ^ n - 1 <= 2 * INR n * ur) by (apply IH; nra).
  cbn [pow]. assert (H2 : (1 + ur) ^ n <= 2) by nra. nra.
Qed.
Lemma rsum_abs_le l : Rabs (rsum l) <= rsum (map Rabs l).
Proof. induction l as [|x l IH]; simpl; [rewrite Rabs_R0; lra|]. eapply Rle_trans; [apply Rabs_triang|lra]. Qed.
Lemma tsum_isf t : (forall x, In x (leaves t) -> isf x) -> isf (tsum t).
Proof. destruct t; intros H; simpl; [apply H; left; reflexivity|apply rnd_isf]. Qed.

(** Error of a sum of [n] terms, whatever the order: [(1+u)^(n-1) - 1] times the sum of magnitudes. *)
Lemma tsum_err t : (forall x, In x (leaves t) -> isf x) ->
  Rabs (tsum t - rsum (leaves t)) <= gam (length (leaves t) - 1) * rsum (map Rabs (leaves t)).
Proof.
  induction t as [x|l IHl r IHr]; intros H.
  - simpl. unfold gam. simpl. replace (x - (x + 0)) with 0 by ring. rewrite Rabs_R0. pose proof (Rabs_pos x). nra.
  - cbn [tsum leaves]. assert (Hl : forall x, In x (leaves l) -> isf x) by (intros; apply H; cbn [leaves]; apply in_or_app; auto).
    assert (Hr : forall x, In x (leaves r) -> isf x) by (intros; apply H; cbn [leaves]; apply in_or_app; auto).
    specialize (IHl Hl). specialize (IHr Hr). rewrite rsum_app, map_app, rsum_app, app_length.
    assert (Ll : (1 <= length (leaves l))%nat) by (clear; induction l; simpl; [lia|rewrite app_length; lia]).
    assert (Lr : (1 <= length (leaves r))%nat) by (clear; induction r; simpl; [lia|rewrite app_length; lia]).
    pose proof (fadd_abs _ _ (tsum_isf l Hl) (tsum_isf r Hr)) as HF.
    set (A := rsum (map Rabs (leaves l))) in *. set (B := rsum (map Rabs (leaves r))) in *. set (a := rsum (leaves l)) in *. set (b := rsum (leaves r)) in *.
    pose proof (rsum_abs_le (leaves l)) as HA. fold A a in HA. pose proof (rsum_abs_le (leaves r)) as HB. fold B b in HB.
    set (n := (length (leaves l) + length (leaves r) - 1)%nat). set (k := (n - 1)%nat).
    assert (Gl : gam (length (leaves l) - 1) <= gam k) by (apply gam_mono; lia). assert (Gr : gam (length (leaves r) - 1) <= gam k) by (apply gam_mono; lia).
    assert (En : gam n = gam k + ur * (1 + gam k)) by (unfold gam; replace n with (S k) by lia; cbn [pow]; ring).
    pose proof (Rabs_pos a). pose proof (Rabs_pos b). pose proof (gam_ge0 k) as Gk. pose proof ur_pos.
    assert (El : Rabs (tsum l - a) <= gam k * A) by nra. assert (Er : Rabs (tsum r - b) <= gam k * B) by nra.
    assert (Es : Rabs (tsum l + tsum r) <= (1 + gam k) * (A + B)).
    { replace (tsum l + tsum r) with ((tsum l - a) + (tsum r - b) + (a + b)) by ring. eapply Rle_trans; [apply Rabs_triang|]. pose proof (Rabs_triang (tsum l - a) (tsum r - b)). pose proof (Rabs_triang a b). lra. }
    replace (fadd (tsum l) (tsum r) - (a + b)) with ((fadd (tsum l) (tsum r) - (tsum l + tsum r)) + ((tsum l - a) + (tsum r - b))) by ring.
    eapply Rle_trans; [apply Rabs_triang|]. pose proof (Rabs_triang (tsum l - a) (tsum r - b)). rewrite En.
    assert (ur * Rabs (tsum l + tsum r) <= ur * ((1 + gam k) * (A + B))) by (apply Rmult_le_compat_l; lra). nra.
Qed.
Lemma fsum_err l s : fsum_of l s -> (forall x, In x l -> isf x) -> Rabs (s - rsum l) <= gam (length l - 1) * rsum (map Rabs l) /\ isf s.
Proof.
  intros [(-> & ->)|(t & P & <-)] H.
  - simpl. unfold gam. simpl. rewrite Rminus_0_r, Rabs_R0. split; [lra|apply isf_0].
  - assert (H' : forall x, In x (leaves t) -> isf x) by (intros x Hx; apply H; exact (Permutation_in _ P Hx)).
    split; [|apply tsum_isf; exact H']. rewrite <- (rsum_perm _ _ P), <- (rsum_perm _ _ (Permutation_map Rabs P)), <- (Permutation_length P). apply tsum_err. exact H'.
Qed.
(** Left-to-right accumulation is one of the bracketings. *)
Fixpoint lsum_f (acc : R) (l : list R) : R := match l with [] => acc | x :: xs => lsum_f (fadd acc x) xs end.
Lemma lsum_f_tree t l : exists t', leaves t' = leaves t ++ l /\ tsum t' = lsum_f (tsum t) l.
Proof.
  revert t. induction l as [|x l IH]; intros t; [exists t; rewrite app_nil_r; auto|].
  destruct (IH (Node t (Leaf x))) as (t' & E1 & E2). exists t'. split; [rewrite E1; simpl; rewrite <- app_assoc; reflexivity|exact E2].
Qed.
Lemma lsum_f_0 l : (forall x, In x l -> isf x) -> fsum_of l (lsum_f 0 l).
Proof.
  destruct l as [|x l]; [left; auto|]. intros H. right. destruct (lsum_f_tree (Leaf x) l) as (t & E1 & E2). exists t. split; [rewrite E1; reflexivity|].
  rewrite E2. cbn [tsum lsum_f]. f_equal. unfold fadd. rewrite Rplus_0_l, rnd_id by (apply H; left; reflexivity). reflexivity.
Qed.

(** ** Inner products
    BLAS evaluates [x @ y] in any order, adding rounded products or fusing a product with an addition (one rounding). *)
Inductive dot_tree := DProd (a b : R) | DAdd (l r : dot_tree) | DFma (a b : R) (r : dot_tree).
Fixpoint dterms (t : dot_tree) : list (R * R) :=
  match t with DProd a b => [(a, b)] | DAdd l r => dterms l ++ dterms r | DFma a b r => (a, b) :: dterms r end.
Fixpoint dval (t : dot_tree) : R :=
  match t with DProd a b => fmul a b | DAdd l r => fadd (dval l) (dval r) | DFma a b r => rnd (a * b + dval r) end.
(** [s] is a float evaluation of the inner product of [x] and [y]. *)
Definition fdot_of (x y : list R) (s : R) : Prop :=
  (combine x y = [] /\ s = 0) \/ exists t, Permutation (dterms t) (combine x y) /\ dval t = s.

Lemma dval_isf t : isf (dval t).
Proof. destruct t; apply rnd_isf. Qed.
Lemma dterms_pos t : (1 <= length (dterms t))%nat.
Proof. induction t as [a b|l IHl r IHr|a b r IHr]; simpl; [lia|rewrite app_length; lia|lia]. Qed.
Definition dabs (ts : list (R * R)) : R := rsum (map (fun z => Rabs (fst z * snd z)) ts).
Definition dexact (ts : list (R * R)) : R := rsum (map (fun z => fst z * snd z) ts).
Lemma dexact_abs ts : Rabs (dexact ts) <= dabs ts.
Proof. unfold dexact, dabs. induction ts as [|z ts IH]; simpl; [rewrite Rabs_R0; lra|]. eapply Rle_trans; [apply Rabs_triang|lra]. Qed.
Definition dbound (n : nat) (A : R) : R := gam n * A + INR n * eta * (1 + gam n).
Lemma gam_S k : gam (S k) = gam k + ur * (1 + gam k).
Proof. unfold gam. cbn [pow]. ring. Qed.
Lemma dbound_mono n m A : (n <= m)%nat -> 0 <= A -> dbound n A <= dbound m A.
Proof.
  intros H HA. unfold dbound. pose proof (gam_mono n m H). pose proof (gam_ge0 n). pose proof (le_INR n m H). pose proof (pos_INR n). pose proof eta_pos.
  assert (INR n * eta <= INR m * eta) by (apply Rmult_le_compat_r; lra). assert (0 <= INR n * eta) by (apply Rmult_le_pos; lra). apply Rplus_le_compat; apply Rmult_le_compat; lra.
Qed.
Lemma dval_err t : Rabs (dval t - dexact (dterms t)) <= dbound (length (dterms t)) (dabs (dterms t)).
Proof.
  pose proof ur_pos as Hu. pose proof eta_pos as He. induction t as [a b|l IHl r IHr|a b r IHr].
  - cbn [dval dterms length]. unfold dbound, dexact, dabs. cbn [map fst snd]. rewrite !rsum_cons. change (rsum []) with 0. cbn [fst snd]. unfold gam. simpl INR. rewrite pow_1. pose proof (rnd_abs (a * b)) as K. change (rnd (a * b)) with (fmul a b) in K. rewrite !Rplus_0_r. assert (0 <= eta * ur) by (apply Rmult_le_pos; lra). pose proof (Rabs_pos (a * b)). nra.
  - cbn [dval dterms]. unfold dexact, dabs in *. rewrite !map_app, !rsum_app, app_length. pose proof (dterms_pos l) as Ll. pose proof (dterms_pos r) as Lr.
    pose proof (fadd_abs _ _ (dval_isf l) (dval_isf r)) as HF. pose proof (dexact_abs (dterms l)) as HA. pose proof (dexact_abs (dterms r)) as HB. unfold dexact, dabs in HA, HB.
    set (a := rsum (map (fun z => fst z * snd z) (dterms l))) in *. set (b := rsum (map (fun z => fst z * snd z) (dterms r))) in *.
    set (A := rsum (map (fun z => Rabs (fst z * snd z)) (dterms l))) in *. set (B := rsum (map (fun z => Rabs (fst z * snd z)) (dterms r))) in *.
    set (nl := length (dterms l)) in *. set (nr := length (dterms r)) in *. set (k := (nl + nr - 1)%nat). replace (nl + nr)%nat with (S k) by lia.
    pose proof (Rabs_pos a). pose proof (Rabs_pos b). pose proof (gam_ge0 k) as Gk.
    assert (El : Rabs (dval l - a) <= gam k * A + INR nl * eta * (1 + gam k)). { eapply Rle_trans; [exact IHl|]. unfold dbound. pose proof (gam_mono nl k ltac:(lia)). pose proof (pos_INR nl). assert (0 <= INR nl * eta) by (apply Rmult_le_pos; lra). apply Rplus_le_compat; [apply Rmult_le_compat_r; lra|apply Rmult_le_compat_l; lra]. }
    assert (Er : Rabs (dval r - b) <= gam k * B + INR nr * eta * (1 + gam k)). { eapply Rle_trans; [exact IHr|]. unfold dbound. pose proof (gam_mono nr k ltac:(lia)). pose proof (pos_INR nr). assert (0 <= INR nr * eta) by (apply Rmult_le_pos; lra). apply Rplus_le_compat; [apply Rmult_le_compat_r; lra|apply Rmult_le_compat_l; lra]. }
    assert (EN : INR (S k) = INR nl + INR nr) by (rewrite <- plus_INR; f_equal; lia). unfold dbound. rewrite EN, gam_S.
    replace (fadd (dval l) (dval r) - (a + b)) with ((fadd (dval l) (dval r) - (dval l + dval r)) + ((dval l - a) + (dval r - b))) by ring.
    eapply Rle_trans; [apply Rabs_triang|]. pose proof (Rabs_triang (dval l - a) (dval r - b)) as T1.
    assert (Es : Rabs (dval l + dval r) <= (1 + gam k) * (A + B) + (INR nl + INR nr) * eta * (1 + gam k)).
    { replace (dval l + dval r) with ((dval l - a) + (dval r - b) + (a + b)) by ring. eapply Rle_trans; [apply Rabs_triang|]. pose proof (Rabs_triang a b). lra. }
    assert (ur * Rabs (dval l + dval r) <= ur * ((1 + gam k) * (A + B) + (INR nl + INR nr) * eta * (1 + gam k))) by (apply Rmult_le_compat_l; lra). lra.
  - cbn [dval dterms length]. unfold dexact, dabs in *. cbn [map]. rewrite !rsum_cons. cbn [fst snd]. pose proof (dexact_abs (dterms r)) as HB. unfold dexact, dabs in HB.
    set (b' := rsum (map (fun z => fst z * snd z) (dterms r))) in *. set (B := rsum (map (fun z => Rabs (fst z * snd z)) (dterms r))) in *. set (k := length (dterms r)) in *. unfold dbound in *. rewrite S_INR, gam_S.
    pose proof (rnd_abs (a * b + dval r)) as K. pose proof (Rabs_pos (a * b)). pose proof (gam_ge0 k). pose proof (pos_INR k). assert (0 <= INR k * eta) by (apply Rmult_le_pos; lra).
    assert (Es : Rabs (a * b + dval r) <= Rabs (a * b) + (1 + gam k) * B + INR k * eta * (1 + gam k)).
    { replace (a * b + dval r) with (a * b + ((dval r - b') + b')) by ring. eapply Rle_trans; [apply Rabs_triang|]. pose proof (Rabs_triang (dval r - b') b'). lra. }
    assert (ur * Rabs (a * b + dval r) <= ur * (Rabs (a * b) + (1 + gam k) * B + INR k * eta * (1 + gam k))) by (apply Rmult_le_compat_l; lra).
    replace (rnd (a * b + dval r) - (a * b + b')) with ((rnd (a * b + dval r) - (a * b + dval r)) + (dval r - b')) by ring. eapply Rle_trans; [apply Rabs_triang|].
    assert (0 <= gam k * Rabs (a * b)) by (apply Rmult_le_pos; lra). assert (0 <= ur * gam k * Rabs (a * b)) by (apply Rmult_le_pos; [apply Rmult_le_pos; lra|lra]). assert (0 <= eta * gam k) by (apply Rmult_le_pos; lra). assert (0 <= ur * eta) by (apply Rmult_le_pos; lra). assert (0 <= ur * eta * gam k) by (apply Rmult_le_pos; lra). lra.
Qed.
Lemma fdot_err x y s : fdot_of x y s -> Rabs (s - dexact (combine x y)) <= dbound (length (combine x y)) (dabs (combine x y)) /\ isf s.
Proof.
  intros [(E & ->)|(t & P & <-)].
  - rewrite E. unfold dexact, dabs, dbound, gam. simpl. rewrite Rminus_0_r, Rabs_R0. split; [lra|apply isf_0].
  - split; [|apply dval_isf]. pose proof (dval_err t) as K. unfold dexact, dabs in *. rewrite <- (rsum_perm _ _ (Permutation_map _ P)), <- (rsum_perm _ _ (Permutation_map (fun z => Rabs (fst z * snd z)) P)), <- (Permutation_length P). exact K.
Qed.
