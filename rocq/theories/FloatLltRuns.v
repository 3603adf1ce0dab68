(** When Eigen's LLT runs through in single precision. *)
From Coq Require Import ZArith Reals Lra Lia Bool List Arith Permutation.
From Flocq Require Import Core IEEE754.BinarySingleNaN.
From Verif Require Import Base Float FloatProofs DoubleThms FloatDistance FloatDistanceThms FloatWeight FloatWeightThms
  FloatUnscented FloatUnscentedThms FloatLlt FloatLltThms.
Import ListNotations.
Open Scope R_scope.

(** ** Sums *)
Lemma total_swap (f : nat -> nat -> R) l m :
  total (fun i => total (fun j => f i j) m) l = total (fun j => total (fun i => f i j) l) m.
Proof.
  induction l as [|i l IH]; cbn [total].
  - rewrite (total_const 0). ring.
  - rewrite IH, total_plus. reflexivity.
Qed.
Definition delta (i l : nat) : R := if l =? i then 1 else 0.
Lemma total_delta_out f i l : ~ In i l -> total (fun k => f k * delta i k) l = 0.
Proof.
  intros H. induction l as [|k l IH]; cbn [total]; [reflexivity|]. rewrite IH by (intro; apply H; now right).
  unfold delta. destruct (Nat.eqb_spec k i); [exfalso; apply H; now left|ring].
Qed.
Lemma total_delta f i l : NoDup l -> In i l -> total (fun k => f k * delta i k) l = f i.
Proof.
  intros D. induction D as [|k l N D IH]; [intros []|]. cbn [total]. intros [->|H].
  - rewrite total_delta_out by assumption. unfold delta. rewrite Nat.eqb_refl. ring.
  - rewrite IH by assumption. unfold delta. destruct (Nat.eqb_spec k i); [subst; contradiction|ring].
Qed.
Lemma total_square f l : total f l * total f l = total (fun i => total (fun j => f i * f j) l) l.
Proof.
  transitivity (total (fun i => total f l * f i) l); [now rewrite total_scale|].
  apply total_ext. intros i _. rewrite total_scale. ring.
Qed.
Lemma total_zero f l : (forall i, In i l -> f i = 0) -> total f l = 0.
Proof. intros H. rewrite (total_ext f (fun _ => 0)) by assumption. rewrite total_const. ring. Qed.

(** Back substitution *)
Lemma back_substitution (W : nat -> nat -> R) k : (forall j l, (j < l)%nat -> W j l = 0) -> (forall j, (j < k)%nat -> W j j <> 0) ->
  forall r : nat -> R, exists y, forall l, (l < k)%nat -> r l + total (fun j => y j * W j l) (seq 0 k) = 0.
Proof.
  intros Low. induction k as [|k IH]; intros H r; [exists (fun _ => 0); intros; lia|].
  set (c := - r k / W k k).
  destruct (IH ltac:(intros; apply H; lia) (fun l => r l + c * W k l)) as [y Hy].
  exists (fun j => if j =? k then c else y j). intros l Hl.
  rewrite total_last, Nat.eqb_refl.
  rewrite (total_ext _ (fun j => y j * W j l)).
  2:{ intros j Hj. apply in_seq in Hj. destruct (Nat.eqb_spec j k); [lia|reflexivity]. }
  destruct (Nat.eq_dec l k) as [->|N].
  - rewrite total_zero. { unfold c. field. apply H. lia. }
    intros j Hj. apply in_seq in Hj. rewrite Low by lia. ring.
  - specialize (Hy l ltac:(lia)). lra.
Qed.

Section Runs.
Variables (n : nat) (order : nat -> nat -> tree).
Hypothesis orders : forall i j, (j <= i < n)%nat -> order_of (S j) (order i j).
Hypothesis small : (n <= 6)%nat.
Variable M : nat -> nat -> f32.
Hypothesis finite : forall i j, (j <= i < n)%nat -> is_finite (M i j) = true.
Hypothesis diagonal : forall i, (i < n)%nat -> bpow radix2 (-80) <= real M i i <= bpow radix2 80.

(** The symmetric matrix with that lower triangle, and its quadratic form *)
Definition sym (i j : nat) : R := if j <=? i then real M i j else real M j i.
Definition quad (S : nat -> nat -> R) (x : nat -> R) : R :=
  total (fun i => total (fun j => S i j * x i * x j) (seq 0 n)) (seq 0 n).
Hypothesis definite : forall x, / 65536 * total (fun i => real M i i * (x i * x i)) (seq 0 n) <= quad sym x.

Notation s := (fun i => sqrt (real M i i)).
Lemma s_pos i : (i < n)%nat -> bpow radix2 (-40) <= s i <= bpow radix2 40.
Proof.
  intros H. destruct (diagonal i H) as [A B]. split.
  - rewrite <- (sqrt_square (bpow radix2 (-40))) by apply bpow_ge_0. apply sqrt_le_1_alt. rewrite <- bpow_plus. exact A.
  - rewrite <- (sqrt_square (bpow radix2 40)) by apply bpow_ge_0. apply sqrt_le_1_alt. rewrite <- bpow_plus. exact B.
Qed.
Lemma s_square i : (i < n)%nat -> s i * s i = real M i i.
Proof.
  intros H. apply sqrt_sqrt. destruct (diagonal i H). pose proof (bpow_gt_0 radix2 (-80)). lra.
Qed.

Lemma entry_bound i j : (j <= i < n)%nat -> Rabs (real M i j) <= s i * s j.
Proof.
  intros H. destruct (Nat.eq_dec i j) as [<-|N].
  { rewrite s_square by lia. destruct (diagonal i ltac:(lia)). pose proof (bpow_gt_0 radix2 (-80)).
    rewrite Rabs_pos_eq; lra. }
  assert (Q : forall p q, 0 <= real M i i * (p * p) + 2 * real M i j * (p * q) + real M j j * (q * q)).
  { intros p q. set (x := fun l => p * delta i l + q * delta j l).
    assert (P : 0 <= / 65536 * total (fun i => real M i i * (x i * x i)) (seq 0 n)).
    { apply Rmult_le_pos; [lra|]. apply total_nonneg. intros l Hl. apply in_seq in Hl.
      destruct (diagonal l ltac:(lia)). pose proof (bpow_gt_0 radix2 (-80)). apply Rmult_le_pos; nra. }
    pose proof (definite x) as D.
    assert (E : quad sym x = real M i i * (p * p) + 2 * real M i j * (p * q) + real M j j * (q * q)).
    { assert (X : forall f : nat -> R, total (fun l => f l * x l) (seq 0 n) = p * f i + q * f j).
      { intros f. transitivity (total (fun l => p * (f l * delta i l) + q * (f l * delta j l)) (seq 0 n)).
        - apply total_ext. intros. unfold x. ring.
        - rewrite total_plus, !total_scale, !total_delta; [reflexivity|apply seq_NoDup|apply in_seq; lia|apply seq_NoDup|apply in_seq; lia]. }
      unfold quad. rewrite (total_ext _ (fun l => (p * sym l i + q * sym l j) * x l)).
      - rewrite X. unfold sym. rewrite !Nat.leb_refl.
        destruct (Nat.leb_spec j i); [|lia]. destruct (Nat.leb_spec i j); [lia|]. ring.
      - intros l _. rewrite (X (fun m => sym l m * x l)). ring. }
    lra. }
  pose proof (s_pos i ltac:(lia)) as Si. pose proof (s_pos j ltac:(lia)) as Sj.
  pose proof (s_square i ltac:(lia)) as Ei. pose proof (s_square j ltac:(lia)) as Ej.
  cbv beta in *. set (a := sqrt (real M i i)) in *. set (b := sqrt (real M j j)) in *.
  pose proof (bpow_gt_0 radix2 (-40)).
  assert (B : 0 < a * b) by (apply Rmult_lt_0_compat; lra).
  rewrite <- Ei, <- Ej in Q.
  pose proof (Q b a) as Q1. pose proof (Q b (- a)) as Q2. set (m := real M i j) in *.
  replace (a * a * (b * b) + 2 * m * (b * a) + b * b * (a * a)) with (2 * ((a * b) * (a * b + m))) in Q1 by ring.
  replace (a * a * (b * b) + 2 * m * (b * - a) + b * b * (- a * - a)) with (2 * ((a * b) * (a * b - m))) in Q2 by ring.
  apply Rabs_le. split.
  - destruct (Rle_dec (- (a * b)) m) as [|C]; [assumption|exfalso].
    nra.
  - destruct (Rle_dec m (a * b)) as [|C]; [assumption|exfalso]. nra.
Qed.

(** ** The remaining part of a row *)
(** The columns left of [k] are finite and nearly a factor. *)
Definition good (L : nat -> nat -> f32) (k : nat) : Prop :=
  forall i j, (j < k)%nat -> (j <= i < n)%nat ->
    is_finite (L i j) = true /\ 0 < real L j j /\ Rabs (real M i j - gram L i j) <= 38 * u32 * (s i * s j).

Lemma schur L k i : good L k -> (k <= i < n)%nat ->
  28 * u32 * real M i i <= real M i i - total (fun l => real L i l * real L i l) (seq 0 k).
Proof.
  intros G Hi.
  set (W := fun j l => if l <=? j then real L j l else 0).
  destruct (back_substitution W k) with (r := real L i) as [y Hy].
  { intros j l Hl. unfold W. destruct (Nat.leb_spec l j); [lia|reflexivity]. }
  { intros j Hj. unfold W. rewrite Nat.leb_refl. destruct (G j j) as (_ & P & _); [lia|lia|lra]. }
  set (rest := real M i i - total (fun l => real L i l * real L i l) (seq 0 k)) in *.
  set (x := fun j => if j <? k then y j else delta i j).
  set (B := fun j m => total (fun l => W j l * W m l) (seq 0 k) + rest * (delta i j * delta i m)).
  assert (Xk : forall l, (l < k)%nat -> total (fun j => x j * W j l) (seq 0 n) = 0).
  { intros l Hl. replace n with (k + (n - k))%nat by lia. rewrite seq_app, total_app.
    rewrite (total_ext _ (fun j => y j * W j l) (seq 0 k)).
    2:{ intros j Hj. apply in_seq in Hj. unfold x. destruct (Nat.ltb_spec j k); [reflexivity|lia]. }
    rewrite (total_ext _ (fun j => W j l * delta i j) (seq (0 + k) (n - k))).
    2:{ intros j Hj. apply in_seq in Hj. unfold x. destruct (Nat.ltb_spec j k); [lia|ring]. }
    rewrite total_delta; [|apply seq_NoDup|apply in_seq; lia].
    replace (W i l) with (real L i l); [specialize (Hy l Hl); lra|].
    unfold W. destruct (Nat.leb_spec l i); [reflexivity|lia]. }
  assert (Xi : x i = 1).
  { unfold x. destruct (Nat.ltb_spec i k); [lia|]. unfold delta. now rewrite Nat.eqb_refl. }
  assert (Xo : forall j, (k <= j)%nat -> j <> i -> x j = 0).
  { intros j Hj N. unfold x. destruct (Nat.ltb_spec j k); [lia|]. unfold delta. destruct (Nat.eqb_spec j i); [contradiction|reflexivity]. }
  assert (QB : quad B x = rest).
  { unfold quad.
    transitivity (total (fun j => total (fun m => total (fun l => (x j * W j l) * (x m * W m l)) (seq 0 k)) (seq 0 n)) (seq 0 n)
      + total (fun j => rest * (total (fun m => x m * delta i m) (seq 0 n)) * x j * delta i j) (seq 0 n)).
    - rewrite <- total_plus. apply total_ext. intros j _.
      replace (rest * total (fun m => x m * delta i m) (seq 0 n) * x j * delta i j)
        with (total (fun m => rest * x j * delta i j * (x m * delta i m)) (seq 0 n)) by (rewrite total_scale; ring).
      rewrite <- total_plus. apply total_ext. intros m _. unfold B.
      rewrite (total_ext (fun l => x j * W j l * (x m * W m l)) (fun l => x j * x m * (W j l * W m l)) (seq 0 k))
        by (intros; ring). rewrite total_scale. ring.
    - rewrite (total_ext _ (fun j => total (fun l => total (fun m => x j * W j l * (x m * W m l)) (seq 0 n)) (seq 0 k)))
        by (intros; apply total_swap).
      rewrite total_swap. rewrite total_zero.
      + rewrite (total_delta (fun j => rest * total (fun m => x m * delta i m) (seq 0 n) * x j)); [|apply seq_NoDup|apply in_seq; lia].
        rewrite (total_delta x); [|apply seq_NoDup|apply in_seq; lia]. rewrite Xi. ring.
      + intros l Hl. apply in_seq in Hl. rewrite <- total_square, Xk by lia. ring. }
  (* the difference *)
  assert (Near : forall j m, (m <= j < n)%nat -> Rabs ((real M j m - B j m) * x j * x m) <= 38 * u32 * (s j * Rabs (x j) * (s m * Rabs (x m)))).
  { intros j m Hjm. rewrite !Rabs_mult.
    replace (38 * u32 * (s j * Rabs (x j) * (s m * Rabs (x m)))) with (38 * u32 * (s j * s m) * Rabs (x j) * Rabs (x m)) by ring.
    assert (Zero : x j = 0 \/ x m = 0 \/ (Rabs (real M j m - B j m) <= 38 * u32 * (s j * s m))).
    { destruct (le_lt_dec k m) as [Km|Km].
      - destruct (Nat.eq_dec m i) as [->|]; [|right; left; apply Xo; lia].
        destruct (Nat.eq_dec j i) as [->|]; [|left; apply Xo; lia].
        right; right. replace (real M i i - B i i) with 0.
        + rewrite Rabs_R0. pose proof (s_pos i ltac:(lia)). pose proof (bpow_gt_0 radix2 (-40)).
          apply Rmult_le_pos; [unfold u32; lra|]. cbv beta in *. nra.
        + unfold B, delta. rewrite Nat.eqb_refl. unfold rest.
          rewrite (total_ext (fun l => W i l * W i l) (fun l => real L i l * real L i l)); [ring|].
          intros l Hl. apply in_seq in Hl. unfold W. destruct (Nat.leb_spec l i); [reflexivity|lia].
      - right; right.
        replace (B j m) with (gram L j m); [apply (G j m); lia|].
        unfold B. replace (delta i m) with 0 by (unfold delta; destruct (Nat.eqb_spec m i); [lia|reflexivity]).
        rewrite !Rmult_0_r, Rplus_0_r. unfold gram.
        replace k with (S m + (k - S m))%nat by lia. rewrite seq_app, total_app.
        rewrite (total_zero _ (seq (0 + S m) _)).
        + rewrite Rplus_0_r. apply total_ext. intros l Hl. apply in_seq in Hl. unfold W.
          destruct (Nat.leb_spec l j); [|lia]. destruct (Nat.leb_spec l m); [reflexivity|lia].
        + intros l Hl. apply in_seq in Hl. unfold W. destruct (Nat.leb_spec l m); [lia|ring]. }
    destruct Zero as [->|[->|Z]]; [rewrite Rabs_R0; lra|rewrite Rabs_R0; lra|].
    apply Rmult_le_compat_r; [apply Rabs_pos|]. apply Rmult_le_compat_r; [apply Rabs_pos|exact Z]. }
  assert (Sym : forall j m, B j m = B m j).
  { intros j m. unfold B. rewrite (total_ext (fun l => W j l * W m l) (fun l => W m l * W j l)) by (intros; ring). ring. }
  assert (D1 : quad sym x <= quad B x + 38 * u32 * (total (fun j => s j * Rabs (x j)) (seq 0 n) * total (fun j => s j * Rabs (x j)) (seq 0 n))).
  { rewrite total_square. unfold quad. rewrite <- total_scale, <- total_plus. apply total_le. intros j Hj.
    rewrite <- total_scale, <- total_plus. apply total_le. intros m Hm. apply in_seq in Hj, Hm. unfold sym.
    destruct (Nat.leb_spec m j).
    - pose proof (Near j m ltac:(lia)) as N. apply Rabs_le_inv in N. lra.
    - pose proof (Near m j ltac:(lia)) as N. apply Rabs_le_inv in N. rewrite (Sym j m). lra. }
  pose proof (definite x) as D2.
  set (Q := total (fun i => real M i i * (x i * x i)) (seq 0 n)) in *.
  assert (D3 : total (fun j => s j * Rabs (x j)) (seq 0 n) * total (fun j => s j * Rabs (x j)) (seq 0 n) <= 6 * Q).
  { pose proof (cauchy_total (fun j => s j * Rabs (x j)) (fun _ => 1) (seq 0 n)) as C.
    rewrite (total_const (1 * 1)), seq_length in C.
    assert (A1 : total (fun i => Rabs (s i * Rabs (x i) * 1)) (seq 0 n) = total (fun j => s j * Rabs (x j)) (seq 0 n)).
    { apply total_ext. intros j Hj. rewrite Rmult_1_r. apply Rabs_pos_eq. apply Rmult_le_pos; [apply sqrt_pos|apply Rabs_pos]. }
    rewrite A1 in C.
    assert (A2 : total (fun i => s i * Rabs (x i) * (s i * Rabs (x i))) (seq 0 n) = Q).
    { apply total_ext. intros j Hj. apply in_seq in Hj. pose proof (s_square j ltac:(lia)) as Ej. cbv beta in *.
      set (a := sqrt (real M j j)) in *. rewrite <- Ej.
      replace (x j * x j) with (Rabs (x j) * Rabs (x j)); [ring|]. rewrite <- Rabs_mult. apply Rabs_pos_eq. nra. }
    rewrite A2 in C.
    assert (Q0 : 0 <= Q) by (rewrite <- A2; apply total_nonneg; intros; apply Rle_0_sqr).
    assert (N6 : 0 <= INR n * (1 * 1) <= 6).
    { rewrite !Rmult_1_r. split; [apply pos_INR|]. 
      replace 6 with (INR 6) by (cbn; lra). now apply le_INR. }
    rewrite <- sqrt_mult in C by lra.
    set (t := total (fun j => s j * Rabs (x j)) (seq 0 n)) in *.
    assert (T0 : 0 <= t) by (apply total_nonneg; intros; apply Rmult_le_pos; [apply sqrt_pos|apply Rabs_pos]).
    apply Rle_trans with (Q * (INR n * (1 * 1))); [|rewrite Rmult_comm; apply Rmult_le_compat_r; lra].
    rewrite <- (sqrt_sqrt (Q * (INR n * (1 * 1)))) by (apply Rmult_le_pos; lra).
    apply Rmult_le_compat; assumption. }
  assert (D4 : real M i i <= Q).
  { unfold Q. apply Rle_trans with (total (fun j => real M j j * (x j * x j) * delta i j) (seq 0 n)).
    - rewrite (total_delta (fun j => real M j j * (x j * x j))); [rewrite Xi; lra|apply seq_NoDup|apply in_seq; lia].
    - apply total_le. intros j Hj. apply in_seq in Hj. destruct (diagonal j ltac:(lia)). pose proof (bpow_gt_0 radix2 (-80)).
      assert (0 <= real M j j * (x j * x j)) by (apply Rmult_le_pos; nra).
      unfold delta. destruct (j =? i); lra. }
  rewrite QB in D1. unfold u32 in *. lra.
Qed.

(** ** One column more *)
Lemma reduced_near L k i : good L k -> (k <= i < n)%nat -> is_finite (M i k) = true ->
  is_finite (reduced order M L i k) = true /\
  Rabs (B2R (reduced order M L i k) - (real M i k - total (fun l => real L i l * real L k l) (seq 0 k))) <= 15.01 * u32 * (s i * s k) /\
  total (fun l => Rabs (real L i l * real L k l)) (seq 0 k) <= s i * s k.
Proof.
  intros G Hi Fm.
  pose proof (s_pos i ltac:(lia)) as Si. pose proof (s_pos k ltac:(lia)) as Sk.
  pose proof (bpow_gt_0 radix2 (-40)) as P40.
  pose proof (s_square i ltac:(lia)) as Ei. pose proof (s_square k ltac:(lia)) as Ek.
  pose proof (schur L k i G Hi) as Ri. pose proof (schur L k k G ltac:(lia)) as Rk.
  assert (Mi : 0 < real M i i) by (rewrite <- Ei; cbv beta in *; nra).
  assert (Mk : 0 < real M k k) by (rewrite <- Ek; cbv beta in *; nra).
  assert (T : total (fun l => Rabs (real L i l * real L k l)) (seq 0 k) <= s i * s k).
  { eapply Rle_trans; [apply cauchy_total|]. apply Rmult_le_compat; try apply sqrt_pos; apply sqrt_le_1_alt; unfold u32 in *; lra. }
  cbv beta in *. set (a := sqrt (real M i i)) in *. set (b := sqrt (real M k k)) in *.
  assert (Bab : 0 < a * b <= bpow radix2 80).
  { split; [apply Rmult_lt_0_compat; lra|]. change 80%Z with (40 + 40)%Z. rewrite bpow_plus. apply Rmult_le_compat; lra. }
  assert (Bab' : bpow radix2 (-80) <= a * b).
  { change (-80)%Z with (-40 + -40)%Z. rewrite bpow_plus. apply Rmult_le_compat; lra. }
  set (p := fun l => f32_mul (L i l) (L k l)).
  assert (Each : forall l, (l < k)%nat -> Rabs (real L i l * real L k l) <= a * b).
  { intros l Hl. eapply Rle_trans; [|exact T].
    apply Rle_trans with (total (fun m => Rabs (real L i m * real L k m) * delta l m) (seq 0 k)).
    - rewrite (total_delta (fun m => Rabs (real L i m * real L k m))); [lra|apply seq_NoDup|apply in_seq; lia].
    - apply total_le. intros m _. pose proof (Rabs_pos (real L i m * real L k m)). unfold delta. destruct (m =? l); lra. }
  assert (Fp : forall l, (l < k)%nat -> is_finite (p l) = true /\ Rabs (B2R (p l)) <= bpow radix2 80).
  { intros l Hl. destruct (G i l) as (F1 & _); [lia|lia|]. destruct (G k l) as (F2 & _); [lia|lia|].
    assert (E80 : Rabs (B2R (L i l) * B2R (L k l)) <= bpow radix2 80) by (eapply Rle_trans; [apply (Each l Hl)|lra]).
    destruct (mul32_value (L i l) (L k l) 80) as [E F]; try assumption; [lia|].
    split; [exact F|]. unfold p. rewrite E. now apply rnd32_bound. }
  assert (Bm : Rabs (real M i k) <= a * b) by (apply entry_bound; lia).
  assert (F : is_finite (reduced order M L i k) = true).
  { pose proof (orders i k ltac:(lia)) as O.
    set (q := fun i0 => match i0 with O => M i k | S l => Bopp (p l) end).
    assert (Hq : forall l, (l < S k)%nat -> is_finite (q l) = true /\ Rabs (B2R (q l)) <= bpow radix2 80).
    { intros [|l] Hl; unfold q; [split; [exact Fm|fold (real M i k); lra]|].
      rewrite is_finite_Bopp, B2R_Bopp, Rabs_Ropp. apply Fp. lia. }
    destruct (sum32_accurate (order i k) q (fun l => B2R (q l)) (fun _ => bpow radix2 80)) as [F _]; [| |exact F].
    - intros l Hl. apply (Permutation_in _ O), in_seq in Hl. destruct (Hq l ltac:(lia)) as [F1 B1].
      split; [exact F1|]. split; [|exact B1]. replace (B2R (q l) - B2R (q l)) with 0 by ring. rewrite Rabs_R0.
      apply Rmult_le_pos; [unfold u32; lra|apply bpow_ge_0].
    - rewrite total_const, (Permutation_length O), seq_length.
      destruct (grow7 (S k)) as [_ G7]; [lia|].
      assert (I7 : INR (S k) <= 7) by (replace 7 with (INR 7) by (cbn; lra); apply le_INR; lia).
      pose proof (pos_INR (S k)). pose proof (bpow_gt_0 radix2 80).
      apply Rle_trans with (8 * bpow radix2 80 * 2).
      + apply Rmult_le_compat; [apply Rmult_le_pos; lra| |apply Rmult_le_compat_r; lra|unfold u32 in *; lra].
        apply pow_le. unfold u32. lra.
      + change (bpow radix2 127) with (bpow radix2 (4 + (43 + 80))). rewrite (bpow_plus radix2 4). change (bpow radix2 4) with 16.
        assert (bpow radix2 80 <= bpow radix2 (43 + 80)) by (apply bpow_le; lia). lra. }
  split; [exact F|]. split; [|exact T].
  destruct (minus_error (order i k) k (M i k) (fun l => L i l) (fun l => L k l)) as (_ & _ & D);
    [lia|apply orders; lia|exact F|].
  change (minus32 (order i k) (M i k) (fun l => f32_mul (L i l) (L k l))) with (reduced order M L i k) in D.
  change (total (fun l => B2R (L i l) * B2R (L k l)) (seq 0 k)) with (total (fun l => real L i l * real L k l) (seq 0 k)) in D.
  change (total (fun l => Rabs (B2R (L i l) * B2R (L k l))) (seq 0 k))
    with (total (fun l => Rabs (real L i l * real L k l)) (seq 0 k)) in D.
  change (B2R (M i k)) with (real M i k) in D.
  eapply Rle_trans; [exact D|].
  assert (T8 : 8 * bpow radix2 (-150) <= u32 * (a * b) / 1000).
  { apply tiny_small. eapply Rle_trans; [|exact Bab']. apply bpow_le. lia. }
  pose proof (bpow_gt_0 radix2 (-150)). unfold u32 in *. lra.
Qed.

Lemma good_step L k j : half_done32 n order M L k -> (j < k)%nat -> (k <= n)%nat -> good L j -> good L (S j).
Proof.
  intros H Hj Hk G.
  destruct (reduced_near L j j G ltac:(lia) (finite j j ltac:(lia))) as (Fr & Dr & Tr).
  pose proof (schur L j j G ltac:(lia)) as Rj.
  destruct H as (H1 & H2 & H3). destruct (H2 j Hj) as [Pj Ej].
  pose proof (s_square j ltac:(lia)) as Sj. pose proof (s_pos j ltac:(lia)) as Bj. cbv beta in *.
  set (b := sqrt (real M j j)) in *. pose proof (bpow_gt_0 radix2 (-40)) as P40.
  rewrite <- Sj in Rj. apply Rabs_le_inv in Dr. rewrite <- Sj in Dr.
  assert (Sq : total (fun l => real L j l * real L j l) (seq 0 j) <= b * b) by (unfold u32 in *; nra).
  assert (Sq0 : 0 <= total (fun l => real L j l * real L j l) (seq 0 j)) by (apply total_nonneg; intros; nra).
  set (piv := B2R (reduced order M L j j)) in *.
  assert (Bb : 0 < b * b) by nra.
  assert (Pv : 12 * u32 * (b * b) <= piv <= 1.01 * (b * b)) by (unfold u32 in *; lra).
  assert (Pv0 : 0 <= piv) by (unfold u32 in *; lra).
  destruct (sqrt32_value (reduced order M L j j) Fr) as [_ Fs]; [fold piv; lra|].
  assert (FL : is_finite (L j j) = true) by (rewrite Ej; exact Fs).
  destruct (root_near _ Fs Pj) as (_ & _ & PL & DL). rewrite <- Ej in PL, DL. fold piv in DL.
  change (B2R (L j j)) with (real L j j) in *. set (x := real L j j) in *.
  apply Rabs_le_inv in DL.
  assert (Bx : 11 * u32 * (b * b) <= x * x <= 1.02 * (b * b)) by (unfold u32 in *; lra).
  assert (X1 : x <= 1.01 * b) by (apply Rsqr_incr_0_var; [unfold Rsqr; lra|lra]).
  assert (X2 : / 2048 * b <= x) by (apply Rsqr_incr_0_var; [unfold Rsqr, u32 in *; lra|lra]).
  intros i m Hm Hi. destruct (Nat.eq_dec m j) as [->|]; [|apply G; lia].
  assert (Fij : is_finite (L i j) = true /\ Rabs (real L i j * x) <= 2.01 * (sqrt (real M i i) * b)).
  { destruct (Nat.eq_dec i j) as [->|N].
    - split; [exact FL|]. fold x b. rewrite Rabs_pos_eq by nra. lra.
    - rewrite (H3 i j Hj ltac:(lia)) in *. unfold real at 1. rewrite (H3 i j Hj ltac:(lia)).
      destruct (reduced_near L j i G ltac:(lia) (finite i j ltac:(lia))) as (Fi & Di & Ti).
      pose proof (entry_bound i j ltac:(lia)) as Bm. cbv beta in *. fold b in Di, Ti, Bm.
      pose proof (s_pos i ltac:(lia)) as Bi. cbv beta in Bi. set (a := sqrt (real M i i)) in *.
      assert (Ab : 0 < a * b) by (apply Rmult_lt_0_compat; lra).
      pose proof (total_abs (fun l => real L i l * real L j l) (seq 0 j)) as Ta.
      set (sij := B2R (reduced order M L i j)) in *.
      apply Rabs_le_inv in Di, Ta, Bm.
      assert (Bs : Rabs sij <= 2.001 * (a * b)) by (apply Rabs_le; unfold u32 in *; lra).
      assert (Bd : Rabs (sij / x) <= 2.001 * 2048 * a).
      { unfold Rdiv. rewrite Rabs_mult, (Rabs_pos_eq (/ x)) by (left; now apply Rinv_0_lt_compat).
        apply Rmult_le_reg_r with x; [exact PL|]. rewrite Rmult_assoc, Rinv_l, Rmult_1_r by lra.
        eapply Rle_trans; [exact Bs|].
        assert (2.001 * 2048 * a * (/ 2048 * b) <= 2.001 * 2048 * a * x) by (apply Rmult_le_compat_l; lra). lra. }
      destruct (div32_value (reduced order M L i j) (L j j) 60) as [E F]; [lia|exact Fi|change (x <> 0); lra| |].
      { change (Rabs (sij / x) <= bpow radix2 60). eapply Rle_trans; [exact Bd|].
        change 60%Z with (20 + 40)%Z. rewrite bpow_plus. change (bpow radix2 20) with 1048576. lra. }
      split; [exact F|]. rewrite E. fold sij. change (B2R (L j j)) with x.
      destruct (rnd32_rel (sij / x)) as (e & h & He & Hh & ->).
      replace ((sij / x * (1 + e) + h) * x) with (sij * (1 + e) + h * x) by (field; lra).
      assert (B1 : Rabs (sij * e) <= 2.001 * (a * b) * u32).
      { rewrite Rabs_mult. apply Rmult_le_compat; try apply Rabs_pos; assumption. }
      assert (B2 : Rabs (h * x) <= bpow radix2 (-150) * (1.01 * b)).
      { rewrite Rabs_mult. apply Rmult_le_compat; try apply Rabs_pos; [exact Hh|]. rewrite Rabs_pos_eq; lra. }
      assert (B3 : bpow radix2 (-150) * b <= bpow radix2 (-110) * (a * b)).
      { replace (bpow radix2 (-150)) with (bpow radix2 (-110) * bpow radix2 (-40)) by (rewrite <- bpow_plus; f_equal; lia).
        rewrite Rmult_assoc. apply Rmult_le_compat_l; [apply bpow_ge_0|]. apply Rmult_le_compat_r; lra. }
      assert (B4 : bpow radix2 (-110) * (a * b) <= 0.001 * (a * b)).
      { apply Rmult_le_compat_r; [lra|]. apply Rle_trans with (bpow radix2 (-10)); [apply bpow_le; lia|cbn; lra]. }
      apply Rabs_le_inv in Bs, B1, B2. apply Rabs_le. unfold u32 in *. lra. }
  destruct Fij as [Fij Bij].
  destruct (entry_error n order orders small M L k i j (conj H1 (conj H2 H3)) Hj ltac:(lia) Hk Fij FL) as (_ & _ & D).
  split; [exact Fij|]. split; [exact PL|]. eapply Rle_trans; [exact D|].
  destruct (reduced_near L j i G ltac:(lia) (finite i j ltac:(lia))) as (_ & _ & Ti).
  pose proof (entry_bound i j ltac:(lia)) as Bm. pose proof (s_pos i ltac:(lia)) as Bi. cbv beta in *. fold b in Ti, Bm |- *. fold x in D |- *.
  unfold gram_abs. rewrite total_last. fold x.
  set (a := sqrt (real M i i)) in *.
  assert (Ab : bpow radix2 (-80) <= a * b).
  { change (-80)%Z with (-40 + -40)%Z. rewrite bpow_plus. apply Rmult_le_compat; lra. }
  assert (T8 : 8 * bpow radix2 (-150) <= u32 * (a * b) / 1000).
  { apply tiny_small. eapply Rle_trans; [|exact Ab]. apply bpow_le. lia. }
  assert (T9 : x * bpow radix2 (-150) <= 1.01 * (bpow radix2 (-110) * (a * b))).
  { replace (bpow radix2 (-150)) with (bpow radix2 (-110) * bpow radix2 (-40)) by (rewrite <- bpow_plus; f_equal; lia).
    apply Rle_trans with (1.01 * b * (bpow radix2 (-110) * bpow radix2 (-40))).
    - apply Rmult_le_compat_r; [|lra]. rewrite <- bpow_plus. apply bpow_ge_0.
    - assert (bpow radix2 (-110) * (bpow radix2 (-40) * b) <= bpow radix2 (-110) * (a * b)).
      { apply Rmult_le_compat_l; [apply bpow_ge_0|]. apply Rmult_le_compat_r; lra. } lra. }
  assert (T10 : bpow radix2 (-110) * (a * b) <= u32 / 1000 * (a * b)).
  { pose proof (bpow_gt_0 radix2 (-80)). apply Rmult_le_compat_r; [lra|].
    apply Rle_trans with (bpow radix2 (-50)); [apply bpow_le; lia|]. unfold u32. cbn. lra. }
  pose proof (bpow_gt_0 radix2 (-80)). pose proof (bpow_gt_0 radix2 (-150)). unfold u32 in *. lra.
Qed.
Lemma good_all L k : half_done32 n order M L k -> (k <= n)%nat -> good L k.
Proof.
  intros H Hk. assert (G : forall j, (j <= k)%nat -> good L j).
  { induction j as [|j IH]; intros Hj; [intros i m Hm; lia|]. apply (good_step L k); [assumption|lia|assumption|apply IH; lia]. }
  now apply G.
Qed.

Lemma llt_runs : snd (llt32 n order M) = true /\
  forall i j, (j <= i < n)%nat -> is_finite (fst (llt32 n order M) i j) = true.
Proof.
  destruct (llt_cases32 n order orders M) as [[E H]|[_ (k & Hk & H & P)]].
  - split; [exact E|]. intros i j Hi. apply (good_all _ _ H); lia.
  - exfalso. set (L := fst (llt32 n order M)) in *.
    pose proof (good_all L k H ltac:(lia)) as G.
    destruct (reduced_near L k k G ltac:(lia) (finite k k ltac:(lia))) as (Fr & Dr & _).
    pose proof (schur L k k G ltac:(lia)) as Rk. pose proof (s_square k Hk) as Sk. pose proof (s_pos k Hk) as Bk. cbv beta in *.
    set (b := sqrt (real M k k)) in *. pose proof (bpow_gt_0 radix2 (-40)).
    assert (0 < b * b) by nra. rewrite <- Sk in Rk, Dr. apply Rabs_le_inv in Dr.
    assert (Pos : 0 < B2R (reduced order M L k k)) by (unfold u32 in *; lra).
    assert (C : Bleb (reduced order M L k k) (B754_zero false) = Rle_bool (B2R (reduced order M L k k)) 0).
    { now rewrite Bleb_correct by (assumption || reflexivity). }
    rewrite C, Rle_bool_false in P by lra. discriminate.
Qed.
End Runs.
