(** When Eigen's inverse in single precision is finite, and how accurate it is then. *)
From Coq Require Import ZArith Reals Lra Lia Bool List Arith.
From Flocq Require Import Core IEEE754.BinarySingleNaN.
From Verif Require Import Base Float FloatProofs DoubleThms FloatDistance FloatDistanceThms FloatWeight FloatWeightThms
  FloatUnscented FloatUnscentedThms FloatCovarianceThms FloatLlt FloatLltThms FloatLltRuns FloatLu FloatLuThms FloatSolve
  InverseSpec NormThms.
Import ListNotations.
Open Scope R_scope.

Lemma sqrt_two : 1.41 <= sqrt 2.
Proof. rewrite <- (sqrt_square 1.41) by lra. apply sqrt_le_1_alt. lra. Qed.
Lemma bpow_double k : bpow radix2 (k + 1) = 2 * bpow radix2 k.
Proof. rewrite bpow_plus. change (bpow radix2 1) with 2. ring. Qed.

Section Inverse.
Variables (n : nat) (e : Z) (M : nat -> nat -> f32) (a : R).
Hypothesis large : (2 <= n)%nat.
Hypothesis small : (n <= 6)%nat.
Hypothesis range : (-20 <= e <= 40)%Z.
Hypothesis finite_M : forall i j, (i < n)%nat -> (j < n)%nat -> is_finite (M i j) = true /\ Rabs (real M i j) <= bpow radix2 e.
Hypothesis definite : at_least a n (real M).
Hypothesis conditioned : INR n * bpow radix2 (e + Z.of_nat n - 17) <= a.

Lemma a_pos : 0 < a.
Proof.
  eapply Rlt_le_trans; [|exact conditioned]. apply Rmult_lt_0_compat; [|apply bpow_gt_0]. apply lt_0_INR. lia.
Qed.

(** ** The pivots are not small *)
Section Pivots.
Variables (lu : nat -> nat -> f32) (sigma : nat -> nat).
Hypothesis onto : forall i, (i < n)%nat -> exists r, (r < n)%nat /\ sigma r = i.
Hypothesis Dl : forall i l, (i < n)%nat -> Rabs (lower lu i l) <= 1.
Hypothesis De : forall i j, (i < n)%nat -> (j < n)%nat ->
    Rabs (real M (sigma i) j - total (fun l => lower lu i l * upper lu l j) (seq 0 n)) <= 4.02 * u32 * bpow radix2 (e + Z.of_nat i).
Lemma pivot r : (r < n)%nat -> (forall l, (l < r)%nat -> upper lu l l <> 0) -> bpow radix2 (e + Z.of_nat n - 17) <= Rabs (upper lu r r).
Proof.
  intros Hr Hl.
  destruct (back_substitution (fun j l => upper lu l j) r) with (r := fun l => upper lu l r) as [y Hy].
  { intros j l H. unfold upper. destruct (Nat.leb_spec l j); [lia|reflexivity]. }
  { exact Hl. }
  set (v := fun j => if (j <? r)%nat then y j else delta r j).
  assert (Vr : v r = 1) by (unfold v, delta; now rewrite Nat.ltb_irrefl, Nat.eqb_refl).
  assert (Vh : forall j, (r < j)%nat -> v j = 0).
  { intros j Hj. unfold v, delta. destruct (Nat.ltb_spec j r); [lia|]. destruct (Nat.eqb_spec j r); [lia|reflexivity]. }
  assert (Uv : forall l, (l < n)%nat -> total (fun j => upper lu l j * v j) (seq 0 n) = upper lu r r * delta r l).
  { intros l Hln. rewrite (split_row n small _ r Hr), Vr.
    rewrite (total_vanish _ (seq (S r) _)) by (intros j Hj; apply in_seq in Hj; rewrite Vh by lia; ring).
    destruct (lt_eq_lt_dec l r) as [[C|C]|C].
    - rewrite (total_ext _ (fun j => y j * upper lu l j)).
      2:{ intros j Hj. apply in_seq in Hj. unfold v. destruct (Nat.ltb_spec j r); [ring|lia]. }
      specialize (Hy l C). cbv beta in Hy. unfold delta. destruct (Nat.eqb_spec l r); [lia|]. lra.
    - subst l. rewrite total_vanish. { unfold delta. rewrite Nat.eqb_refl. ring. }
      intros j Hj. apply in_seq in Hj. unfold upper. destruct (Nat.leb_spec r j); [lia|ring].
    - rewrite total_vanish.
      2:{ intros j Hj. apply in_seq in Hj. unfold upper. destruct (Nat.leb_spec l j); [lia|ring]. }
      unfold delta, upper at 1. destruct (Nat.leb_spec l r); [lia|]. destruct (Nat.eqb_spec l r); [lia|ring]. }
  set (u := Rabs (upper lu r r)) in *. set (d := 2.01 * u32 * bpow radix2 (e + Z.of_nat n)).
  assert (d0 : 0 <= d) by (unfold d; pose proof (bpow_gt_0 radix2 (e + Z.of_nat n)); unfold u32; lra).
  set (S1 := total (fun j => Rabs (v j)) (seq 0 n)). assert (S0 : 0 <= S1) by (apply total_nonneg; intros; apply Rabs_pos).
  assert (u0 : 0 <= u) by apply Rabs_pos.
  assert (Mv : forall i, (i < n)%nat -> Rabs (apply n (real M) v i) <= u + d * S1).
  { intros i Hi. destruct (onto i Hi) as (k & Hk & <-).
    assert (E : apply n (real M) v (sigma k) = lower lu k r * upper lu r r
      + total (fun j => (real M (sigma k) j - total (fun l => lower lu k l * upper lu l j) (seq 0 n)) * v j) (seq 0 n)).
    { assert (Sw : total (fun j => total (fun l => lower lu k l * upper lu l j) (seq 0 n) * v j) (seq 0 n) = lower lu k r * upper lu r r).
      { transitivity (total (fun j => total (fun l => lower lu k l * (upper lu l j * v j)) (seq 0 n)) (seq 0 n)).
        - apply total_ext. intros j _. rewrite Rmult_comm, <- total_scale. apply total_ext. intros l _. ring.
        - rewrite total_swap. rewrite (total_ext _ (fun l => (lower lu k l * upper lu r r) * delta r l)).
          + rewrite total_delta; [reflexivity|apply seq_NoDup|apply in_seq; lia].
          + intros l Hln. apply in_seq in Hln. rewrite total_scale, Uv by lia. ring. }
      rewrite <- Sw, <- total_plus. unfold apply. apply total_ext. intros j _. ring. }
    rewrite E. eapply Rle_trans; [apply Rabs_triang|]. apply Rplus_le_compat.
    - rewrite Rabs_mult. fold u. apply Rle_trans with (1 * u); [apply Rmult_le_compat_r; [exact u0|now apply Dl]|lra].
    - eapply Rle_trans; [apply total_abs|]. unfold S1. rewrite <- total_scale. apply total_le. intros j Hj. apply in_seq in Hj.
      rewrite Rabs_mult. apply Rmult_le_compat_r; [apply Rabs_pos|]. eapply Rle_trans; [apply De; lia|].
      unfold d. apply Rle_trans with (4.02 * u32 * bpow radix2 (e + Z.of_nat n - 1)).
      + apply Rmult_le_compat_l; [unfold u32; lra|]. apply bpow_le. lia.
      + replace (e + Z.of_nat n)%Z with (e + Z.of_nat n - 1 + 1)%Z at 2 by lia. rewrite bpow_double. lra. }
  pose proof (at_least_norm n a (real M) v definite) as A.
  pose proof (norm_bound n (apply n (real M) v) (u + d * S1)) as B. specialize (B ltac:(assert (0 <= d * S1) by (now apply Rmult_le_pos); lra) Mv).
  assert (N1 : 1 <= norm n v). { pose proof (norm_coordinate n v r Hr) as C. rewrite Vr, Rabs_R1 in C. exact C. }
  pose proof (norm_sum n v) as NS. fold S1 in NS. set (s := sqrt (INR n)) in *.
  assert (s2 : 1.41 <= s). { eapply Rle_trans; [apply sqrt_two|]. apply sqrt_le_1_alt. change 2 with (INR 2). apply le_INR. lia. }
  assert (ss : s * s = INR n) by (apply sqrt_sqrt, pos_INR).
  set (N := norm n v) in *. set (f := bpow radix2 (e + Z.of_nat n - 17)) in *.
  assert (f0 : 0 < f) by apply bpow_gt_0.
  assert (Ed : d = 2.01 / 128 * f).
  { unfold d, f. replace (e + Z.of_nat n)%Z with (e + Z.of_nat n - 17 + 17)%Z at 1 by lia. rewrite bpow_plus.
    change (bpow radix2 17) with 131072. unfold u32. lra. }
  assert (H1 : a * N <= s * u + INR n * d * N).
  { eapply Rle_trans; [exact A|]. eapply Rle_trans; [exact B|]. rewrite Rmult_plus_distr_l. apply Rplus_le_compat_l.
    rewrite <- ss. replace (s * s * d * N) with (s * (d * (s * N))) by ring. apply Rmult_le_compat_l; [lra|].
    apply Rmult_le_compat_l; [exact d0|exact NS]. }
  assert (H2 : INR n * f * (1 - 2.01 / 128) * N <= s * u).
  { assert (INR n * f * N <= a * N) by (apply Rmult_le_compat_r; lra). rewrite Ed in H1. lra. }
  assert (H3 : INR n * f * (1 - 2.01 / 128) <= s * u).
  { eapply Rle_trans; [|exact H2]. assert (0 <= INR n * f * (1 - 2.01 / 128)).
    { apply Rmult_le_pos; [|lra]. apply Rmult_le_pos; [apply pos_INR|lra]. } nra. }
  rewrite <- ss in H3. assert (H4 : s * f * (1 - 2.01 / 128) <= u).
  { apply Rmult_le_reg_l with s; [lra|]. lra. }
  assert (1.41 * f <= s * f) by (apply Rmult_le_compat_r; lra). lra.
Qed.
Lemma pivots r : (r < n)%nat -> bpow radix2 (e + Z.of_nat n - 17) <= Rabs (upper lu r r).
Proof.
  induction r as [r IH] using lt_wf_ind. intros Hr. apply pivot; [exact Hr|]. intros l Hl E.
  specialize (IH l Hl ltac:(lia)). rewrite E, Rabs_R0 in IH. pose proof (bpow_gt_0 radix2 (e + Z.of_nat n - 17)). lra.
Qed.
End Pivots.

(** ** The inverse is finite *)
Lemma lower_finite (lu : nat -> nat -> f32) (rhs y : nat -> f32) :
  (forall i j, (i < n)%nat -> (j < n)%nat -> is_finite (lu i j) = true) ->
  (forall i l, (i < n)%nat -> Rabs (lower lu i l) <= 1) ->
  (forall r, (r < n)%nat -> is_finite (rhs r) = true /\ Rabs (B2R (rhs r)) <= 1) ->
  (forall r, (r < n)%nat -> y r = minus32 (chain r) (rhs r) (fun l => f32_mul (y l) (lu r l))) ->
  forall r, (r < n)%nat -> is_finite (y r) = true /\ Rabs (B2R (y r)) <= bpow radix2 (Z.of_nat r).
Proof.
  intros Df Dl Hb Hy r. induction r as [r IH] using lt_wf_ind. intros Hr. rewrite (Hy r Hr).
  assert (G : forall t, (t <= r)%nat -> let s := minus32 (chain t) (rhs r) (fun l => f32_mul (y l) (lu r l)) in
    is_finite s = true /\ Rabs (B2R s) <= bpow radix2 (Z.of_nat t)).
  { induction t as [|t IHt]; intros Ht.
    - destruct (Hb r Hr). cbv zeta. split; [assumption|]. exact H0.
    - destruct (IHt ltac:(lia)) as [F1 B1]. cbv zeta. rewrite chain_next.
      set (s := minus32 (chain t) _ _) in *. destruct (IH t ltac:(lia) ltac:(lia)) as [F2 B2].
      assert (L : Rabs (B2R (lu r t)) <= 1).
      { specialize (Dl r t Hr). unfold lower in Dl. destruct (Nat.ltb_spec t r); [exact Dl|lia]. }
      destruct (mul_small (y t) (lu r t) (Z.of_nat t)) as (F3 & _ & B3); [lia|exact F2|apply Df; lia| |].
      { rewrite Rabs_mult. pose proof (Rabs_pos (B2R (y t))). pose proof (Rabs_pos (B2R (lu r t))). nra. }
      destruct (sub_small s (f32_mul (y t) (lu r t)) (Z.of_nat (S t))) as (F4 & _ & B4); [lia|exact F1|exact F3| |].
      { replace (Z.of_nat (S t)) with (Z.of_nat t + 1)%Z by lia. rewrite bpow_double. unfold Rminus.
        eapply Rle_trans; [apply Rabs_triang|]. rewrite Rabs_Ropp. lra. }
      split; [exact F4|exact B4]. }
  apply G. lia.
Qed.

Lemma upper_finite (lu : nat -> nat -> f32) (y x : nat -> f32) :
  (forall i j, (i < n)%nat -> (j < n)%nat -> is_finite (lu i j) = true) ->
  (forall l j, (l < n)%nat -> (j < n)%nat -> Rabs (upper lu l j) <= bpow radix2 (e + Z.of_nat l)) ->
  (forall r, (r < n)%nat -> bpow radix2 (e + Z.of_nat n - 17) <= Rabs (upper lu r r)) ->
  (forall r, (r < n)%nat -> is_finite (y r) = true /\ Rabs (B2R (y r)) <= bpow radix2 (Z.of_nat r)) ->
  (forall r, (r < n)%nat -> x r = f32_mul (above n lu y x (n - 1 - r) r) (reciprocal lu r)) ->
  forall m, (m < n)%nat -> is_finite (x (n - 1 - m)%nat) = true /\ Rabs (B2R (x (n - 1 - m)%nat)) <= bpow radix2 (17 * (Z.of_nat m + 1) - e).
Proof.
  intros Df Du Dp Hy Hx m. induction m as [m IH] using lt_wf_ind. intros Hm.
  set (r := (n - 1 - m)%nat). assert (Hr : (r < n)%nat) by (unfold r; lia). rewrite (Hx r Hr).
  replace (n - 1 - r)%nat with m by (unfold r; lia).
  assert (G : forall t, (t <= m)%nat -> let s := above n lu y x t r in
    is_finite s = true /\ Rabs (B2R s) <= bpow radix2 (Z.of_nat r + 17 * Z.of_nat t + 1)).
  { induction t as [|t IHt]; intros Ht.
    - destruct (Hy r Hr) as [F B]. cbv zeta. split; [exact F|]. eapply Rle_trans; [exact B|]. apply bpow_le. lia.
    - destruct (IHt ltac:(lia)) as [F1 B1]. cbv zeta. unfold above. rewrite chain_next. fold (above n lu y x t r).
      set (s := above n lu y x t r) in *. set (c := (n - 1 - t)%nat). destruct (IH t ltac:(lia) ltac:(lia)) as [F2 B2]. fold c in F2, B2.
      assert (L : Rabs (B2R (lu r c)) <= bpow radix2 (e + Z.of_nat r)).
      { specialize (Du r c Hr ltac:(unfold c; lia)). unfold upper in Du. destruct (Nat.leb_spec r c); [exact Du|unfold r, c in *; lia]. }
      destruct (mul_small (x c) (lu r c) (Z.of_nat r + 17 * (Z.of_nat t + 1))) as (F3 & _ & B3); [unfold r; lia|exact F2|apply Df; unfold c; lia| |].
      { rewrite Rabs_mult. replace (Z.of_nat r + 17 * (Z.of_nat t + 1))%Z with ((17 * (Z.of_nat t + 1) - e) + (e + Z.of_nat r))%Z by lia.
        rewrite bpow_plus. apply Rmult_le_compat; try apply Rabs_pos; assumption. }
      destruct (sub_small s (f32_mul (x c) (lu r c)) (Z.of_nat r + 17 * Z.of_nat (S t) + 1)) as (F4 & _ & B4); [unfold r; lia|exact F1|exact F3| |].
      { replace (17 * Z.of_nat (S t))%Z with (17 * (Z.of_nat t + 1))%Z by lia. rewrite bpow_double. unfold Rminus.
        eapply Rle_trans; [apply Rabs_triang|]. rewrite Rabs_Ropp.
        assert (bpow radix2 (Z.of_nat r + 17 * Z.of_nat t + 1) <= bpow radix2 (Z.of_nat r + 17 * (Z.of_nat t + 1))) by (apply bpow_le; lia). lra. }
      split; [exact F4|exact B4]. }
  destruct (G m ltac:(lia)) as [F1 B1]. set (s := above n lu y x m r) in *.
  specialize (Dp r Hr). unfold upper in Dp. rewrite Nat.leb_refl in Dp. pose proof (bpow_gt_0 radix2 (e + Z.of_nat n - 17)) as f0.
  assert (N0 : B2R (lu r r) <> 0). { intros E. unfold real in Dp. rewrite E, Rabs_R0 in Dp. lra. }
  destruct (int32_value 1 ltac:(lia)) as [E1 Fo].
  destruct (div_small (f32_of_Z 1) (lu r r) (17 - Z.of_nat n - e)) as (F2 & _ & B2); [lia|exact Fo|exact N0| |].
  { rewrite E1. unfold Rdiv. rewrite Rmult_1_l, Rabs_inv. replace (17 - Z.of_nat n - e)%Z with (- (e + Z.of_nat n - 17))%Z by lia.
    rewrite bpow_opp. apply Rinv_le_contravar; [exact f0|exact Dp]. }
  fold (reciprocal lu r) in F2, B2.
  destruct (mul_small s (reciprocal lu r) (17 * (Z.of_nat m + 1) - e)) as (F3 & _ & B3); [lia|exact F1|exact F2| |].
  { rewrite Rabs_mult. apply Rle_trans with (bpow radix2 (Z.of_nat r + 17 * Z.of_nat m + 1) * bpow radix2 (17 - Z.of_nat n - e)).
    - apply Rmult_le_compat; try apply Rabs_pos; assumption.
    - rewrite <- bpow_plus. apply bpow_le. unfold r. lia. }
  split; [exact F3|exact B3].
Qed.

Lemma inverse_finite k j : (k < n)%nat -> is_finite (inverse32 n M k j) = true.
Proof.
  intros Hk.
  destruct (decomposition n e M small ltac:(lia)) as (sigma & [_ Sur] & P & Df & Dl & Du & De).
  { intros i' j' Hi Hj. destruct (finite_M i' j' Hi Hj). rewrite Z.add_0_r. now split. }
  set (lu := fst (partial_lu32 n M)) in *.
  replace (inverse32 n M k j) with (solve32 n lu (fun r => permute_rows (snd (partial_lu32 n M)) identity32 r j) k).
  2:{ unfold inverse32, lu. destruct (partial_lu32 n M). reflexivity. }
  destruct (solve_spec n lu small (fun r => permute_rows (snd (partial_lu32 n M)) identity32 r j)) as (y & Y1 & Y2).
  set (x := solve32 n lu _) in *. cbv zeta in Y1, Y2.
  assert (Yf := fun H => lower_finite lu _ y Df Dl H Y1). cbv beta in Yf.
  assert (Yb : forall r, (r < n)%nat -> is_finite (y r) = true /\ Rabs (B2R (y r)) <= bpow radix2 (Z.of_nat r)).
  { apply Yf. intros r Hr. rewrite P. unfold identity32.
    destruct (sigma r =? j)%nat; [destruct (int32_value 1 ltac:(lia)) as [-> F]|destruct (int32_value 0 ltac:(lia)) as [-> F]];
      (split; [exact F|rewrite ?Rabs_R1, ?Rabs_R0; lra]). }
  replace k with (n - 1 - (n - 1 - k))%nat by lia.
  apply (upper_finite lu y x Df Du); [|exact Yb|exact Y2|lia].
  intros r Hr. apply (pivots lu sigma); assumption.
Qed.

(** ** The error *)
Lemma inverse_error Y j : (j < n)%nat -> inverse_of n (real M) Y ->
  norm n (fun k => real (inverse32 n M) k j - Y k j) <= 1.4 * (INR n * bpow radix2 (e + Z.of_nat n - 19) / a) * norm n (fun k => Y k j).
Proof.
  intros Hj HY. set (X := inverse32 n M).
  assert (R := residual n e M j small ltac:(lia) finite_M (fun k Hk => inverse_finite k j Hk)). cbv zeta in R. fold X in R.
  set (d := bpow radix2 (e + Z.of_nat n - 19)) in *. set (S1 := total (fun k => Rabs (real X k j)) (seq 0 n)) in *.
  set (ny := norm n (fun k => Y k j)). set (nx := norm n (fun k => real X k j)). set (nd := norm n (fun k => real X k j - Y k j)).
  assert (d0 : 0 < d) by apply bpow_gt_0. assert (t0 := bpow_gt_0 radix2 (-80)). set (tau := bpow radix2 (-80)) in *.
  assert (nd0 : 0 <= nd) by apply norm_pos. assert (ny0 : 0 <= ny) by apply norm_pos.
  assert (S0 : 0 <= S1) by (apply total_nonneg; intros; apply Rabs_pos).
  assert (HX : S1 <= sqrt (INR n) * nx) by apply norm_sum.
  set (s := sqrt (INR n)) in *. assert (ss : s * s = INR n) by (apply sqrt_sqrt, pos_INR). assert (s0 : 0 <= s) by apply sqrt_pos.
  assert (Tri : nx <= ny + nd).
  { eapply Rle_trans; [|apply norm_triangle]. apply Req_le, norm_ext. intros i _. ring. }
  assert (A : a * nd <= INR n * d * nx + s * tau).
  { eapply Rle_trans; [exact (at_least_norm n a (real M) _ definite)|].
    eapply Rle_trans.
    - apply norm_bound with (c := d * S1 + tau); [assert (0 <= d * S1) by (apply Rmult_le_pos; lra); lra|].
      intros i Hi. rewrite apply_sub, (HY i j Hi Hj). specialize (R i Hi).
      replace (unit_entry i j) with (delta i j) by (unfold unit_entry, delta; now rewrite Nat.eqb_sym). exact R.
    - fold s. rewrite Rmult_plus_distr_l. apply Rplus_le_compat_r. rewrite <- ss.
      replace (s * s * d * nx) with (s * (d * (s * nx))) by ring. apply Rmult_le_compat_l; [exact s0|]. apply Rmult_le_compat_l; [lra|exact HX]. }
  assert (NY : 1 <= INR n * bpow radix2 e * ny).
  { rewrite <- (norm_unit n j Hj). eapply Rle_trans; [|apply (apply_bound n (real M) (fun k => Y k j)); [apply bpow_ge_0|]].
    - apply Req_le, norm_ext. intros i Hi. symmetry. now apply HY.
    - intros i k Hi Hk. now apply finite_M. }
  assert (E : d = bpow radix2 e * bpow radix2 (Z.of_nat n - 19)).
  { unfold d. rewrite <- bpow_plus. f_equal. lia. }
  assert (T : s * tau <= INR n * d * ny / 1000).
  { assert (T1 : bpow radix2 (-19) <= INR n * d * ny).
    { rewrite E. replace (INR n * (bpow radix2 e * bpow radix2 (Z.of_nat n - 19)) * ny) with (INR n * bpow radix2 e * ny * bpow radix2 (Z.of_nat n - 19)) by ring.
      apply Rle_trans with (1 * bpow radix2 (Z.of_nat n - 19)); [rewrite Rmult_1_l; apply bpow_le; lia|].
      apply Rmult_le_compat_r; [apply bpow_ge_0|exact NY]. }
    assert (T2 : s <= 6).
    { assert (INR n <= 6) by (rewrite INR_IZR_INZ; apply IZR_le; lia). nra. }
    assert (T3 : tau <= bpow radix2 (-19) / 10000).
    { unfold tau. apply Rle_trans with (bpow radix2 (-40)); [apply bpow_le; lia|].
      change (-40)%Z with (-21 + -19)%Z. rewrite bpow_plus. change (bpow radix2 (-21)) with (/ 2097152). pose proof (bpow_gt_0 radix2 (-19)). lra. }
    apply Rle_trans with (6 * tau); [apply Rmult_le_compat_r; lra|]. lra. }
  assert (C4 : 4 * (INR n * d) <= a).
  { eapply Rle_trans; [|exact conditioned]. replace (e + Z.of_nat n - 17)%Z with (2 + (e + Z.of_nat n - 19))%Z by lia.
    rewrite bpow_plus. fold d. change (bpow radix2 2) with 4. lra. }
  assert (nd' : 0 <= INR n * d) by (apply Rmult_le_pos; [apply pos_INR|lra]). set (q := INR n * d) in *.
  pose proof a_pos as a0.
  assert (F : a * nd <= 1.4 * q * ny).
  { assert (q * nx <= q * (ny + nd)) by (apply Rmult_le_compat_l; lra).
    assert (4 * q * nd <= a * nd) by (apply Rmult_le_compat_r; lra).
    assert (0 <= q * ny) by (apply Rmult_le_pos; lra). lra. }
  apply Rmult_le_reg_l with a; [exact a0|]. replace (a * (1.4 * (q / a) * ny)) with (1.4 * q * ny) by (field; lra). exact F.
Qed.
End Inverse.

(** ** Singular matrices *)
Lemma singular_inverse n e M z : (n <= 6)%nat -> (-60 <= e <= 60)%Z ->
  (forall i j, (i < n)%nat -> (j < n)%nat -> is_finite (M i j) = true /\ Rabs (real M i j) <= bpow radix2 e) ->
  (exists i, (i < n)%nat /\ z i <> 0) ->
  (forall j, (j < n)%nat -> total (fun i => z i * real M i j) (seq 0 n) = 0) ->
  exists k j, (k < n)%nat /\ (j < n)%nat /\
    (is_finite (inverse32 n M k j) = false \/ bpow radix2 (12 - Z.of_nat n - e) <= Rabs (real (inverse32 n M) k j)).
Proof.
  intros Hn He HM (i0 & Hi0 & Hz0) HS.
  (* the largest coordinate *)
  assert (Mx : forall m, (0 < m <= n)%nat -> exists j, (j < m)%nat /\ forall i, (i < m)%nat -> Rabs (z i) <= Rabs (z j)).
  { induction m as [|m IH]; intros Hm; [lia|]. destruct (Nat.eq_dec m 0) as [->|N].
    - exists 0%nat. split; [lia|]. intros i Hi. replace i with 0%nat by lia. lra.
    - destruct IH as (j & Hj & B); [lia|]. destruct (Rle_lt_dec (Rabs (z m)) (Rabs (z j))) as [C|C].
      + exists j. split; [lia|]. intros i Hi. destruct (Nat.eq_dec i m) as [->|]; [exact C|apply B; lia].
      + exists m. split; [lia|]. intros i Hi. destruct (Nat.eq_dec i m) as [->|]; [lra|]. specialize (B i ltac:(lia)). lra. }
  destruct (Mx n ltac:(lia)) as (j & Hj & B). clear Mx.
  set (X := inverse32 n M).
  destruct (Forall_dec (fun k => is_finite (X k j) = true) (fun k => Bool.bool_dec _ _) (seq 0 n)) as [F|F].
  2:{ apply Exists_Forall_neg in F; [|intros k; destruct (is_finite (X k j)); [left|right]; congruence].
      apply Exists_exists in F. destruct F as (k & Hk & F). apply in_seq in Hk. exists k, j. split; [lia|]. split; [exact Hj|]. left.
      apply not_true_is_false. exact F. }
  destruct (Forall_dec (fun k => Rabs (real X k j) < bpow radix2 (12 - Z.of_nat n - e)) (fun k => Rlt_dec _ _) (seq 0 n)) as [G|G].
  2:{ apply Exists_Forall_neg in G; [|intros k; destruct (Rlt_dec (Rabs (real X k j)) (bpow radix2 (12 - Z.of_nat n - e))); [now left|now right]].
      apply Exists_exists in G. destruct G as (k & Hk & G). apply in_seq in Hk. exists k, j. split; [lia|]. split; [exact Hj|]. right.
      apply Rnot_lt_le, G. }
  exfalso. rewrite Forall_forall in F, G.
  assert (R := residual n e M j Hn He HM (fun k Hk => F k (proj2 (in_seq n 0 k) ltac:(lia)))). cbv zeta in R. fold X in R.
  set (d := bpow radix2 (e + Z.of_nat n - 19)) in *. set (S1 := total (fun k => Rabs (real X k j)) (seq 0 n)) in *.
  assert (d0 : 0 < d) by apply bpow_gt_0.
  assert (I6 : INR n <= 6) by (rewrite INR_IZR_INZ; apply IZR_le; lia).
  assert (SB : d * S1 <= 6 / 128).
  { apply Rle_trans with (d * (6 * bpow radix2 (12 - Z.of_nat n - e))).
    - apply Rmult_le_compat_l; [lra|]. unfold S1. eapply Rle_trans; [apply total_le; intros k Hk; apply Rlt_le, G; exact Hk|].
      rewrite total_const, seq_length. apply Rmult_le_compat_r; [apply bpow_ge_0|exact I6].
    - replace (d * (6 * bpow radix2 (12 - Z.of_nat n - e))) with (6 * (d * bpow radix2 (12 - Z.of_nat n - e))) by ring.
      unfold d. rewrite <- bpow_plus. replace (e + Z.of_nat n - 19 + (12 - Z.of_nat n - e))%Z with (-7)%Z by lia.
      change (bpow radix2 (-7)) with (/ 128). lra. }
  assert (T : bpow radix2 (-80) <= / 1024) by (change (/ 1024) with (bpow radix2 (-10)); apply bpow_le; lia).
  assert (Z1 : z j = - total (fun i => z i * (total (fun k => real M i k * real X k j) (seq 0 n) - delta i j)) (seq 0 n)).
  { rewrite (total_ext _ (fun i => z i * total (fun k => real M i k * real X k j) (seq 0 n) - z i * delta j i)).
    2:{ intros i _. replace (delta i j) with (delta j i) by (unfold delta; now rewrite Nat.eqb_sym). ring. }
    rewrite total_minus, total_delta; [|apply seq_NoDup|apply in_seq; lia].
    assert (Z0 : total (fun i => z i * total (fun k => real M i k * real X k j) (seq 0 n)) (seq 0 n) = 0).
    { transitivity (total (fun i => total (fun k => real X k j * (z i * real M i k)) (seq 0 n)) (seq 0 n)).
      - apply total_ext. intros i _. rewrite <- total_scale. apply total_ext. intros k _. ring.
      - rewrite total_swap. apply total_vanish. intros k Hk. apply in_seq in Hk. rewrite total_scale, HS by lia. ring. }
    rewrite Z0. ring. }
  assert (Zp : 0 < Rabs (z j)). { specialize (B i0 Hi0). assert (0 < Rabs (z i0)) by now apply Rabs_pos_lt. lra. }
  assert (Zb : Rabs (z j) <= INR n * (Rabs (z j) * (d * S1 + bpow radix2 (-80)))).
  { rewrite Z1 at 1. rewrite Rabs_Ropp. eapply Rle_trans; [apply total_abs|].
    apply Rle_trans with (total (fun _ => Rabs (z j) * (d * S1 + bpow radix2 (-80))) (seq 0 n)).
    - apply total_le. intros i Hi. apply in_seq in Hi. rewrite Rabs_mult. apply Rmult_le_compat; try apply Rabs_pos; [apply B; lia|apply R; lia].
    - rewrite total_const, seq_length. apply Rle_refl. }
  assert (0 <= d * S1) by (apply Rmult_le_pos; [lra|apply total_nonneg; intros; apply Rabs_pos]).
  assert (INR n * (Rabs (z j) * (d * S1 + bpow radix2 (-80))) <= 6 * (Rabs (z j) * (6 / 128 + / 1024))).
  { apply Rmult_le_compat; [apply pos_INR| |exact I6|].
    - apply Rmult_le_pos; [lra|]. pose proof (bpow_gt_0 radix2 (-80)). lra.
    - apply Rmult_le_compat_l; [lra|lra]. }
  lra.
Qed.
