(** How accurate the triangular systems are solved in single precision, and what this says
    about Eigen's inverse. *)
From Coq Require Import ZArith Reals Lra Lia Bool List Arith Permutation.
From Flocq Require Import Core IEEE754.BinarySingleNaN.
From Verif Require Import Base Float FloatProofs DoubleThms FloatDistance FloatDistanceThms FloatWeight FloatWeightThms
  FloatUnscented FloatUnscentedThms FloatCovarianceThms FloatLlt FloatLltThms FloatLltRuns FloatLu FloatLuThms.
Import ListNotations.
Open Scope R_scope.

(** Adding up from left to right *)
Fixpoint chain (k : nat) : tree := match k with O => Leaf 0 | S k' => Node (chain k') (Leaf k) end.
Lemma chain_order k : order_of (S k) (chain k).
Proof.
  unfold order_of. induction k as [|k IH]; [reflexivity|]. rewrite seq_S. cbn [leaves chain]. apply Permutation_app; [exact IH|reflexivity].
Qed.
Lemma chain_next m a p : minus32 (chain (S m)) a p = f32_sub (minus32 (chain m) a p) (p m).
Proof.
  transitivity (f32_add (minus32 (chain m) a p) (Bopp (p m))); [reflexivity|].
  destruct (minus32 (chain m) a p), (p m); reflexivity.
Qed.

Section Solve.
Variables (n : nat) (lu : nat -> nat -> f32).
Hypothesis small : (n <= 6)%nat.
Hypothesis lu_finite : forall i j, (i < n)%nat -> (j < n)%nat -> is_finite (lu i j) = true.

(** ** What the loops compute *)
Lemma lower_loop (rhs : nat -> f32) : forall m k x, (k + m = n)%nat ->
  (forall r, (r < n)%nat -> x r = minus32 (chain (min r k)) (rhs r) (fun l => f32_mul (x l) (lu r l))) ->
  let y := fold_left (lower_step32 lu) (seq k m) x in
  forall r, (r < n)%nat -> y r = minus32 (chain r) (rhs r) (fun l => f32_mul (y l) (lu r l)).
Proof.
  induction m as [|m IH]; intros k x Hkm H; cbn [seq fold_left].
  - intros r Hr. cbv zeta. rewrite (H r Hr) at 1. now replace (min r k) with r by lia.
  - apply IH; [lia|]. intros r Hr. unfold lower_step32 at 1. destruct (Nat.ltb_spec k r) as [L|L].
    + replace (min r (S k)) with (S k) by lia. rewrite chain_next. f_equal.
      * rewrite (H r Hr). replace (min r k) with k by lia. apply minus_ext with (m := k); [apply chain_order|].
        intros l Hl. unfold lower_step32. destruct (Nat.ltb_spec k l); [lia|reflexivity].
      * unfold lower_step32. now rewrite Nat.ltb_irrefl.
    + rewrite (H r Hr). replace (min r (S k)) with r by lia. replace (min r k) with r by lia.
      apply minus_ext with (m := r); [apply chain_order|].
      intros l Hl. unfold lower_step32. destruct (Nat.ltb_spec k l); [lia|reflexivity].
Qed.
Definition reciprocal (i : nat) : f32 := f32_div (f32_of_Z 1) (lu i i).
Definition above (y x : nat -> f32) (m r : nat) : f32 :=
  minus32 (chain m) (y r) (fun l => f32_mul (x (n - 1 - l)%nat) (lu r (n - 1 - l)%nat)).
Lemma upper_loop (y : nat -> f32) : forall k z, (k <= n)%nat ->
  (forall r, (r < k)%nat -> z r = above y z (n - k) r) ->
  (forall r, (k <= r < n)%nat -> z r = f32_mul (above y z (n - 1 - r) r) (reciprocal r)) ->
  let x := fold_left (upper_step32 lu) (rev (seq 0 k)) z in
  forall r, (r < n)%nat -> x r = f32_mul (above y x (n - 1 - r) r) (reciprocal r).
Proof.
  induction k as [|k IH]; intros z Hk H1 H2.
  - cbn [seq rev fold_left]. intros r Hr. apply H2. lia.
  - rewrite seq_S, rev_app_distr. cbn [Nat.add rev app fold_left]. set (z' := upper_step32 lu z k).
    assert (Zk : z' k = f32_mul (z k) (reciprocal k)) by (unfold z', upper_step32; now rewrite Nat.eqb_refl).
    assert (Zh : forall r, (k < r)%nat -> z' r = z r).
    { intros r Hr. unfold z', upper_step32. destruct (Nat.eqb_spec r k); [lia|]. destruct (Nat.ltb_spec r k); [lia|reflexivity]. }
    assert (Zl : forall r, (r < k)%nat -> z' r = f32_sub (z r) (f32_mul (z' k) (lu r k))).
    { intros r Hr. rewrite Zk. unfold z', upper_step32. destruct (Nat.eqb_spec r k); [lia|]. destruct (Nat.ltb_spec r k); [reflexivity|lia]. }
    assert (A : forall m r, (m <= n - 1 - k)%nat -> above y z' m r = above y z m r).
    { intros m r Hm. apply minus_ext with (m := m); [apply chain_order|]. intros l Hl. rewrite Zh by lia. reflexivity. }
    apply IH; [lia| |].
    + intros r Hr. rewrite Zl, H1 by lia. replace (n - k)%nat with (S (n - S k)) by lia. unfold above at 2. rewrite chain_next.
      f_equal; [symmetry; apply A; lia|]. replace (n - 1 - (n - S k))%nat with k by lia. reflexivity.
    + intros r Hr. destruct (Nat.eq_dec r k) as [-> | N].
      * rewrite Zk, H1, A by lia. now replace (n - S k)%nat with (n - 1 - k)%nat by lia.
      * rewrite Zh, H2, A by lia. reflexivity.
Qed.
Lemma solve_spec rhs : exists y, let x := solve32 n lu rhs in
  (forall r, (r < n)%nat -> y r = minus32 (chain r) (rhs r) (fun l => f32_mul (y l) (lu r l))) /\
  (forall r, (r < n)%nat -> x r = f32_mul (above y x (n - 1 - r) r) (reciprocal r)).
Proof.
  exists (fold_left (lower_step32 lu) (seq 0 n) rhs). split.
  - apply lower_loop; [reflexivity|]. intros r _. now rewrite Nat.min_0_r.
  - apply upper_loop; [lia| |intros; lia]. intros r Hr. rewrite Nat.sub_diag. reflexivity.
Qed.

(** ** Their errors *)
Lemma total_down f m : (m <= n)%nat -> total (fun l => f (n - 1 - l)%nat) (seq 0 m) = total f (seq (n - m) m).
Proof.
  induction m as [|m IH]; intros Hm; [reflexivity|]. rewrite total_last, IH by lia.
  replace (n - m)%nat with (S (n - S m)) by lia. cbn [seq total]. replace (n - 1 - m)%nat with (n - S m)%nat by lia. ring.
Qed.
Lemma split_row f r : (r < n)%nat -> total f (seq 0 n) = total f (seq 0 r) + f r + total f (seq (S r) (n - 1 - r)).
Proof.
  intros Hr. replace n with (r + S (n - 1 - r))%nat at 1 by lia. rewrite seq_app, total_app. cbn [Nat.add seq total]. ring.
Qed.
Lemma total_vanish f l : (forall i, In i l -> f i = 0) -> total f l = 0.
Proof. intros H. rewrite (total_ext _ (fun _ => 0)) by exact H. rewrite total_const. ring. Qed.

Lemma lower_error rhs y r : (r < n)%nat ->
  y r = minus32 (chain r) (rhs r) (fun l => f32_mul (y l) (lu r l)) -> is_finite (y r) = true ->
  Rabs (B2R (rhs r) - total (fun l => lower lu r l * B2R (y l)) (seq 0 n))
    <= 15.01 * u32 * total (fun l => Rabs (lower lu r l) * Rabs (B2R (y l))) (seq 0 n) + 7.01 * tiny.
Proof.
  intros Hr E F. rewrite E in F.
  destruct (minus_error (chain r) r (rhs r) y (fun l => lu r l)) as (_ & _ & D); [lia|apply chain_order|exact F|].
  rewrite <- E in D.
  assert (Lr : lower lu r r = 1) by (unfold lower; now rewrite Nat.ltb_irrefl, Nat.eqb_refl).
  assert (Ll : forall l, (l < r)%nat -> lower lu r l = B2R (lu r l)) by (intros l Hl; unfold lower; destruct (Nat.ltb_spec l r); [reflexivity|lia]).
  assert (Lh : forall l, (r < l)%nat -> lower lu r l = 0).
  { intros l Hl. unfold lower. destruct (Nat.ltb_spec l r); [lia|]. destruct (Nat.eqb_spec l r); [lia|reflexivity]. }
  rewrite !(split_row _ r Hr), Lr, Rabs_R1.
  rewrite (total_vanish _ (seq (S r) _)) by (intros l Hl; apply in_seq in Hl; rewrite Lh by lia; ring).
  rewrite (total_vanish (fun l => Rabs _ * _) (seq (S r) _)) by (intros l Hl; apply in_seq in Hl; rewrite Lh, Rabs_R0 by lia; ring).
  rewrite (total_ext (fun l => lower lu r l * B2R (y l)) (fun l => B2R (y l) * B2R (lu r l)) (seq 0 r))
    by (intros l Hl; apply in_seq in Hl; rewrite Ll by lia; ring).
  rewrite (total_ext (fun l => Rabs (lower lu r l) * Rabs (B2R (y l))) (fun l => Rabs (B2R (y l) * B2R (lu r l))) (seq 0 r))
    by (intros l Hl; apply in_seq in Hl; rewrite Ll, Rabs_mult by lia; ring).
  set (T := total (fun l => Rabs _) (seq 0 r)) in *. set (Q := total (fun l => B2R (y l) * B2R (lu r l)) (seq 0 r)) in *.
  assert (T0 : 0 <= T) by (apply total_nonneg; intros; apply Rabs_pos).
  assert (QT : Rabs Q <= T) by apply total_abs.
  set (b := B2R (rhs r)) in *. set (v := B2R (y r)) in *. pose proof (bpow_gt_0 radix2 (-150)) as P0.
  pose proof (Rabs_pos b). pose proof (Rabs_pos v).
  assert (B : Rabs b <= Rabs v + T + Rabs (v - (b - Q))).
  { unfold Rabs in *. destruct (Rcase_abs b), (Rcase_abs v), (Rcase_abs Q), (Rcase_abs (v - (b - Q))); lra. }
  replace (b - (Q + 1 * v + 0)) with (- (v - (b - Q))) by ring. rewrite Rabs_Ropp.
  set (d := Rabs (v - (b - Q))) in *. assert (0 <= d) by apply Rabs_pos. unfold u32 in *. lra.
Qed.

Lemma reciprocal_spec r : (r < n)%nat -> is_finite (reciprocal r) = true -> Rabs (real lu r r) <= bpow radix2 100 ->
  real lu r r <> 0 /\ exists e1, Rabs e1 <= u32 /\ B2R (reciprocal r) = / real lu r r * (1 + e1).
Proof.
  intros Hr F B. pose proof (lu_finite r r Hr Hr) as Fu.
  assert (N : real lu r r <> 0).
  { unfold real, reciprocal in *. destruct (lu r r) as [s|s| |s m ex Hb] eqn:E; try discriminate.
    cbn. intros H. apply (F2R_neq_0 radix2 (Float radix2 (SpecFloat.cond_Zopp s (Zpos m)) ex)) in H; [assumption|]. cbn. destruct s; discriminate. }
  split; [exact N|].
  destruct (div_exact (f32_of_Z 1) (lu r r) Fu N F) as [_ E]. change (B2R (lu r r)) with (real lu r r) in E.
  destruct (int32_value 1 ltac:(lia)) as [E1 _]. rewrite E1 in E. unfold reciprocal. rewrite E.
  destruct (rnd32_big (1 / real lu r r)) as (e1 & He & ->).
  - unfold Rdiv. rewrite Rmult_1_l, Rabs_inv. apply Rle_trans with (bpow radix2 (-100)); [apply bpow_le; lia|].
    change (-100)%Z with (- (100))%Z. rewrite bpow_opp. apply Rinv_le_contravar; [now apply Rabs_pos_lt|exact B].
  - exists e1. split; [exact He|]. field. exact N.
Qed.
Lemma upper_error y x r : (r < n)%nat -> x r = f32_mul (above y x (n - 1 - r) r) (reciprocal r) -> is_finite (x r) = true ->
  Rabs (real lu r r) <= bpow radix2 100 ->
  is_finite (y r) = true /\
  Rabs (B2R (y r) - total (fun j => upper lu r j * B2R (x j)) (seq 0 n))
    <= 15.01 * u32 * total (fun j => Rabs (upper lu r j) * Rabs (B2R (x j))) (seq 0 n) + (7.01 + 1.02 * Rabs (real lu r r)) * tiny.
Proof.
  intros Hr E F B. rewrite E in F. destruct (mul_exact _ _ F) as (Fs & Fa & Ex). rewrite <- E in Ex.
  destruct (reciprocal_spec r Hr Fa B) as (N & e1 & He1 & Ea).
  destruct (minus_error (chain (n - 1 - r)) (n - 1 - r) (y r) (fun l => x (n - 1 - l)%nat) (fun l => lu r (n - 1 - l)%nat)) as (Fy & _ & D);
    [lia|apply chain_order|exact Fs|].
  split; [exact Fy|].
  fold (above y x (n - 1 - r) r) in D. set (s := B2R (above y x (n - 1 - r) r)) in *. rewrite Ea in Ex.
  rewrite (total_down (fun j => B2R (x j) * B2R (lu r j))), (total_down (fun j => Rabs (B2R (x j) * B2R (lu r j)))) in D by lia.
  replace (n - (n - 1 - r))%nat with (S r) in D by lia.
  assert (Ul : forall j, (j < r)%nat -> upper lu r j = 0) by (intros j Hj; unfold upper; destruct (Nat.leb_spec r j); [lia|reflexivity]).
  assert (Uh : forall j, (r <= j)%nat -> upper lu r j = B2R (lu r j)) by (intros j Hj; unfold upper; destruct (Nat.leb_spec r j); [reflexivity|lia]).
  rewrite !(split_row _ r Hr), !Uh by lia.
  rewrite (total_vanish _ (seq 0 r)) by (intros l Hl; apply in_seq in Hl; rewrite Ul by lia; ring).
  rewrite (total_vanish (fun l => Rabs _ * _) (seq 0 r)) by (intros l Hl; apply in_seq in Hl; rewrite Ul, Rabs_R0 by lia; ring).
  rewrite (total_ext (fun j => upper lu r j * B2R (x j)) (fun j => B2R (x j) * B2R (lu r j)) (seq (S r) _))
    by (intros l Hl; apply in_seq in Hl; rewrite Uh by lia; ring).
  rewrite (total_ext (fun j => Rabs (upper lu r j) * Rabs (B2R (x j))) (fun j => Rabs (B2R (x j) * B2R (lu r j))) (seq (S r) _))
    by (intros l Hl; apply in_seq in Hl; rewrite Uh, Rabs_mult by lia; ring).
  set (T := total (fun l => Rabs _) (seq (S r) _)) in *. set (Q := total (fun j => B2R (x j) * B2R (lu r j)) (seq (S r) _)) in *.
  assert (T0 : 0 <= T) by (apply total_nonneg; intros; apply Rabs_pos).
  assert (QT : Rabs Q <= T) by apply total_abs.
  change (B2R (lu r r)) with (real lu r r). set (u := real lu r r) in *. set (b := B2R (y r)) in *. set (v := B2R (x r)) in *.
  pose proof (bpow_gt_0 radix2 (-150)) as P0.
  destruct (rnd32_rel (s * (/ u * (1 + e1)))) as (e2 & h & He2 & Hh & E2). rewrite E2 in Ex.
  assert (Euv : u * v = s * (1 + e1) * (1 + e2) + u * h) by (rewrite Ex; field; exact N).
  assert (Hu : Rabs (u * h) <= Rabs u * tiny) by (rewrite Rabs_mult; apply Rmult_le_compat_l; [apply Rabs_pos|exact Hh]).
  set (q := (1 + e1) * (1 + e2) - 1).
  assert (Hq : Rabs q <= 2.001 * u32).
  { unfold q. replace ((1 + e1) * (1 + e2) - 1) with (e1 + e2 + e1 * e2) by ring.
    assert (Rabs (e1 * e2) <= u32 * u32) by (rewrite Rabs_mult; apply Rmult_le_compat; try apply Rabs_pos; assumption).
    apply Rabs_le_inv in He1, He2, H. apply Rabs_le. unfold u32 in *. lra. }
  assert (Euv' : u * v = s + s * q + u * h) by (rewrite Euv; unfold q; ring).
  assert (Hs : Rabs (s * q) <= Rabs s * (2.001 * u32)) by (rewrite Rabs_mult; apply Rmult_le_compat_l; [apply Rabs_pos|exact Hq]).
  assert (Bs : Rabs s <= Rabs (u * v) + Rabs (s * q) + Rabs (u * h)).
  { replace s with (u * v + - (s * q) + - (u * h)) at 1 by (rewrite Euv'; ring).
    eapply Rle_trans; [apply Rabs_triang|]. rewrite Rabs_Ropp. apply Rplus_le_compat_r.
    eapply Rle_trans; [apply Rabs_triang|]. rewrite Rabs_Ropp. lra. }
  assert (Ut : 0 <= Rabs u * tiny) by (apply Rmult_le_pos; [apply Rabs_pos|lra]).
  assert (D2 : Rabs (s - u * v) <= 2.01 * u32 * Rabs (u * v) + 1.01 * (Rabs u * tiny)).
  { replace (s - u * v) with (- (s * q) - u * h) by (rewrite Euv'; ring).
    assert (A : Rabs (s * q) <= 2.002 * u32 * (Rabs (u * v) + Rabs u * tiny)).
    { pose proof (Rabs_pos s). pose proof (Rabs_pos (u * v)). unfold u32 in *. lra. }
    pose proof (Rabs_pos (u * v)). apply Rabs_le_inv in A, Hu. apply Rabs_le. unfold u32 in *. lra. }
  rewrite <- Rabs_mult. set (w := u * v) in *.
  replace (b - (0 + w + Q)) with (- (s - (b - Q)) + (s - w)) by ring.
  pose proof (Rabs_pos b). pose proof (Rabs_pos w).
  assert (Bb : Rabs b <= Rabs w + T + (Rabs (s - (b - Q)) + Rabs (s - w))).
  { unfold Rabs in *. destruct (Rcase_abs b), (Rcase_abs w), (Rcase_abs Q), (Rcase_abs (s - (b - Q))), (Rcase_abs (s - w)); lra. }
  eapply Rle_trans; [apply Rabs_triang|]. rewrite Rabs_Ropp.
  set (d1 := Rabs (s - (b - Q))) in *. set (d2 := Rabs (s - w)) in *. assert (0 <= d1) by apply Rabs_pos. assert (0 <= d2) by apply Rabs_pos.
  unfold u32 in *. lra.
Qed.
End Solve.

(** ** The residual of the inverse *)
Lemma identity_value i j : B2R (identity32 i j) = delta i j.
Proof.
  unfold identity32, delta. rewrite (Nat.eqb_sym j i). destruct (i =? j)%nat; [exact (proj1 (int32_value 1 ltac:(lia)))|exact (proj1 (int32_value 0 ltac:(lia)))].
Qed.
Lemma residual n e M j : (n <= 6)%nat -> (-60 <= e <= 60)%Z ->
  (forall i k, (i < n)%nat -> (k < n)%nat -> is_finite (M i k) = true /\ Rabs (real M i k) <= bpow radix2 e) ->
  let X := inverse32 n M in (forall k, (k < n)%nat -> is_finite (X k j) = true) ->
  forall i, (i < n)%nat ->
  Rabs (total (fun k => real M i k * real X k j) (seq 0 n) - delta i j)
    <= bpow radix2 (e + Z.of_nat n - 19) * total (fun k => Rabs (real X k j)) (seq 0 n) + bpow radix2 (-80).
Proof.
  intros Hn He HM X FX i Hi.
  destruct (decomposition n e M Hn He) as (sigma & [_ Sur] & P & Df & Dl & Du & De).
  { intros a b Ha Hb. destruct (HM a b Ha Hb). rewrite Z.add_0_r. now split. }
  set (lu := fst (partial_lu32 n M)) in *. set (rhs := fun r => identity32 (sigma r) j).
  assert (Xs : X = inverse32 n M) by reflexivity.
  assert (XE : forall k, X k j = solve32 n lu (fun r => permute_rows (snd (partial_lu32 n M)) identity32 r j) k).
  { intros k. unfold X, inverse32, lu. destruct (partial_lu32 n M). reflexivity. }
  destruct (solve_spec n lu Hn (fun r => permute_rows (snd (partial_lu32 n M)) identity32 r j)) as (y & Y1 & Y2).
  set (x := solve32 n lu _) in *. cbv zeta in Y1, Y2.
  destruct (Sur i Hi) as (r & Hr & Er).
  assert (Big : forall l, (l < n)%nat -> bpow radix2 (e + Z.of_nat l) <= bpow radix2 65) by (intros l Hl; apply bpow_le; lia).
  assert (U100 : forall l, (l < n)%nat -> Rabs (real lu l l) <= bpow radix2 65).
  { intros l Hl. specialize (Du l l Hl Hl). unfold upper in Du. rewrite Nat.leb_refl in Du. specialize (Big l Hl). lra. }
  assert (B65 : bpow radix2 65 <= bpow radix2 100) by (apply bpow_le; lia).
  set (N1 := total (fun k => Rabs (real X k j)) (seq 0 n)).
  assert (N0 : 0 <= N1) by (apply total_nonneg; intros; apply Rabs_pos).
  assert (P0 := bpow_gt_0 radix2 (-150)).
  assert (T65 : tiny * bpow radix2 65 <= bpow radix2 (-85)) by (rewrite <- bpow_plus; apply bpow_le; lia).
  assert (T80 : bpow radix2 (-80) = 32 * bpow radix2 (-85)).
  { change (-80)%Z with (5 + -85)%Z. rewrite bpow_plus. reflexivity. }
  assert (T85 : tiny <= bpow radix2 (-85) / 1000).
  { apply Rle_trans with (bpow radix2 (-100)); [apply bpow_le; lia|]. change (-100)%Z with (-15 + -85)%Z. rewrite bpow_plus.
    change (bpow radix2 (-15)) with (/ 32768). pose proof (bpow_gt_0 radix2 (-85)). lra. }
  set (tt := bpow radix2 (-85)) in *. assert (tt0 : 0 < tt) by apply bpow_gt_0.
  (* the upper system *)
  assert (Xr : forall k, real X k j = B2R (x k)) by (intros k; unfold real; now rewrite XE).
  assert (Up : forall l, (l < n)%nat -> is_finite (y l) = true /\
    Rabs (B2R (y l) - total (fun k => upper lu l k * B2R (x k)) (seq 0 n)) <= 15.01 * u32 * bpow radix2 (e + Z.of_nat l) * N1 + 1.1 * tt /\
    Rabs (B2R (y l)) <= 1.0001 * bpow radix2 (e + Z.of_nat l) * N1 + 1.1 * tt).
  { intros l Hl. destruct (upper_error n lu Hn Df y x l Hl (Y2 l Hl)) as [Fy E].
    - rewrite <- XE. now apply FX.
    - specialize (U100 l Hl). lra.
    - split; [exact Fy|].
      assert (S : total (fun k => Rabs (upper lu l k) * Rabs (B2R (x k))) (seq 0 n) <= bpow radix2 (e + Z.of_nat l) * N1).
      { unfold N1. rewrite <- total_scale. apply total_le. intros k Hk. apply in_seq in Hk. rewrite Xr.
        apply Rmult_le_compat_r; [apply Rabs_pos|]. apply Du; lia. }
      assert (Tr : Rabs (real lu l l) * tiny <= tt).
      { eapply Rle_trans; [|exact T65]. rewrite Rmult_comm. apply Rmult_le_compat_l; [lra|]. now apply U100. }
      assert (E' : Rabs (B2R (y l) - total (fun k => upper lu l k * B2R (x k)) (seq 0 n)) <= 15.01 * u32 * bpow radix2 (e + Z.of_nat l) * N1 + 1.1 * tt).
      { eapply Rle_trans; [exact E|]. unfold u32 in *. lra. }
      split; [exact E'|].
      assert (A : Rabs (total (fun k => upper lu l k * B2R (x k)) (seq 0 n)) <= bpow radix2 (e + Z.of_nat l) * N1).
      { eapply Rle_trans; [apply total_abs|]. eapply Rle_trans; [|exact S]. apply total_le. intros k _. rewrite Rabs_mult. lra. }
      assert (0 <= bpow radix2 (e + Z.of_nat l) * N1) by (apply Rmult_le_pos; [apply bpow_ge_0|exact N0]).
      apply Rabs_le_inv in E', A. apply Rabs_le. unfold u32 in *. lra. }
  (* sums over the rows above *)
  assert (Geo : forall m, (m <= 6)%nat -> total (fun l => bpow radix2 (e + Z.of_nat l)) (seq 0 m) = bpow radix2 e * (2 ^ m - 1)).
  { induction m as [|m IH]; intros Hm; [cbn; ring|]. rewrite total_last, IH by lia. rewrite bpow_plus.
    replace (bpow radix2 (Z.of_nat m)) with (2 ^ m); [cbn; ring|]. rewrite bpow_powerRZ. rewrite <- pow_powerRZ. reflexivity. }
  assert (Lz : forall l, (r < l)%nat -> lower lu r l = 0).
  { intros l Hl. unfold lower. destruct (Nat.ltb_spec l r); [lia|]. destruct (Nat.eqb_spec l r); [lia|reflexivity]. }
  assert (Rows : forall f a b, 0 <= a -> 0 <= b -> (forall l, (l < n)%nat -> 0 <= f l <= a * bpow radix2 (e + Z.of_nat l) + b) ->
    total (fun l => Rabs (lower lu r l) * f l) (seq 0 n) <= a * (bpow radix2 e * (2 ^ S r - 1)) + 6 * b).
  { intros f a b a0 b0 Hf.
    replace n with (S r + (n - S r))%nat by lia. rewrite seq_app, total_app. cbn [Nat.add].
    rewrite (total_vanish _ (seq (S r) _)) by (intros l Hl; apply in_seq in Hl; rewrite Lz, Rabs_R0 by lia; ring).
    rewrite Rplus_0_r. apply Rle_trans with (total (fun l => a * bpow radix2 (e + Z.of_nat l) + b) (seq 0 (S r))).
    - apply total_le. intros l Hl. apply in_seq in Hl. specialize (Hf l ltac:(lia)). specialize (Dl r l Hr).
      apply Rle_trans with (1 * f l); [apply Rmult_le_compat_r; lra|lra].
    - rewrite total_plus, total_scale, total_const, Geo by lia. apply Rplus_le_compat_l. apply Rmult_le_compat_r; [exact b0|].
      rewrite seq_length, INR_IZR_INZ. apply IZR_le. lia. }
  (* the lower system *)
  assert (Lo := lower_error n lu Hn (fun r => permute_rows (snd (partial_lu32 n M)) identity32 r j) y r Hr (Y1 r Hr) (proj1 (Up r Hr))).
  cbv beta in Lo. rewrite (P _ identity32 r j), Er, identity_value in Lo.
  assert (L2 : total (fun l => Rabs (lower lu r l) * Rabs (B2R (y l))) (seq 0 n) <= 1.0001 * N1 * (bpow radix2 e * (2 ^ S r - 1)) + 6 * (1.1 * tt)).
  { apply Rows; [nra|lra|]. intros l Hl. split; [apply Rabs_pos|]. destruct (Up l Hl) as (_ & _ & A). lra. }
  assert (L3 : Rabs (total (fun l => lower lu r l * (total (fun k => upper lu l k * B2R (x k)) (seq 0 n) - B2R (y l))) (seq 0 n))
    <= 15.01 * u32 * N1 * (bpow radix2 e * (2 ^ S r - 1)) + 6 * (1.1 * tt)).
  { eapply Rle_trans; [apply total_abs|].
    apply Rle_trans with (total (fun l => Rabs (lower lu r l) * Rabs (total (fun k => upper lu l k * B2R (x k)) (seq 0 n) - B2R (y l))) (seq 0 n)).
    - apply total_le. intros l _. rewrite Rabs_mult. lra.
    - apply (Rows (fun l => Rabs (total (fun k => upper lu l k * B2R (x k)) (seq 0 n) - B2R (y l)))); [unfold u32; nra|lra|].
      intros l Hl. split; [apply Rabs_pos|]. destruct (Up l Hl) as (_ & A & _). rewrite Rabs_minus_sym in A. lra. }
  (* the decomposition *)
  assert (L1 : Rabs (total (fun k => (real M i k - total (fun l => lower lu r l * upper lu l k) (seq 0 n)) * B2R (x k)) (seq 0 n))
    <= 4.02 * u32 * bpow radix2 (e + Z.of_nat r) * N1).
  { eapply Rle_trans; [apply total_abs|]. unfold N1. rewrite <- total_scale. apply total_le. intros k Hk. apply in_seq in Hk.
    rewrite Rabs_mult, Xr. apply Rmult_le_compat_r; [apply Rabs_pos|]. rewrite <- Er. apply De; lia. }
  (* together *)
  assert (Sum : total (fun k => real M i k * real X k j) (seq 0 n) - delta i j =
    total (fun k => (real M i k - total (fun l => lower lu r l * upper lu l k) (seq 0 n)) * B2R (x k)) (seq 0 n) +
    total (fun l => lower lu r l * (total (fun k => upper lu l k * B2R (x k)) (seq 0 n) - B2R (y l))) (seq 0 n) +
    - (delta i j - total (fun l => lower lu r l * B2R (y l)) (seq 0 n))).
  { assert (Sw : total (fun k => total (fun l => lower lu r l * upper lu l k) (seq 0 n) * B2R (x k)) (seq 0 n) =
      total (fun l => lower lu r l * total (fun k => upper lu l k * B2R (x k)) (seq 0 n)) (seq 0 n)).
    { transitivity (total (fun k => total (fun l => lower lu r l * upper lu l k * B2R (x k)) (seq 0 n)) (seq 0 n)).
      - apply total_ext. intros k _. rewrite Rmult_comm, <- total_scale. apply total_ext. intros l _. ring.
      - rewrite total_swap. apply total_ext. intros l _. rewrite <- total_scale. apply total_ext. intros k _. ring. }
    assert (A1 : total (fun k => (real M i k - total (fun l => lower lu r l * upper lu l k) (seq 0 n)) * B2R (x k)) (seq 0 n) =
      total (fun k => real M i k * real X k j) (seq 0 n) - total (fun k => total (fun l => lower lu r l * upper lu l k) (seq 0 n) * B2R (x k)) (seq 0 n)).
    { rewrite <- total_minus. apply total_ext. intros k _. rewrite Xr. ring. }
    assert (A2 : total (fun l => lower lu r l * (total (fun k => upper lu l k * B2R (x k)) (seq 0 n) - B2R (y l))) (seq 0 n) =
      total (fun l => lower lu r l * total (fun k => upper lu l k * B2R (x k)) (seq 0 n)) (seq 0 n) - total (fun l => lower lu r l * B2R (y l)) (seq 0 n)).
    { rewrite <- total_minus. apply total_ext. intros l _. ring. }
    rewrite A1, A2, Sw. ring. }
  rewrite Sum. eapply Rle_trans; [apply Rabs_triang|]. rewrite Rabs_Ropp.
  eapply Rle_trans; [apply Rplus_le_compat_r, Rabs_triang|].
  (* arithmetic *)
  assert (Er2 : bpow radix2 (e + Z.of_nat r) = bpow radix2 e * 2 ^ r).
  { rewrite bpow_plus. f_equal. rewrite bpow_powerRZ, <- pow_powerRZ. reflexivity. }
  assert (En : bpow radix2 (e + Z.of_nat n - 19) = 32 * u32 * (bpow radix2 e * 2 ^ n)).
  { replace (e + Z.of_nat n - 19)%Z with (e + Z.of_nat n + -19)%Z by lia. rewrite !bpow_plus.
    replace (bpow radix2 (Z.of_nat n)) with (2 ^ n) by (rewrite bpow_powerRZ, <- pow_powerRZ; reflexivity).
    change (bpow radix2 (-19)) with (/ 524288). unfold u32. lra. }
  rewrite En. rewrite Er2 in L1. set (g := bpow radix2 e) in *. assert (g0 : 0 < g) by apply bpow_gt_0.
  assert (C : 34.04 * 2 ^ r + 30.03 * (2 ^ r - 1) <= 63.9 * 2 ^ r /\ 2 * 2 ^ r <= 2 ^ n /\ 1 <= 2 ^ r).
  { split; [|split].
    - destruct r as [|[|[|[|[|[|]]]]]]; try lia; cbn; lra.
    - change (2 * 2 ^ r) with (2 ^ S r). apply Rle_pow; [lra|lia].
    - apply pow_R1_Rle. lra. }
  destruct C as (C1 & C2 & C3).
  assert (G : 0 <= u32 * (g * N1)) by (apply Rmult_le_pos; [unfold u32; lra|]; apply Rmult_le_pos; lra).
  set (gn := u32 * (g * N1)) in *.
  assert (M1 : 15.01 * u32 * (1.0001 * N1 * (g * (2 ^ S r - 1)) + 6 * (1.1 * tt)) <= 15.012 * gn * (2 ^ S r - 1) + 0.1 * tt).
  { unfold gn. cbn [pow]. assert (0 <= u32 * (g * N1) * (2 * 2 ^ r - 1)) by (apply Rmult_le_pos; [exact G|lra]). unfold u32 in *. lra. }
  apply Rle_trans with (4.02 * gn * 2 ^ r + (15.01 * gn * (2 ^ S r - 1) + 6.6 * tt) + (15.012 * gn * (2 ^ S r - 1) + 0.1 * tt + 7.01 * tiny)).
  - apply Rplus_le_compat; [apply Rplus_le_compat|].
    + unfold gn. lra.
    + unfold gn. lra.
    + eapply Rle_trans; [exact Lo|]. apply Rplus_le_compat_r. eapply Rle_trans; [|exact M1].
      apply Rmult_le_compat_l; [unfold u32; lra|exact L2].
  - fold N1. cbn [pow]. rewrite T80.
    assert (K : gn * (34.04 * 2 ^ r + 30.03 * (2 ^ r - 1)) <= gn * (63.9 * 2 ^ r)) by (apply Rmult_le_compat_l; lra).
    assert (K2 : gn * (32 * (2 * 2 ^ r)) <= gn * (32 * 2 ^ n)) by (apply Rmult_le_compat_l; lra).
    assert (K3 : 0 <= gn * 2 ^ r) by (apply Rmult_le_pos; lra).
    replace (32 * u32 * (g * 2 ^ n) * N1) with (gn * (32 * 2 ^ n)) by (unfold gn; ring). lra.
Qed.
