(** The weights of the unscented transform in single precision: property C110.  The
    model (FloatUnscented.v) is of generate_lambda, generate_weights and the mean of
    compute_unscented_transform with every operation rounded to float; [t] is the
    order in which the weighted points are added up, about which nothing is assumed.
    2^-24 is half the distance from 1 to the next larger float. *)
From Coq Require Import ZArith Reals Lra Lia List Permutation.
From Flocq Require Import Core IEEE754.BinarySingleNaN.
From Verif Require Import Float FloatProofs FloatDistance FloatDistanceThms FloatWeight FloatUnscented FloatUnscentedThms.
Import ListNotations.
Open Scope R_scope.

(** Wm and Wc as generate_sigma_points_and_weights computes them *)
Notation weights n alpha beta kappa := (generate_weights32 n alpha beta (generate_lambda32 n alpha kappa)).
(** The number of points *)
Notation points n := (Z.to_nat (2 * n + 1)).

Lemma total_weights n (w0 wi : f32) : n = 5%Z \/ n = 6%Z ->
  total (fun i => B2R (match i with O => w0 | S _ => wi end)) (seq 0 (points n)) = B2R w0 + 2 * IZR n * B2R wi.
Proof.
  intros Hn. assert (SN : seq 0 (points n) = 0%nat :: seq 1 (Z.to_nat (2 * n))) by (destruct Hn; subst; reflexivity).
  rewrite SN. cbn [total]. f_equal. rewrite (total_ext _ (fun _ => B2R wi)).
  - rewrite total_const, seq_length, INR_IZR_INZ, Z2Nat.id, mult_IZR by (destruct Hn; subst; lia). ring.
  - intros i Hi. apply in_seq in Hi. destruct i; [lia|reflexivity].
Qed.

(** C110: with the parameters the library uses (alpha = 1, beta = 1, kappa = 2) the
    weights are correct to float accuracy, for both models ... *)
Theorem C110_default n : n = 5%Z \/ n = 6%Z ->
  let (Wm, Wc) := weights n (f32_of_Z 1) (f32_of_Z 1) (f32_of_Z 2) in
  Rabs (B2R (Wm 0%nat) - 2 / (IZR n + 2)) <= bpow radix2 (-26) /\
  Rabs (B2R (Wc 0%nat) - (2 / (IZR n + 2) + 1)) <= bpow radix2 (-24) /\
  (forall i, (1 <= i)%nat -> Rabs (B2R (Wm i) - / (2 * (IZR n + 2))) <= bpow radix2 (-28) /\ Wc i = Wm i).
Proof.
  intros Hn. rewrite (default_lambda n Hn). destruct (default_weights n Hn) as (_ & _ & _ & D0 & Dc & Di).
  cbn. split; [exact D0|]. split; [exact Dc|]. intros [|i] Hi; [lia|]. split; [exact Di|reflexivity].
Qed.
Print Assumptions C110_default.

(** ... and the mean of any component of any points bounded by M is the weighted mean
    up to 15 M / 2^24, whatever the order of the additions. *)
Theorem C110_mean n t (x : nat -> f32) (M : R) : n = 5%Z \/ n = 6%Z -> order_of (points n) t ->
  bpow radix2 (-100) <= M <= bpow radix2 100 ->
  (forall i, (i < points n)%nat -> is_finite (x i) = true /\ Rabs (B2R (x i)) <= M) ->
  let mean := mean32 t (fst (weights n (f32_of_Z 1) (f32_of_Z 1) (f32_of_Z 2))) x in
  is_finite mean = true /\
  Rabs (B2R mean - (2 / (IZR n + 2) * B2R (x 0%nat) +
                    / (2 * (IZR n + 2)) * total (fun i => B2R (x i)) (seq 1 (Z.to_nat (2 * n)))))
    <= 15 * / 2 ^ 24 * M.
Proof.
  intros Hn O HM Hx. rewrite (default_lambda n Hn).
  replace (/ 2 ^ 24) with u32 by (unfold u32; cbn; lra). exact (mean_accurate n t x M Hn O HM Hx).
Qed.
Print Assumptions C110_mean.

(** For other parameters, with q = alpha^2 (n + kappa) the exact value of n + lambda, the
    weights for the mean add up to 1 only up to (3 + 4 n / q) / 2^24, and the relative error
    of a weight is up to (14 + 2 n / q) / 2^24. *)
Theorem C110_accuracy n (alpha beta kappa : f32) : n = 5%Z \/ n = 6%Z ->
  is_finite alpha = true -> is_finite kappa = true ->
  bpow radix2 (-40) <= Rabs (B2R alpha) <= bpow radix2 40 ->
  let q := B2R alpha * B2R alpha * (IZR n + B2R kappa) in
  bpow radix2 (-20) <= q <= bpow radix2 20 ->
  let Wm := fst (weights n alpha beta kappa) in
  (forall i, is_finite (Wm i) = true) /\
  Rabs (total (fun i => B2R (Wm i)) (seq 0 (points n)) - 1) <= / 2 ^ 24 * (3 + 4 * IZR n / q) /\
  (forall i, (1 <= i)%nat -> Rabs (B2R (Wm i) - / (2 * q)) <= / (2 * q) * (/ 2 ^ 24 * (14 + 2 * IZR n / q))).
Proof.
  intros Hn Fa Fk Ha q Hq Wm.
  replace (/ 2 ^ 24) with u32 by (unfold u32; cbn; lra).
  destruct (weights_accurate n alpha kappa Hn Fa Fk Ha Hq) as (F0 & Fi & S & D). fold q in S, D.
  split; [intros [|i]; assumption|]. split.
  - replace (total (fun i => B2R (Wm i)) (seq 0 (points n)))
      with (B2R (Wm 0%nat) + 2 * IZR n * B2R (Wm 1%nat)); [exact S|].
    symmetry. exact (total_weights n _ _ Hn).
  - intros [|i] Hi; [lia|]. exact D.
Qed.
Print Assumptions C110_accuracy.

(** For an alpha of at most 2^-13 (about 0.00012) nothing is left: n + lambda is zero,
    so that all points coincide, every weight is infinite, and the mean of any
    component of any points is infinite or NaN. *)
Theorem C110_collapse n (alpha beta kappa : f32) : n = 5%Z \/ n = 6%Z ->
  is_finite alpha = true -> is_finite beta = true -> is_finite kappa = true ->
  Rabs (B2R alpha) <= / 2 ^ 13 -> 0 <= IZR n + B2R kappa <= 8 -> Rabs (B2R beta) <= bpow radix2 100 ->
  let lambda := generate_lambda32 n alpha kappa in
  let (Wm, Wc) := generate_weights32 n alpha beta lambda in
  B2R lambda = - IZR n /\ B2R (f32_sqrt (f32_add (f32_of_Z n) lambda)) = 0 /\
  (forall i, infinite (Wm i) /\ infinite (Wc i)) /\
  (forall t x, is_finite (mean32 t Wm x) = false).
Proof.
  intros Hn Fa Fb Fk Ha Hk Hb lambda.
  replace (/ 2 ^ 13) with (/ 8192) in Ha by (cbn; lra).
  destruct (lambda_small n alpha kappa Hn Fa Fk Ha Hk) as [E F].
  assert (L : lambda = Bopp (f32_of_Z n)) by now apply lambda_exact.
  destruct (weights_small n Hn) as [W0 Wi].
  assert (Wc := wc_small n alpha beta Hn Fa Fb ltac:(lra) Hb).
  cbn [generate_weights32]. split; [exact E|]. rewrite L. split; [|split].
  - destruct Hn; subst n; rewrite <- SF2R_B2SF; vm_compute; reflexivity.
  - intros [|i]; rewrite ?W0, ?Wi, ?Wc; split; unfold infinite; eauto.
  - intros t x. apply sum_infinite. intros [|i]; rewrite ?W0, ?Wi; apply mul_infinite.
Qed.
Print Assumptions C110_collapse.

(** Refuted expectation: that the weights of the customary parameters alpha = 0.001,
    kappa = 0 add up to 1 within one percent.  Their exact sum is 65/64 for the model
    with five and 33/32 for the one with six variables. *)
Definition C110_alpha : f32 := binary_normalize 24 128 _ _ mode_NE 8589935 (-33) false.
Theorem C110_sum_refuted : exists alpha kappa : f32, B2R kappa = 0 /\ Rabs (B2R alpha - / 1000) <= / 10 ^ 10 /\
  forall beta,
  total (fun i => B2R (fst (weights 5 alpha beta kappa) i)) (seq 0 (points 5)) = 65 / 64 /\
  total (fun i => B2R (fst (weights 6 alpha beta kappa) i)) (seq 0 (points 6)) = 33 / 32.
Proof.
  exists C110_alpha, (f32_of_Z 0). split; [reflexivity|]. split.
  - rewrite <- SF2R_B2SF. set (a := B2SF C110_alpha). vm_compute in a. unfold a, SF2R, F2R. cbn. apply Rabs_le. lra.
  - intros beta. cbn [fst generate_weights32].
    rewrite (total_weights 5) by now left. rewrite (total_weights 6) by now right.
    rewrite <- !SF2R_B2SF.
    set (a := B2SF (wm_0_32 5 (generate_lambda32 5 C110_alpha (f32_of_Z 0)))). vm_compute in a.
    set (b := B2SF (wm_i_32 5 (generate_lambda32 5 C110_alpha (f32_of_Z 0)))). vm_compute in b.
    set (c := B2SF (wm_0_32 6 (generate_lambda32 6 C110_alpha (f32_of_Z 0)))). vm_compute in c.
    set (d := B2SF (wm_i_32 6 (generate_lambda32 6 C110_alpha (f32_of_Z 0)))). vm_compute in d.
    unfold a, b, c, d, SF2R, F2R. cbn. split; lra.
Qed.
Print Assumptions C110_sum_refuted.

(** ** Concrete cases *)
Fixpoint left_order (n : nat) : tree := match n with O => Leaf 0 | S m => Node (left_order m) (Leaf n) end.
Lemma left_order_leaves n : leaves (left_order n) = seq 0 (S n).
Proof. induction n as [|n IH]; [reflexivity|]. cbn [left_order leaves]. rewrite IH, <- seq_S. reflexivity. Qed.
(** Eleven points with components 0 ... 10, added from the left *)
Example C110_case : order_of (points 5) (left_order 10) /\
  bpow radix2 (-100) <= 16 <= bpow radix2 100 /\
  (forall i, (i < points 5)%nat -> is_finite (f32_of_Z (Z.of_nat i)) = true /\ Rabs (B2R (f32_of_Z (Z.of_nat i))) <= 16) /\
  let mean := mean32 (left_order 10) (fst (weights 5 (f32_of_Z 1) (f32_of_Z 1) (f32_of_Z 2))) (fun i => f32_of_Z (Z.of_nat i)) in
  Rabs (B2R mean - 55 / 14) <= 15 * / 2 ^ 24 * 16.
Proof.
  assert (O : order_of (points 5) (left_order 10)).
  { unfold order_of. rewrite left_order_leaves. apply Permutation_refl. }
  assert (B : bpow radix2 (-100) <= 16 <= bpow radix2 100).
  { replace 16 with (bpow radix2 4) by (cbn; lra). split; apply bpow_le; lia. }
  assert (H : forall i, (i < points 5)%nat -> is_finite (f32_of_Z (Z.of_nat i)) = true /\ Rabs (B2R (f32_of_Z (Z.of_nat i))) <= 16).
  { intros i Hi. change (points 5) with 11%nat in Hi. destruct (int32_value (Z.of_nat i)) as [E F]; [lia|].
    split; [exact F|]. rewrite E, <- abs_IZR. apply IZR_le. lia. }
  split; [exact O|]. split; [exact B|]. split; [exact H|].
  destruct (C110_mean 5 (left_order 10) _ 16 (or_introl eq_refl) O B H) as [_ D].
  eapply Rle_trans; [|exact D]. right. f_equal. f_equal.
  assert (V : forall k, (k < 11)%nat -> B2R (f32_of_Z (Z.of_nat k)) = IZR (Z.of_nat k)).
  { intros k Hk. apply int32_value. lia. }
  rewrite (V 0%nat) by lia. rewrite (total_ext _ (fun i => IZR (Z.of_nat i))).
  - change (seq 1 (Z.to_nat (2 * 5))) with [1;2;3;4;5;6;7;8;9;10]%nat. cbn [total]. cbn. lra.
  - intros i Hi. apply in_seq in Hi. change (Z.to_nat (2 * 5)) with 10%nat in Hi. apply V. lia.
Qed.

(** alpha = 0.001 meets the conditions of C110_accuracy, which then bounds the deviation of the
    sum by about 0.24; alpha = 2^-14 meets those of C110_collapse. *)
Example C110_accuracy_case : is_finite C110_alpha = true /\
  bpow radix2 (-40) <= Rabs (B2R C110_alpha) <= bpow radix2 40 /\
  let q := B2R C110_alpha * B2R C110_alpha * (5 + B2R (f32_of_Z 0)) in
  bpow radix2 (-20) <= q <= bpow radix2 20 /\ / 2 ^ 24 * (3 + 4 * 5 / q) <= 0.24.
Proof.
  split; [reflexivity|].
  assert (A : B2R C110_alpha = 8589935 * / 8589934592).
  { rewrite <- SF2R_B2SF. set (a := B2SF C110_alpha). vm_compute in a. unfold a, SF2R, F2R. cbn. lra. }
  rewrite A. split.
  - rewrite Rabs_pos_eq by lra. cbn. lra.
  - destruct (int32_value 0) as [-> _]; [reflexivity|]. cbn -[pow]. split; [lra|].
    set (q := 8589935 * / 8589934592 * (8589935 * / 8589934592) * (5 + 0)).
    assert (Q : 0.000005 <= q) by (unfold q; lra).
    assert (I : / q <= 200000) by (replace 200000 with (/ 0.000005) by lra; apply Rinv_le_contravar; lra).
    unfold Rdiv. replace (/ 2 ^ 24) with (/ 16777216) by (cbn; lra). lra.
Qed.
Example C110_collapse_case : let alpha := binary_normalize 24 128 _ _ mode_NE 1 (-14) false : f32 in
  is_finite alpha = true /\ Rabs (B2R alpha) <= / 2 ^ 13 /\ 0 <= IZR 6 + B2R (f32_of_Z 2) <= 8 /\
  0 < B2R alpha * B2R alpha * (6 + 2).
Proof.
  intros alpha. split; [reflexivity|].
  assert (A : B2R alpha = / 16384).
  { rewrite <- SF2R_B2SF. set (a := B2SF alpha). vm_compute in a. unfold a, SF2R, F2R. cbn. lra. }
  rewrite A. rewrite Rabs_pos_eq by lra. destruct (int32_value 2) as [-> _]; [reflexivity|]. cbn. lra.
Qed.
