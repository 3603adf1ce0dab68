(** The covariance of the unscented transform in single precision: property C111.
    The model is FloatCovariance.v, with the weights of FloatUnscented.v; [order_x] and
    [order_P] are the orders in which the entries of the mean and of the covariance are
    added up, about which nothing is assumed. *)
From Coq Require Import ZArith Reals Lra Lia List Permutation.
From Flocq Require Import Core IEEE754.BinarySingleNaN.
From Verif Require Import Float FloatProofs FloatDistance FloatDistanceThms FloatWeight FloatWeightThms FloatUnscented
  FloatUnscentedThms FloatCovariance FloatCovarianceThms Properties_FloatUnscented.
Import ListNotations.
Open Scope R_scope.

(** The weighted mean of component j of the points and the weighted covariance of
    components j and k, with the exact weights for alpha = 1, beta = 1, kappa = 2 *)
Definition exact_mean (n : Z) (s : nat -> nat -> R) (j : nat) : R :=
  2 / (IZR n + 2) * s 0%nat j + / (2 * (IZR n + 2)) * total (fun i => s i j) (seq 1 (Z.to_nat (2 * n))).
Definition exact_covariance (n : Z) (s : nat -> nat -> R) (j k : nat) : R :=
  let d i j := s i j - exact_mean n s j in
  (2 / (IZR n + 2) + 1) * (d 0%nat j * d 0%nat k) +
  / (2 * (IZR n + 2)) * total (fun i => d i j * d i k) (seq 1 (Z.to_nat (2 * n))).
(** The values of floats *)
Definition reals_of (s : nat -> nat -> f32) (i j : nat) : R := B2R (s i j).
(** Component j of the points is finite, at most M in absolute value and at most D from its mean. *)
Definition within (n : Z) (s : nat -> nat -> f32) (M D : R) (j : nat) : Prop :=
  bpow radix2 (-40) <= M <= bpow radix2 40 /\ 0 <= D <= 2 * M /\
  forall i, (i < points n)%nat -> is_finite (s i j) = true /\ Rabs (reals_of s i j) <= M /\
    Rabs (reals_of s i j - exact_mean n (reals_of s) j) <= D.

Section Library.
Variables (n : Z) (order_x : nat -> tree) (order_P : nat -> nat -> tree) (sigma_points : nat -> nat -> f32).
(** The covariance with the weights of the library's parameters *)
Definition library_covariance : nat -> nat -> f32 :=
  let (Wm, Wc) := weights n (f32_of_Z 1) (f32_of_Z 1) (f32_of_Z 2) in
  snd (compute_unscented_transform32 order_x order_P sigma_points Wm Wc).
End Library.

(** C111: an entry is accurate up to an error that grows with the size of the
    components, not only with their spread. *)
Theorem C111_accuracy n order_x order_P sigma_points (Mj Mk Dj Dk : R) j k : n = 5%Z \/ n = 6%Z ->
  order_of (points n) (order_x j) -> order_of (points n) (order_x k) -> order_of (points n) (order_P j k) ->
  within n sigma_points Mj Dj j -> within n sigma_points Mk Dk k ->
  let P := library_covariance n order_x order_P sigma_points in
  is_finite (P j k) = true /\
  Rabs (B2R (P j k) - exact_covariance n (reals_of sigma_points) j k)
    <= 100 / 2 ^ 24 * (Mj * Dk + Mk * Dj) + 1000 / 2 ^ 48 * (Mj * Mk).
Proof.
  intros Hn Oj Ok O (HMj & HDj & Hj) (HMk & HDk & Hk). cbv zeta.
  unfold library_covariance. rewrite (default_lambda n Hn).
  replace (100 / 2 ^ 24) with (100 * u32) by (unfold u32; cbn; lra).
  replace (1000 / 2 ^ 48) with (1000 * u32 * u32) by (unfold u32; cbn; lra).
  exact (entry_accurate n (order_x j) (order_x k) (order_P j k) (fun i => sigma_points i j) (fun i => sigma_points i k)
    Mj Mk Dj Dk Hn Oj Ok O HMj HMk HDj HDk Hj Hk).
Qed.
Print Assumptions C111_accuracy.

(** So the covariance is symmetric up to twice that error ... *)
Lemma exact_symmetric n s j k : exact_covariance n s j k = exact_covariance n s k j.
Proof.
  unfold exact_covariance. f_equal; f_equal; [ring|]. apply total_ext. intros i _. ring.
Qed.
Theorem C111_symmetry n order_x order_P sigma_points (Mj Mk Dj Dk : R) j k : n = 5%Z \/ n = 6%Z ->
  order_of (points n) (order_x j) -> order_of (points n) (order_x k) ->
  order_of (points n) (order_P j k) -> order_of (points n) (order_P k j) ->
  within n sigma_points Mj Dj j -> within n sigma_points Mk Dk k ->
  let P := library_covariance n order_x order_P sigma_points in
  Rabs (B2R (P j k) - B2R (P k j)) <= 200 / 2 ^ 24 * (Mj * Dk + Mk * Dj) + 2000 / 2 ^ 48 * (Mj * Mk).
Proof.
  intros Hn Oj Ok O1 O2 Hj Hk P.
  destruct (C111_accuracy n order_x order_P sigma_points Mj Mk Dj Dk j k Hn Oj Ok O1 Hj Hk) as [_ A].
  destruct (C111_accuracy n order_x order_P sigma_points Mk Mj Dk Dj k j Hn Ok Oj O2 Hk Hj) as [_ B].
  fold P in A, B. rewrite (exact_symmetric n _ k j) in B.
  apply Rabs_le_inv in A, B. apply Rabs_le. lra.
Qed.
Print Assumptions C111_symmetry.

(** ... and for weights that are not negative its diagonal is not negative, unless
    something overflows. *)
Theorem C111_diagonal order_x order_P sigma_points (Wm Wc : nat -> f32) j :
  (forall i, 0 <= B2R (Wc i)) ->
  let P := snd (compute_unscented_transform32 order_x order_P sigma_points Wm Wc) in
  is_finite (P j j) = true -> 0 <= B2R (P j j).
Proof.
  intros H P F. apply sum_nonneg; [|exact F]. intros i Fi. apply square_nonneg; [intros _; apply H|exact Fi].
Qed.
Print Assumptions C111_diagonal.

(** Refuted expectations: that the covariance is symmetric ... *)
Definition numbers (l : list Z) (i : nat) : f32 := f32_of_Z (nth i l 0%Z).
Definition C111_points (i j : nat) : f32 :=
  match j with
  | O => numbers [3; -3; -3; 1; 1]%Z i
  | _ => numbers [3; -3; -2; -3; -3]%Z i
  end.
Theorem C111_symmetry_refuted : exists order_x order_P sigma_points,
  (forall j, order_of (points 5) (order_x j)) /\ (forall j k, order_of (points 5) (order_P j k)) /\
  (forall i j, is_finite (sigma_points i j) = true /\ Rabs (B2R (sigma_points i j)) <= 3) /\
  let P := library_covariance 5 order_x order_P sigma_points in
  B2R (P 0%nat 1%nat) <> B2R (P 1%nat 0%nat).
Proof.
  assert (O : order_of (points 5) (left_order 10)).
  { unfold order_of. rewrite left_order_leaves. apply Permutation_refl. }
  exists (fun _ => left_order 10), (fun _ _ => left_order 10), C111_points.
  split; [intros; exact O|]. split; [intros; exact O|]. split.
  - intros i j.
    assert (Q : forall z, (Z.abs z <= 3)%Z -> is_finite (f32_of_Z z) = true /\ Rabs (B2R (f32_of_Z z)) <= 3).
    { intros z Hz. destruct (int32_value z) as [E F]; [lia|]. split; [exact F|]. rewrite E, <- abs_IZR. apply IZR_le. lia. }
    assert (R1 : forall l, Forall (fun z => (Z.abs z <= 3)%Z) l -> is_finite (numbers l i) = true /\ Rabs (B2R (numbers l i)) <= 3).
    { intros l Hl. apply Q. destruct (nth_in_or_default i l 0%Z) as [I| ->]; [|cbn; lia].
      rewrite Forall_forall in Hl. now apply Hl. }
    unfold C111_points. destruct j; apply R1; repeat constructor; cbn; lia.
  - cbv zeta. rewrite <- !SF2R_B2SF.
    set (a := B2SF (library_covariance 5 _ _ _ 0%nat 1%nat)). vm_compute in a.
    set (b := B2SF (library_covariance 5 _ _ _ 1%nat 0%nat)). vm_compute in b.
    unfold a, b, SF2R, F2R. cbn. lra.
Qed.
Print Assumptions C111_symmetry_refuted.

(** ... and that points which all agree have no variance: 5000 km from the origin the mean of eleven
    equal points is a metre off, and the variance comes out as almost two. *)
Theorem C111_variance_refuted : exists order_x order_P sigma_points,
  (forall j, order_of (points 5) (order_x j)) /\ (forall j k, order_of (points 5) (order_P j k)) /\
  (forall i j, is_finite (sigma_points i j) = true /\ B2R (sigma_points i j) = 5000000) /\
  let P := library_covariance 5 order_x order_P sigma_points in
  1.99 <= B2R (P 0%nat 0%nat).
Proof.
  assert (O : order_of (points 5) (left_order 10)).
  { unfold order_of. rewrite left_order_leaves. apply Permutation_refl. }
  exists (fun _ => left_order 10), (fun _ _ => left_order 10), (fun _ _ => f32_of_Z 5000000).
  split; [intros; exact O|]. split; [intros; exact O|]. split.
  - intros _ _. destruct (int32_value 5000000) as [E F]; [reflexivity|]. now split.
  - cbv zeta. rewrite <- !SF2R_B2SF.
    set (a := B2SF (library_covariance 5 _ _ _ 0%nat 0%nat)). vm_compute in a.
    unfold a, SF2R, F2R. cbn. lra.
Qed.
Print Assumptions C111_variance_refuted.

(** ** A concrete case: points 0 and 2 in turn, with mean 5/7 *)
Definition alternating (i j : nat) : f32 := if Nat.even i then f32_of_Z 0 else f32_of_Z 2.
Lemma alternating_total (f : R -> R) j : total (fun i => f (reals_of alternating i j)) (seq 1 (Z.to_nat (2 * 5))) = 5 * f 2 + 5 * f 0.
Proof.
  destruct (int32_value 2) as [E2 _]; [reflexivity|]. destruct (int32_value 0) as [E0 _]; [reflexivity|].
  change (seq 1 (Z.to_nat (2 * 5))) with [1;2;3;4;5;6;7;8;9;10]%nat. unfold reals_of, alternating.
  cbn [total Nat.even]. rewrite E2, E0. ring.
Qed.
Example C111_case : within 5 alternating 2 (9 / 7) 0 /\
  let P := library_covariance 5 (fun _ => left_order 10) (fun _ _ => left_order 10) alternating in
  exact_covariance 5 (reals_of alternating) 0 0 = 10 / 7 /\ Rabs (B2R (P 0%nat 0%nat) - 10 / 7) <= / 10 ^ 4.
Proof.
  destruct (int32_value 2) as [E2 F2]; [reflexivity|]. destruct (int32_value 0) as [E0 F0]; [reflexivity|].
  assert (S0 : reals_of alternating 0 0 = 0) by exact E0.
  assert (M : exact_mean 5 (reals_of alternating) 0 = 5 / 7).
  { unfold exact_mean. rewrite S0. rewrite (alternating_total (fun x => x)). lra. }
  assert (H : within 5 alternating 2 (9 / 7) 0).
  { split; [|split].
    - change 2 with (bpow radix2 1). split; apply bpow_le; lia.
    - lra.
    - intros i _. rewrite M. unfold reals_of, alternating.
      destruct (Nat.even i); rewrite ?E0, ?E2; (split; [assumption|]); split; apply Rabs_le; lra. }
  assert (C : exact_covariance 5 (reals_of alternating) 0 0 = 10 / 7).
  { unfold exact_covariance. rewrite M, S0.
    rewrite (alternating_total (fun x => (x - 5 / 7) * (x - 5 / 7))). lra. }
  split; [exact H|]. split; [exact C|].
  assert (O : order_of (points 5) (left_order 10)).
  { unfold order_of. rewrite left_order_leaves. apply Permutation_refl. }
  destruct (C111_accuracy 5 (fun _ => left_order 10) (fun _ _ => left_order 10) alternating 2 2 (9 / 7) (9 / 7) 0 0
    (or_introl eq_refl) O O O H H) as [_ A].
  rewrite C in A. eapply Rle_trans; [exact A|]. cbn. lra.
Qed.
(** The weights of the library are not negative. *)
Example C111_diagonal_case i : 0 <= B2R (snd (weights 5 (f32_of_Z 1) (f32_of_Z 1) (f32_of_Z 2)) i).
Proof.
  rewrite (default_lambda 5) by now left. destruct (default_weights 5) as (_ & _ & _ & _ & C & D); [now left|].
  apply Rabs_le_inv in C, D. change (bpow radix2 (-24)) with (/ 16777216) in C.
  change (bpow radix2 (-28)) with (/ 268435456) in D.
  destruct i; cbn [generate_weights32 snd]; lra.
Qed.
