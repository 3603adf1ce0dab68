(** Accuracy of the prediction in the number types of the code: headings as floats, the
    factor of the covariance times the root, and means and covariances of points near
    exact ones. *)
From Coq Require Import ZArith Reals Lra Lia Bool List Arith Permutation Psatz.
From Flocq Require Import Core IEEE754.BinarySingleNaN.
From Verif Require Import Float FloatProofs Motion RealArith DoubleArith DoubleThms SumSquares64 PiDouble TrigSpec
  AngleAccuracy MotionAccuracy FloatDistance FloatDistanceThms FloatWeight FloatWeightThms FloatUnscented FloatUnscentedThms
  FloatCovariance FloatCovarianceThms FloatLlt FloatLltThms FloatHeading FloatHeadingThms FloatPredict SigmaAccuracy
  Properties_FloatUnscented Properties_FloatCovariance Properties_FloatLlt.
Import ListNotations.
Local Open Scope R_scope.

(** ** Headings *)
Lemma heading_near (h : f64) (a : R) : is_finite h = true -> 0 <= B2R h <= 2 * B2R pi64 -> 0 <= a < 2 * PI ->
  turn_close (bpow radix2 (-45)) (B2R h) a -> bpow radix2 (-20) <= Rabs (a - 3.14159265359) ->
  is_finite (fusion_heading h) = true /\
  Rabs (B2R (fusion_heading h) - (if Rlt_dec 3.14159265359 a then a - 2 * 3.14159265359 else a)) <= bpow radix2 (-21).
Proof.
  intros F H Ha [k Hk] Far. destruct (heading_range h F H) as [F' _]. split; [exact F'|].
  destruct (heading_accuracy h F H) as [L1 L2].
  destruct pi64_value as [Ep _]. rewrite Ep in H. pose proof pi_real_close as PC. pose proof pi_eighteen as P18.
  destruct (conv32_value h 3 ltac:(lia) F) as [Ef _].
  { change (bpow radix2 3) with 8. pose proof pi_real_bounds. rewrite Rabs_pos_eq; lra. }
  pose proof (rnd32_near (B2R h) 3 ltac:(lia)) as N. rewrite <- Ef in N.
  assert (N' : Rabs (B2R (f32_of_f64 h) - B2R h) <= bpow radix2 (-22)).
  { apply N. change (bpow radix2 3) with 8. pose proof pi_real_bounds. rewrite Rabs_pos_eq; lra. }
  clear N. destruct literal_value as [El _]. rewrite El, lit_num in L1, L2.
  change (bpow radix2 (-45)) with (/ 35184372088832) in Hk. change (bpow radix2 (-20)) with (/ 1048576) in Far.
  change (bpow radix2 (-22)) with (/ 4194304) in N'. change (bpow radix2 (-23)) with (/ 8388608) in L1, L2.
  change (bpow radix2 (-52)) with (/ 4503599627370496) in PC. change (bpow radix2 (-21)) with (/ 2097152).
  apply Rabs_le_inv in Hk, N'.
  assert (K : (-1 <= k <= 1)%Z).
  { assert (-2 < IZR k < 2) by (split; nra). split.
    - assert (-2 < k)%Z by (apply lt_IZR; lra). lia.
    - assert (k < 2)%Z by (apply lt_IZR; lra). lia. }
  assert (C : k = 0%Z \/ k = 1%Z \/ k = (-1)%Z) by lia.
  destruct (Rlt_dec 3.14159265359 a) as [La|La].
  - rewrite (Rabs_pos_eq (a - _)) in Far by lra. destruct C as [->|[->| ->]]; [| lra |].
    + assert (G : 7074237752028906 / 2251799813685248 < B2R (f32_of_f64 h)) by lra. specialize (L2 G).
      apply Rabs_le_inv in L2. apply Rabs_le. lra.
    + assert (G : B2R (f32_of_f64 h) <= 7074237752028906 / 2251799813685248) by lra. specialize (L1 G).
      apply Rabs_le_inv in L1. apply Rabs_le. lra.
  - rewrite (Rabs_left1 (a - _)) in Far by lra. destruct C as [->|[->| ->]]; [| |lra].
    + assert (G : B2R (f32_of_f64 h) <= 7074237752028906 / 2251799813685248) by lra. specialize (L1 G).
      apply Rabs_le_inv in L1. apply Rabs_le. lra.
    + assert (G : 7074237752028906 / 2251799813685248 < B2R (f32_of_f64 h)) by lra. specialize (L2 G).
      apply Rabs_le_inv in L2. apply Rabs_le. lra.
Qed.

(** ** A double near an exact number, rounded to float *)
Lemma float_near (x : f64) (r M : R) : is_finite x = true -> bpow radix2 (-40) <= M <= bpow radix2 40 -> Rabs r <= M ->
  Rabs (B2R x - r) <= u32 / 2 * M ->
  is_finite (f32_of_f64 x) = true /\ Rabs (B2R (f32_of_f64 x) - r) <= 2 * u32 * M.
Proof.
  intros F HM Hr Hx. assert (U : 0 < u32 <= / 1000) by (unfold u32; lra).
  assert (M0 : 0 < M) by (eapply Rlt_le_trans; [apply (bpow_gt_0 radix2 (-40))|apply HM]).
  assert (S : Rabs (B2R x) <= (1 + u32 / 2) * M).
  { replace (B2R x) with (r + (B2R x - r)) by ring. eapply Rle_trans; [apply Rabs_triang|]. lra. }
  destruct (conv32_value x 41 ltac:(lia) F) as [E F'].
  { change 41%Z with (40 + 1)%Z. rewrite bpow_plus. change (bpow radix2 1) with 2. nra. }
  split; [exact F'|]. rewrite E.
  destruct (rnd32_rel (B2R x)) as (e & h & He & Hh & ->).
  replace (B2R x * (1 + e) + h - r) with ((B2R x - r) + B2R x * e + h) by ring.
  assert (Rabs (B2R x * e) <= (1 + u32 / 2) * M * u32) by (rewrite Rabs_mult; apply Rmult_le_compat; auto using Rabs_pos).
  assert (T : bpow radix2 (-150) <= u32 / 1000 * M).
  { apply Rle_trans with (u32 / 1000 * bpow radix2 (-40)); [|apply Rmult_le_compat_l; lra].
    apply Rle_trans with (bpow radix2 (-50) * bpow radix2 (-40)); [rewrite <- bpow_plus; apply bpow_le; lia|].
    apply Rmult_le_compat_r; [apply bpow_ge_0|]. unfold u32. cbn. lra. }
  eapply Rle_trans; [apply Rabs_triang|]. eapply Rle_trans; [apply Rplus_le_compat_r, Rabs_triang|].
  assert (0 <= u32 * M) by (apply Rmult_le_pos; lra).
  assert ((1 + u32 / 2) * M * u32 <= 1.001 * (u32 * M)).
  { replace ((1 + u32 / 2) * M * u32) with ((1 + u32 / 2) * (u32 * M)) by ring. apply Rmult_le_compat_r; lra. }
  lra.
Qed.

(** ** Means and covariances of points near others *)
Section Points.
Variables (n : Z) (Hn : n = 5%Z \/ n = 6%Z).
Lemma n56 : 5 <= IZR n <= 6. Proof. destruct Hn; subst; lra. Qed.
Lemma total_bound f l c : (forall i, In i l -> Rabs (f i) <= c) -> Rabs (total f l) <= INR (length l) * c.
Proof.
  intros H. eapply Rle_trans; [apply total_abs|]. rewrite <- total_const. now apply total_le.
Qed.
Lemma in_points i : In i (seq 1 (Z.to_nat (2 * n))) -> (i < points n)%nat.
Proof. intros H. apply in_seq in H. destruct Hn; subst; cbn in *; lia. Qed.
Lemma zero_point : (0 < points n)%nat. Proof. destruct Hn; subst; cbn; lia. Qed.
Lemma length_points : INR (length (seq 1 (Z.to_nat (2 * n)))) = 2 * IZR n.
Proof. rewrite seq_length, INR_IZR_INZ, Z2Nat.id by (destruct Hn; subst; lia). now rewrite mult_IZR. Qed.

(** [average w0 wi f]: w0 f(0) + wi (f(1) + ...) *)
Lemma average_bound w0 wi (f : nat -> R) c : 0 <= w0 -> 0 <= wi -> (forall i, (i < points n)%nat -> Rabs (f i) <= c) ->
  Rabs (w0 * f 0%nat + wi * total f (seq 1 (Z.to_nat (2 * n)))) <= (w0 + wi * (2 * IZR n)) * c.
Proof.
  intros H0 Hi H. eapply Rle_trans; [apply Rabs_triang|]. rewrite !Rabs_mult, (Rabs_pos_eq w0), (Rabs_pos_eq wi) by assumption.
  assert (A := H 0%nat zero_point). assert (B := total_bound f (seq 1 (Z.to_nat (2 * n))) c (fun i Hi => H i (in_points i Hi))).
  rewrite length_points in B. assert (w0 * Rabs (f 0%nat) <= w0 * c) by now apply Rmult_le_compat_l.
  assert (wi * Rabs (total f (seq 1 (Z.to_nat (2 * n)))) <= wi * (2 * IZR n * c)) by now apply Rmult_le_compat_l. lra.
Qed.
Lemma mean_perturbed (s e : nat -> nat -> R) j c : (forall i, (i < points n)%nat -> Rabs (s i j - e i j) <= c) ->
  Rabs (exact_mean n s j - exact_mean n e j) <= c.
Proof.
  intros H. pose proof n56 as N. unfold exact_mean.
  match goal with |- Rabs ?a <= _ => replace a with
    (2 / (IZR n + 2) * (s 0%nat j - e 0%nat j) + / (2 * (IZR n + 2)) * total (fun i => s i j - e i j) (seq 1 (Z.to_nat (2 * n)))) end.
  - eapply Rle_trans; [apply (average_bound _ _ (fun i => s i j - e i j) c); [| |exact H]|].
    + apply Rlt_le, Rdiv_lt_0_compat; lra.
    + apply Rlt_le, Rinv_0_lt_compat; lra.
    + replace ((2 / (IZR n + 2) + / (2 * (IZR n + 2)) * (2 * IZR n)) * c) with c by (field; lra). lra.
  - rewrite total_minus. ring.
Qed.
Lemma mean_bound (e : nat -> nat -> R) j M : (forall i, (i < points n)%nat -> Rabs (e i j) <= M) -> Rabs (exact_mean n e j) <= M.
Proof.
  intros H. pose proof n56 as N. unfold exact_mean.
  eapply Rle_trans; [apply (average_bound _ _ (fun i => e i j) M); [| |exact H]|].
  - apply Rlt_le, Rdiv_lt_0_compat; lra.
  - apply Rlt_le, Rinv_0_lt_compat; lra.
  - replace ((2 / (IZR n + 2) + / (2 * (IZR n + 2)) * (2 * IZR n)) * M) with M by (field; lra). lra.
Qed.
Lemma covariance_perturbed (s e : nat -> nat -> R) j k cj ck Dj Dk :
  (forall i, (i < points n)%nat -> Rabs (s i j - e i j) <= cj) -> (forall i, (i < points n)%nat -> Rabs (s i k - e i k) <= ck) ->
  (forall i, (i < points n)%nat -> Rabs (e i j - exact_mean n e j) <= Dj) ->
  (forall i, (i < points n)%nat -> Rabs (e i k - exact_mean n e k) <= Dk) ->
  Rabs (exact_covariance n s j k - exact_covariance n e j k) <= 4 * (cj * Dk + ck * Dj) + 8 * (cj * ck).
Proof.
  intros Sj Sk Ej Ek. pose proof n56 as N.
  pose proof (mean_perturbed s e j cj Sj) as Mj. pose proof (mean_perturbed s e k ck Sk) as Mk.
  set (ds i j := s i j - exact_mean n s j). set (de i j := e i j - exact_mean n e j).
  assert (A : forall i, (i < points n)%nat -> Rabs (ds i j * ds i k - de i j * de i k) <= 2 * cj * Dk + 2 * ck * Dj + 4 * (cj * ck)).
  { intros i Hi. specialize (Sj i Hi). specialize (Sk i Hi). specialize (Ej i Hi). specialize (Ek i Hi).
    assert (X : Rabs (ds i j - de i j) <= 2 * cj) by (unfold ds, de; apply Rabs_le_inv in Sj, Mj; apply Rabs_le; lra).
    assert (Y : Rabs (ds i k - de i k) <= 2 * ck) by (unfold ds, de; apply Rabs_le_inv in Sk, Mk; apply Rabs_le; lra).
    replace (ds i j * ds i k - de i j * de i k) with
      ((ds i j - de i j) * de i k + (ds i k - de i k) * de i j + (ds i j - de i j) * (ds i k - de i k)) by ring.
    eapply Rle_trans; [apply Rabs_triang|]. eapply Rle_trans; [apply Rplus_le_compat_r, Rabs_triang|]. rewrite !Rabs_mult.
    change (Rabs (de i j) <= Dj) in Ej. change (Rabs (de i k) <= Dk) in Ek.
    assert (Rabs (ds i j - de i j) * Rabs (de i k) <= 2 * cj * Dk) by (apply Rmult_le_compat; auto using Rabs_pos).
    assert (Rabs (ds i k - de i k) * Rabs (de i j) <= 2 * ck * Dj) by (apply Rmult_le_compat; auto using Rabs_pos).
    assert (Rabs (ds i j - de i j) * Rabs (ds i k - de i k) <= 2 * cj * (2 * ck)) by (apply Rmult_le_compat; auto using Rabs_pos).
    lra. }
  unfold exact_covariance. fold (ds 0%nat j) (ds 0%nat k) (de 0%nat j) (de 0%nat k).
  match goal with |- Rabs ?a <= _ => replace a with
    ((2 / (IZR n + 2) + 1) * (ds 0%nat j * ds 0%nat k - de 0%nat j * de 0%nat k) +
     / (2 * (IZR n + 2)) * total (fun i => ds i j * ds i k - de i j * de i k) (seq 1 (Z.to_nat (2 * n)))) end.
  - eapply Rle_trans; [apply (average_bound _ _ (fun i => ds i j * ds i k - de i j * de i k) (2 * cj * Dk + 2 * ck * Dj + 4 * (cj * ck))); [| |exact A]|].
    + assert (0 < 2 / (IZR n + 2)) by (apply Rdiv_lt_0_compat; lra). lra.
    + apply Rlt_le, Rinv_0_lt_compat; lra.
    + replace (2 / (IZR n + 2) + 1 + / (2 * (IZR n + 2)) * (2 * IZR n)) with 2 by (field; lra). lra.
  - rewrite total_minus. unfold ds, de. ring.
Qed.

(** The computed mean and covariance of floats near exact points *)
Lemma transform_near ox oP (s : nat -> nat -> f32) (e : nat -> nat -> R) j k Mj Mk Dj Dk :
  order_of (points n) (ox j) -> order_of (points n) (ox k) -> order_of (points n) (oP j k) ->
  bpow radix2 (-39) <= Mj <= bpow radix2 39 -> bpow radix2 (-39) <= Mk <= bpow radix2 39 ->
  0 <= Dj <= 2 * Mj -> 0 <= Dk <= 2 * Mk ->
  (forall i, (i < points n)%nat -> is_finite (s i j) = true /\ Rabs (B2R (s i j) - e i j) <= 2 * u32 * Mj) ->
  (forall i, (i < points n)%nat -> is_finite (s i k) = true /\ Rabs (B2R (s i k) - e i k) <= 2 * u32 * Mk) ->
  (forall i, (i < points n)%nat -> Rabs (e i j) <= Mj /\ Rabs (e i j - exact_mean n e j) <= Dj) ->
  (forall i, (i < points n)%nat -> Rabs (e i k) <= Mk /\ Rabs (e i k - exact_mean n e k) <= Dk) ->
  let '(Wm, Wc) := weights n (f32_of_Z 1) (f32_of_Z 1) (f32_of_Z 2) in
  let '(x, P) := compute_unscented_transform32 ox oP s Wm Wc in
  (is_finite (x j) = true /\ Rabs (B2R (x j) - exact_mean n e j) <= 18 * u32 * Mj) /\
  (is_finite (P j k) = true /\
   Rabs (B2R (P j k) - exact_covariance n e j k) <= 110 * u32 * (Mj * Dk + Mk * Dj) + 2000 * u32 * u32 * (Mj * Mk)).
Proof.
  intros Oj Ok O HMj HMk HDj HDk Hj Hk Ej Ek.
  assert (U : 0 < u32 <= / 1000000) by (unfold u32; lra).
  assert (Within : forall (l : nat) M D, bpow radix2 (-39) <= M <= bpow radix2 39 -> 0 <= D <= 2 * M ->
    (forall i, (i < points n)%nat -> is_finite (s i l) = true /\ Rabs (B2R (s i l) - e i l) <= 2 * u32 * M) ->
    (forall i, (i < points n)%nat -> Rabs (e i l) <= M /\ Rabs (e i l - exact_mean n e l) <= D) ->
    within n s ((1 + 2 * u32) * M) (D + 4 * u32 * M) l).
  { intros l M D HM HD Hs He.
    assert (M0 : 0 < M) by (eapply Rlt_le_trans; [apply (bpow_gt_0 radix2 (-39))|apply HM]).
    split.
    - split.
      + apply Rle_trans with (bpow radix2 (-39)); [apply bpow_le; lia|]. nra.
      + change 40%Z with (39 + 1)%Z. rewrite bpow_plus. change (bpow radix2 1) with 2. nra.
    - split; [nra|]. intros i Hi. destruct (Hs i Hi) as [F N]. destruct (He i Hi) as [B C]. split; [exact F|].
      pose proof (mean_perturbed (reals_of s) e l _ (fun i Hi => proj2 (Hs i Hi))) as Mn. fold (reals_of s i l) in N.
      apply Rabs_le_inv in N, B, C, Mn. split; apply Rabs_le; lra. }
  pose proof (Within j Mj Dj HMj HDj Hj Ej) as Wj. pose proof (Within k Mk Dk HMk HDk Hk Ek) as Wk.
  pose proof (C111_accuracy n ox oP s _ _ _ _ j k Hn Oj Ok O Wj Wk) as A. cbv zeta in A. unfold library_covariance in A.
  assert (Mj0 : 0 < Mj) by (eapply Rlt_le_trans; [apply (bpow_gt_0 radix2 (-39))|apply HMj]).
  assert (Mk0 : 0 < Mk) by (eapply Rlt_le_trans; [apply (bpow_gt_0 radix2 (-39))|apply HMk]).
  pose proof (C110_mean n (ox j) (fun i => s i j) ((1 + 2 * u32) * Mj) Hn Oj) as Bm. cbv zeta in Bm.
  destruct (weights n (f32_of_Z 1) (f32_of_Z 1) (f32_of_Z 2)) as [Wm Wc] eqn:EW.
  cbn [fst] in Bm. cbn [compute_unscented_transform32 snd] in A |- *. split.
  - destruct Bm as [Fm Am].
    + destruct Wj as [[H1 H2] _]. split; [eapply Rle_trans; [|exact H1]|eapply Rle_trans; [exact H2|]]; apply bpow_le; lia.
    + intros i Hi. destruct Wj as (_ & _ & W). destruct (W i Hi) as (F & B & _). split; [exact F|exact B].
    + split; [exact Fm|].
      pose proof (mean_perturbed (reals_of s) e j _ (fun i Hi => proj2 (Hj i Hi))) as Mn.
      change (2 / (IZR n + 2) * B2R (s 0%nat j) + / (2 * (IZR n + 2)) * total (fun i => B2R (s i j)) (seq 1 (Z.to_nat (2 * n))))
        with (exact_mean n (reals_of s) j) in Am.
      replace (/ 2 ^ 24) with u32 in Am by (unfold u32; cbn; lra). apply Rabs_le_inv in Am, Mn. apply Rabs_le.
      assert (15 * u32 * ((1 + 2 * u32) * Mj) <= 15.1 * u32 * Mj) by nra. nra.
  - destruct A as [FA A]. split; [exact FA|].
    pose proof (covariance_perturbed (reals_of s) e j k _ _ Dj Dk (fun i Hi => proj2 (Hj i Hi)) (fun i Hi => proj2 (Hk i Hi))
      (fun i Hi => proj2 (Ej i Hi)) (fun i Hi => proj2 (Ek i Hi))) as C.
    replace (100 / 2 ^ 24) with (100 * u32) in A by (unfold u32; cbn; lra).
    replace (1000 / 2 ^ 48) with (1000 * (u32 * u32)) in A by (unfold u32; cbn; lra).
    apply Rabs_le_inv in A, C.
    assert (Pjk : 0 < Mj * Mk) by now apply Rmult_lt_0_compat.
    assert (Q1 : 0 <= Mj * Dk) by (apply Rmult_le_pos; lra). assert (Q2 : 0 <= Mk * Dj) by (apply Rmult_le_pos; lra).
    assert (UU : 0 < u32 * u32) by now apply Rmult_lt_0_compat.
    assert (B1 : 100 * u32 * ((1 + 2 * u32) * Mj * (Dk + 4 * u32 * Mk) + (1 + 2 * u32) * Mk * (Dj + 4 * u32 * Mj))
      <= 100.1 * u32 * (Mj * Dk + Mk * Dj) + 801 * (u32 * u32) * (Mj * Mk)).
    { replace (100 * u32 * ((1 + 2 * u32) * Mj * (Dk + 4 * u32 * Mk) + (1 + 2 * u32) * Mk * (Dj + 4 * u32 * Mj))) with
        ((1 + 2 * u32) * (100 * u32 * (Mj * Dk + Mk * Dj) + 800 * (u32 * u32) * (Mj * Mk))) by ring.
      assert (0 <= u32 * (Mj * Dk + Mk * Dj)) by (apply Rmult_le_pos; lra).
      assert (0 <= u32 * u32 * (Mj * Mk)) by (apply Rmult_le_pos; lra). nra. }
    assert (B2 : 1000 * (u32 * u32) * ((1 + 2 * u32) * Mj * ((1 + 2 * u32) * Mk)) <= 1001 * (u32 * u32) * (Mj * Mk)).
    { replace (1000 * (u32 * u32) * ((1 + 2 * u32) * Mj * ((1 + 2 * u32) * Mk))) with
        (1000 * ((1 + 2 * u32) * (1 + 2 * u32)) * (u32 * u32 * (Mj * Mk))) by ring.
      assert (0 <= u32 * u32 * (Mj * Mk)) by (apply Rmult_le_pos; lra).
      assert ((1 + 2 * u32) * (1 + 2 * u32) <= 1.001) by nra. nra. }
    assert (0 <= u32 * (Mj * Dk + Mk * Dj)) by (apply Rmult_le_pos; lra).
    assert (0 <= u32 * u32 * (Mj * Mk)) by (apply Rmult_le_pos; lra).
    apply Rabs_le. lra.
Qed.
End Points.
