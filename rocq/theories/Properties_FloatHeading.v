(** Headings in the fusion in single precision: property C94 of properties.jsonl. *)
From Coq Require Import ZArith Reals Lra Lia Bool.
From Flocq Require Import Core IEEE754.BinarySingleNaN.
From Verif Require Import Float Motion DoubleArith DoubleThms FloatDistanceThms FloatHeading FloatHeadingThms Properties_Motion.
Local Open Scope R_scope.

(** ** C94: a heading between 0 and two pi (the range of get_angle in double
    precision, C51) enters the fusion as a float of absolute value at most
    13176794 * 2^-22, the largest float below the constant 3.14159265359. *)
Theorem C94_range : forall h : f64, is_finite h = true -> 0 <= B2R h <= 2 * B2R pi64 ->
  is_finite (fusion_heading h) = true /\ Rabs (B2R (fusion_heading h)) <= 13176794 * bpow radix2 (-22) < B2R literal_pi.
Proof.
  intros h F H. destruct (heading_range h F H) as [F' R]. split; [exact F'|]. split; [exact R|].
  destruct literal_value as [-> _]. rewrite k22, lit_num. lra.
Qed.
(** It is the heading itself or the heading minus two pi, up to less than 2^-21. *)
Theorem C94_accuracy : forall h : f64, is_finite h = true -> 0 <= B2R h <= 2 * B2R pi64 ->
  (B2R (f32_of_f64 h) <= B2R literal_pi -> Rabs (B2R (fusion_heading h) - B2R h) <= bpow radix2 (-23)) /\
  (B2R literal_pi < B2R (f32_of_f64 h) ->
    Rabs (B2R (fusion_heading h) - (B2R h - 2 * 3.14159265359)) <= 3.01 * bpow radix2 (-23)).
Proof. exact heading_accuracy. Qed.
(** Headings on the same side of the constant keep their difference; headings on
    different sides are treated as if they were a full turn minus their difference
    apart. *)
Theorem C94_differences : forall h h' : f64,
  is_finite h = true -> 0 <= B2R h <= 2 * B2R pi64 -> is_finite h' = true -> 0 <= B2R h' <= 2 * B2R pi64 ->
  let high x := B2R literal_pi < B2R (f32_of_f64 x) in
  let difference := B2R (fusion_heading h) - B2R (fusion_heading h') in
  ((high h <-> high h') -> Rabs (difference - (B2R h - B2R h')) <= bpow radix2 (-20)) /\
  (~ high h -> high h' -> Rabs (difference - (2 * 3.14159265359 - (B2R h' - B2R h))) <= bpow radix2 (-20)).
Proof.
  intros h h' F H F' H' high difference.
  destruct (C94_accuracy h F H) as [L1 G1]. destruct (C94_accuracy h' F' H') as [L2 G2].
  assert (E : bpow radix2 (-20) = 8 * bpow radix2 (-23)) by (cbn; lra). rewrite E.
  assert (P := bpow_gt_0 radix2 (-23)).
  split; [intros Hs|intros N1 N2].
  - destruct (Rlt_or_le (B2R literal_pi) (B2R (f32_of_f64 h))) as [A|A].
    + assert (A' := proj1 Hs A). specialize (G1 A). specialize (G2 A').
      apply Rabs_le_inv in G1. apply Rabs_le_inv in G2. unfold difference. apply Rabs_le. lra.
    + assert (A' : B2R (f32_of_f64 h') <= B2R literal_pi) by (apply Rnot_lt_le; intros B; apply Hs in B; unfold high in B; lra).
      specialize (L1 A). specialize (L2 A').
      apply Rabs_le_inv in L1. apply Rabs_le_inv in L2. unfold difference. apply Rabs_le. lra.
  - specialize (L1 (Rnot_lt_le _ _ N1)). specialize (G2 N2).
    apply Rabs_le_inv in L1. apply Rabs_le_inv in G2. unfold difference. apply Rabs_le. lra.
Qed.
(** Two neighbouring floats, with no float in between, become opposite numbers:
    fused with equal weight their headings cancel to 0, the direction opposite to
    both. *)
Theorem C94_neighbours_refuted : exists x y : f32,
  is_finite x = true /\ is_finite y = true /\
  B2R y = B2R x + bpow radix2 (-22) /\ (forall z : f32, B2R x < B2R z -> B2R y <= B2R z) /\
  wrap32 x = x /\ 3.14159 < B2R x < 3.1416 /\ B2R (wrap32 x) + B2R (wrap32 y) = 0.
Proof.
  exists below_pi, above_pi.
  destruct (normal32_value 13176794) as [E1 F1]; [cbn; lia|]. destruct (normal32_value 13176795) as [E2 F2]; [cbn; lia|].
  destruct seam as [S1 S2].
  change (is_finite below_pi = true) in F1. change (is_finite above_pi = true) in F2.
  change (B2R below_pi = 13176794 * bpow radix2 (-22)) in E1. change (B2R above_pi = 13176795 * bpow radix2 (-22)) in E2.
  split; [exact F1|]. split; [exact F2|]. split; [rewrite E1, E2; lra|]. split.
  { intros z Hz. rewrite E2. apply Rnot_lt_le. intros Hz'. rewrite E1 in Hz.
    destruct (Rle_or_lt (B2R z) lit) as [G|G].
    - destruct (is_finite z) eqn:Fz.
      + destruct (wrap_range z Fz) as [_ R]; [rewrite k22 in *; rewrite lit_num in G; lra|].
        rewrite (wrap_low z Fz G) in R. apply Rabs_le_inv in R. lra.
      + destruct z; try discriminate; cbn in Hz; lra.
    - assert (Fm : generic_format radix2 (SpecFloat.fexp 24 128) (B2R z)) by apply generic_format_B2R.
      pose proof (next_float _ Fm G). lra. }
  split; [exact S1|]. split; [rewrite E1, k22; lra|]. rewrite S1, S2. ring.
Qed.
(** Wrapping twice is wrapping once; values that are not numbers or infinite stay. *)
Theorem C94_twice : forall x : f32, (is_finite x = true -> B2R x <= 8) -> wrap32 (wrap32 x) = wrap32 x.
Proof.
  intros x H. destruct (is_finite x) eqn:F; [apply wrap_idem; auto|]. rewrite !wrap_not_finite; [reflexivity|exact F|].
  now rewrite wrap_not_finite.
Qed.
Theorem C94_not_finite : forall x : f32, is_finite x = false -> wrap32 x = x.
Proof. exact wrap_not_finite. Qed.
(** The headings 1 and 5: the first stays, the second is moved by a full turn. *)
Example C94_case :
  let h := f64_of_Z 1 in let h' := f64_of_Z 5 in
  is_finite h = true /\ 0 <= B2R h <= 2 * B2R pi64 /\ is_finite h' = true /\ 0 <= B2R h' <= 2 * B2R pi64 /\
  ~ B2R literal_pi < B2R (f32_of_f64 h) /\ B2R literal_pi < B2R (f32_of_f64 h').
Proof.
  cbv zeta. destruct (int64_value 1) as [E F]; [cbn; lia|]. destruct (int64_value 5) as [E' F']; [cbn; lia|].
  destruct pi64_value as [Ep _]. pose proof pi_real_bounds. destruct literal_value as [El _].
  assert (B : 0 <= B2R (f64_of_Z 1) <= 2 * B2R pi64) by (rewrite E, Ep; lra).
  assert (B' : 0 <= B2R (f64_of_Z 5) <= 2 * B2R pi64) by (rewrite E', Ep; lra).
  destruct (heading_float _ F B) as (_ & _ & N & _). destruct (heading_float _ F' B') as (_ & _ & N' & _).
  apply Rabs_le_inv in N. apply Rabs_le_inv in N'. rewrite E, k22 in N. rewrite E', k22 in N'.
  repeat (split; [assumption|]). rewrite El, lit_num. lra.
Qed.

Print Assumptions C94_range.
Print Assumptions C94_accuracy.
Print Assumptions C94_differences.
Print Assumptions C94_neighbours_refuted.
Print Assumptions C94_twice.
Print Assumptions C94_not_finite.
