(** Centroids of clusters in double precision: property C107. *)
From stdpp Require Import gmap strings.
From Coq Require Import ZArith Reals Lra Lia.
From Flocq Require Import Core IEEE754.BinarySingleNaN.
From Verif Require Import Base Uuid DynObj Float Motion RealArith DoubleArith DoubleThms SumSquares64 PiDouble TrigSpec AngleAccuracy TrigExists MotionAccuracy
  Clustering ClusteringSpec ClusteringThms ClusteringCentroid ClusteringExamples CentroidDouble.
Local Open Scope R_scope.

(** C107: with numbers of at most the size M, the entries of a centroid are within
    rounding errors of the mean of the members ... *)
Theorem C107_mean sine cosine phase {D} (d_uuid : D → uuid) (fields : D → point (doubles sine cosine phase))
    (f : point (doubles sine cosine phase) → f64) (h : list (op D)) (l : list D) (M : R) q :
  f = p_x ∨ f = p_y ∨ f = p_vel ∨ f = p_rate →
  tidy d_uuid h → (Z.of_nat (length h) <= 2 ^ 20)%Z → 0 <= M <= bpow radix2 900 →
  (∀ d, Add d ∈ h → is_finite (f (fields d)) = true ∧ Rabs (B2R (f (fields d))) <= M) →
  members (run d_uuid fields h) l → get_centroid (A := doubles sine cosine phase) size64 (run d_uuid fields h) = Ok q →
  is_finite (f q) = true ∧
  Rabs (B2R (f q) - total (λ d, B2R (f (fields d))) l / INR (length l))
    <= INR (length h) ^ 2 / INR (length l) * bpow radix2 (-51) * M + bpow radix2 (-1075).
Proof.
  intros Hf. apply (centroid_close sine cosine phase d_uuid fields f);
    destruct Hf as [->|[->|[->| ->]]]; reflexivity.
Qed.
(** ... in particular for the clusters made by cluster_detections ... *)
Theorem C107_clusters sine cosine phase {D B} (d_uuid : D → uuid) (fields : D → point (doubles sine cosine phase))
    (below : B → B → bool) thr metric (f : point (doubles sine cosine phase) → f64) (ds : list D) cs (M : R) :
  f = p_x ∨ f = p_y ∨ f = p_vel ∨ f = p_rate → NoDup (d_uuid <$> ds) → (Z.of_nat (length ds) <= 2 ^ 20)%Z → 0 <= M <= bpow radix2 900 →
  (∀ d, d ∈ ds → is_finite (f (fields d)) = true ∧ Rabs (B2R (f (fields d))) <= M) →
  cluster_loop d_uuid fields below thr metric (length ds) ds = Some cs →
  ∀ c q l, c ∈ cs → members c l → get_centroid (A := doubles sine cosine phase) size64 c = Ok q →
  is_finite (f q) = true ∧
  Rabs (B2R (f q) - total (λ d, B2R (f (fields d))) l / INR (length l))
    <= INR (length l) * bpow radix2 (-51) * M + bpow radix2 (-1075).
Proof.
  intros Hf Hn Hl HM Hd Hc c q l Hin Hm Hq.
  destruct (loop_history d_uuid fields below thr metric ds cs Hn Hc c l Hin Hm) as (g & -> & Ht & Hg & Eg & Lg).
  assert (length (Add <$> g) = length l) as El by (by rewrite fmap_length).
  destruct (C107_mean sine cosine phase d_uuid fields f (Add <$> g) l M q) as [F E]; try done.
  { rewrite El. lia. }
  { intros d (d' & [= <-] & H)%elem_of_list_fmap. by apply Hd, Hg. }
  split; [exact F|]. eapply Rle_trans; [exact E|]. rewrite El.
  assert (0 < INR (length l)) as N0.
  { destruct l; [|apply lt_0_INR; cbn; lia]. exfalso. unfold get_centroid in Hq. destruct (decide _) as [|H]; [done|].
    unfold members in Hm. apply Permutation_nil in Hm. apply fmap_nil_inv, map_to_list_empty_iff in Hm. done. }
  apply Req_le. f_equal. field. lra.
Qed.
(** ... and the heading is the sum of the headings, brought into one turn with an
    error, divided by the number ... *)
Theorem C107_heading sine cosine phase {D} (d_uuid : D → uuid) (fields : D → point (doubles sine cosine phase))
    (h : list (op D)) (l : list D) q :
  accurate sine cosine phase → tidy d_uuid h → (Z.of_nat (length l) <= 2 ^ 20)%Z →
  (∀ d, Add d ∈ h → proper sine cosine phase (p_yaw (fields d))) →
  members (run d_uuid fields h) l → get_centroid (A := doubles sine cosine phase) size64 (run d_uuid fields h) = Ok q →
  proper sine cosine phase (p_yaw q) ∧ ∃ w : R, 0 <= w <= 2 * B2R pi64 ∧
    turn_close ((INR (length h) + 1) * bpow radix2 (-48)) w (total (λ d, B2R (get_angle (p_yaw (fields d)) : f64)) l) ∧
    turn_close (bpow radix2 (-48)) (B2R (get_angle (p_yaw q) : f64)) (w / INR (length l)).
Proof. intros ACC. exact (heading_close sine cosine phase ACC d_uuid fields h l q). Qed.
(** ... so it is close to the mean if the headings add up to less than a turn. *)
Theorem C107_heading_mean sine cosine phase {D} (d_uuid : D → uuid) (fields : D → point (doubles sine cosine phase))
    (h : list (op D)) (l : list D) q :
  accurate sine cosine phase → tidy d_uuid h → (Z.of_nat (length l) <= 2 ^ 20)%Z →
  (∀ d, Add d ∈ h → proper sine cosine phase (p_yaw (fields d))) →
  members (run d_uuid fields h) l → get_centroid (A := doubles sine cosine phase) size64 (run d_uuid fields h) = Ok q →
  let sum := total (λ d, B2R (get_angle (p_yaw (fields d)) : f64)) l in
  let err := (INR (length h) + 1) * bpow radix2 (-48) in
  err < sum → sum < 2 * PI - err →
  turn_close (((INR (length h) + 1) / INR (length l) + 1) * bpow radix2 (-48))
    (B2R (get_angle (p_yaw q) : f64)) (sum / INR (length l)).
Proof. intros ACC. exact (heading_mean sine cosine phase ACC d_uuid fields h l q). Qed.
(** The error depends on everything that was ever in the cluster: a detection that
    was added and removed again leaves a centroid that has nothing to do with the
    only member. *)
Theorem C107_removal_refuted sine cosine phase {D} (d_uuid : D → uuid) (fields : D → point (doubles sine cosine phase)) (a b : D) (k : Z) :
  (-900 <= k <= 1000)%Z → d_uuid a ≠ d_uuid b →
  is_finite (p_x (fields a) : f64) = true → is_finite (p_x (fields b) : f64) = true →
  Rabs (B2R (p_x (fields a) : f64)) <= bpow radix2 (k - 55) → B2R (p_x (fields b) : f64) = bpow radix2 k →
  let c := run d_uuid fields [Add a; Add b; Remove (d_uuid b)] in
  members c [a] ∧ ∃ q, get_centroid (A := doubles sine cosine phase) size64 c = Ok q ∧
    is_finite (p_x q : f64) = true ∧ B2R (p_x q : f64) = 0.
Proof. exact (outlier sine cosine phase d_uuid fields a b k). Qed.
Print Assumptions C107_mean.
Print Assumptions C107_clusters.
Print Assumptions C107_heading.
Print Assumptions C107_heading_mean.
Print Assumptions C107_removal_refuted.

(** Detections at (x, 0) with the heading of one radian; two of three remain. *)
Section Case.
  Let sn (x : f64) : f64 := near64 (sin (B2R x)).
  Let cs (x : f64) : f64 := near64 (cos (B2R x)).
  Let ar (x y : f64) : f64 := near64 (argR (B2R x) (B2R y)).
  Let at64 (d : uuid * Z) : point (doubles sn cs ar) :=
    Point (A := doubles sn cs ar) (f64_of_Z d.2) (f64_of_Z 0) (f64_of_Z 0) (angle_of (A := doubles sn cs ar) (f64_of_Z 1)) (f64_of_Z 0).
  Let h : list (op (uuid * Z)) := [Add (uA, 1%Z); Add (uB, 2%Z); Remove uA; Add (uC, 4%Z)].
  Let l : list (uuid * Z) := [(uB, 2%Z); (uC, 4%Z)].
  Example C107_case :
    tidy fst h ∧ members (run fst at64 h) l ∧ (∃ q, get_centroid (A := doubles sn cs ar) size64 (run fst at64 h) = Ok q) ∧
    (∀ d, Add d ∈ h → is_finite (p_x (at64 d) : f64) = true ∧ Rabs (B2R (p_x (at64 d) : f64)) <= 4) ∧
    accurate sn cs ar ∧ (∀ d, Add d ∈ h → proper sn cs ar (p_yaw (at64 d))) ∧
    (INR (length h) + 1) * bpow radix2 (-48) < total (λ d, B2R (get_angle (p_yaw (at64 d)) : f64)) l < 2 * PI - (INR (length h) + 1) * bpow radix2 (-48).
  Proof.
    assert (accurate sn cs ar) as ACC by exact accurate_exists.
    split; [apply tidy_by; reflexivity|].
    split; [unfold members; first [reflexivity|apply Permutation_swap]|].
    split; [eexists; reflexivity|]. split.
    { assert (∀ z, (1 <= z <= 4)%Z → is_finite (f64_of_Z z) = true ∧ Rabs (B2R (f64_of_Z z)) <= 4) as Q.
      { intros z Hz. destruct (int64_value z) as [E F]; [lia|]. split; [exact F|]. rewrite E.
        assert (1 <= IZR z <= 4) as B by (split; apply IZR_le; lia). rewrite Rabs_pos_eq; lra. }
      intros d Hd. unfold h in Hd. rewrite !elem_of_cons, elem_of_nil in Hd.
      destruct Hd as [[= ->]|[[= ->]|[[=]|[[= ->]|[]]]]]; apply Q; cbn; lia. }
    destruct (int64_value 1) as [E1 F1]; [cbn; lia|].
    split; [exact ACC|]. split; [intros d _; by apply angle_of_proper|].
    destruct (angle_roundtrip _ _ _ ACC _ F1) as (_ & B & [k T]). rewrite E1 in T.
    unfold l, total. cbn [foldr at64 p_yaw]. set (w := B2R (get_angle (angle_of (A := doubles sn cs ar) (f64_of_Z 1)) : f64)) in *.
    assert (u52 <= / 1000000) as Hu by (rewrite u52_value; lra).
    pose proof pi_eighteen as P18. pose proof pi_real_close as PC. destruct pi64_value as [Ep _]. rewrite Ep in B.
    assert (k = 0%Z) as ->.
    { apply Rabs_le_inv in T. destruct (Z_lt_le_dec k 0) as [N|N]; [|destruct (Z_lt_le_dec 0 k) as [Q|Q]]; [| |lia].
      - assert (IZR k <= -1) as Kk by (apply IZR_le; lia).
        assert (IZR k * (2 * PI) <= -1 * (2 * PI)) by (apply Rmult_le_compat_r; lra). lra.
      - assert (1 <= IZR k) as Kk by (apply IZR_le; lia).
        assert (1 * (2 * PI) <= IZR k * (2 * PI)) by (apply Rmult_le_compat_r; lra). lra. }
    apply Rabs_le_inv in T. cbn [length h INR]. change (bpow radix2 (-48)) with (/ 281474976710656). lra.
  Qed.
End Case.
(** A detection at 1 next to one at 2^55 *)
Example C107_removal_case : Rabs (B2R (f64_of_Z 1)) <= bpow radix2 (55 - 55) ∧
  B2R (binary_normalize 53 1024 _ _ mode_NE 1 55 false : f64) = bpow radix2 55.
Proof.
  destruct (int64_value 1) as [E F]; [cbn; lia|]. rewrite E. split; [change (Rabs 1 <= 1); rewrite Rabs_pos_eq; lra|].
  destruct (value_of_normal 1 55) as [-> _]; try lia. lra.
Qed.
