(** Fusion of a track and a detection in the number types of the code, for uncorrelated
    components: property C118.  The model is FloatFusion.v with the inverse of FloatLu.v:
    states in doubles; vectors, covariances and the weight in floats.  Nothing is assumed
    about the orders in which Eigen multiplies and adds up, collected in [o].  The
    fusion in real numbers is in FusionAccuracySpec.v. *)
From Coq Require Import ZArith Reals Lra Lia List Arith Bool Permutation.
From Flocq Require Import Core IEEE754.BinarySingleNaN.
From Verif Require Import Float FloatProofs Motion DoubleArith PiDouble TrigSpec AngleAccuracy FloatDistance FloatDistanceThms FloatWeight
  FloatWeightThms FloatHeading FloatHeadingThms FloatPredict FloatLu FloatFusion FloatMahalanobisErr FloatFusionThms FusionAccuracySpec DoubleThms FloatUnscentedThms.
Import ListNotations.
Open Scope R_scope.

(** The variances of a covariance matrix *)
Definition variances (P : nat -> nat -> f32) (i : nat) : R := B2R (P i i).
(** A covariance without correlations, the variances between 2^-20 and 2^20 *)
Definition no_correlations (n : nat) (P : nat -> nat -> f32) : Prop :=
  forall i j, (i < n)%nat -> (j < n)%nat -> is_finite (P i j) = true /\
    (i <> j -> B2R (P i j) = 0) /\ bpow radix2 (-20) <= variances P i <= bpow radix2 20.
(** Each entry is used once *)
Definition orders_fit (n : nat) (o : fusion_orders) : Prop :=
  order_of n (order_diagonal o) /\
  match order_information o with
  | On_matrix t | On_vector t => forall i, (i < n)%nat -> order_of (2 * n) (t i)
  | On_product t1 t2 => forall i, (i < n)%nat -> order_of n (t1 i) /\ order_of n (t2 i)
  end /\
  forall i, (i < n)%nat -> order_of n (order_fused o i).

(** The weight is that of the given variances ... *)
Definition weight_near (n : nat) (P1 P2 : nat -> nat -> f32) (weight : f32) : Prop :=
  is_finite weight = true /\ 0 <= B2R weight <= 1 /\
  Rabs (B2R weight - exact_weight n (variances P1) (variances P2)) <= bpow radix2 (-18).
(** ... the covariance that of the intersection with the computed weight, ... *)
Definition covariance_near (n : nat) (P1 P2 : nat -> nat -> f32) (weight : f32) (P : nat -> nat -> f32) : Prop :=
  forall i j, (i < n)%nat -> (j < n)%nat -> is_finite (P i j) = true /\ (i <> j -> B2R (P i j) = 0) /\
    let exact := ci_variance (B2R weight) (variances P1 i) (variances P2 i) in
    Rabs (variances P i - exact) <= 6 / 2 ^ 24 * exact.
(** ... and so is each component, number i of the vectors, up to 14 roundings of the larger
    of the given values. *)
Definition component_near (P1 P2 : nat -> nat -> f32) (weight : f32) (i : nat) (x1 x2 x : f64) : Prop :=
  is_finite x = true /\
  Rabs (B2R x - ci_mean (B2R weight) (variances P1 i) (B2R x1) (variances P2 i) (B2R x2)) <=
    14 / 2 ^ 24 * Rmax (Rabs (B2R x1)) (Rabs (B2R x2)) + bpow radix2 (-49).
(** Between two numbers, up to [e] *)
Definition between (e x1 x2 x : R) : Prop := Rmin x1 x2 - e <= x <= Rmax x1 x2 + e.

(** Doubles up to 2^59 *)
Definition usable (x : f64) : Prop := is_finite x = true /\ Rabs (B2R x) <= bpow radix2 59.

Section Fusion.
Variables (sine cosine : f64 -> f64) (phase : f64 -> f64 -> f64).
Notation D := (doubles sine cosine phase).
Notation CV := (ctrv64 sine cosine phase).
Notation CA := (ctra64 sine cosine phase).
Definition usable_ctrv (s : ctrv_state D) : Prop :=
  usable (v_x s) /\ usable (v_y s) /\ usable (v_vel s) /\ proper sine cosine phase (v_yaw s) /\ usable (v_rate s).
Definition usable_ctra (s : ctra_state D) : Prop :=
  usable (a_x s) /\ usable (a_y s) /\ usable (a_vel s) /\ proper sine cosine phase (a_yaw s) /\ usable (a_rate s) /\ usable (a_acc s).
(** The headings enter the fusion as [fusion_heading] gives them (property C94). *)
Definition heading_near (P1 P2 : nat -> nat -> f32) (weight : f32) (z1 z2 z : angle D) : Prop :=
  turn_close (bpow radix2 (-18)) (B2R (get_angle z : f64))
    (ci_mean (B2R weight) (variances P1 3) (B2R (fusion_heading (get_angle z1))) (variances P2 3) (B2R (fusion_heading (get_angle z2)))).

Lemma uncorrelated_of n P : no_correlations n P -> uncorrelated n P.
Proof.
  intros H. split.
  - intros i j Hi Hj N. destruct (H i j Hi Hj) as (F & Z & _). auto.
  - intros i Hi. destruct (H i i Hi Hi) as (F & _ & B). now split.
Qed.
Lemma fit_of n o : orders_fit n o -> fusion_orders_fit n o.
Proof. intros (A & B & C). split; [exact A|]. split; [|exact C]. destruct (order_information o); exact B. Qed.
Lemma ci_convex w p1 p2 : 0 <= w <= 1 -> 0 < p1 -> 0 < p2 ->
  exists l, 0 <= l <= 1 /\ forall x1 x2, ci_mean w p1 x1 p2 x2 = l * x1 + (1 - l) * x2.
Proof.
  intros Hw H1 H2. unfold ci_mean, ci_information. pose proof (Rinv_0_lt_compat _ H1) as I1. pose proof (Rinv_0_lt_compat _ H2) as I2.
  unfold Rdiv. set (a := w * / p1). set (b := (1 - w) * / p2).
  assert (a0 : 0 <= a) by (apply Rmult_le_pos; lra). assert (b0 : 0 <= b) by (apply Rmult_le_pos; lra).
  assert (ab : 0 < a + b).
  { destruct (Rle_lt_dec w (/ 2)); [assert (0 < b) by (apply Rmult_lt_0_compat; lra)|assert (0 < a) by (apply Rmult_lt_0_compat; lra)]; lra. }
  exists (a * / (a + b)). split.
  - split; [apply Rmult_le_pos; [exact a0|left; now apply Rinv_0_lt_compat]|].
    apply (Rmult_le_reg_r (a + b)); [exact ab|]. rewrite Rmult_assoc, Rinv_l by lra. lra.
  - intros x1 x2. field. lra.
Qed.

Lemma usable_float (x : f64) : usable x -> is_finite (f32_of_f64 x) = true /\ Rabs (B2R (f32_of_f64 x)) <= bpow radix2 60 /\
  Rabs (B2R (f32_of_f64 x) - B2R x) <= u32 * Rabs (B2R x) + bpow radix2 (-150).
Proof.
  intros [F B]. destruct (conv32_value x 59 ltac:(lia) F B) as [E G]. split; [exact G|]. rewrite E. split.
  - eapply Rle_trans; [apply (rnd32_bound _ 59); [lia|exact B]|apply bpow_le; lia].
  - destruct (rnd32_rel (B2R x)) as (e & h & He & Hh & ->). replace (B2R x * (1 + e) + h - B2R x) with (e * B2R x + h) by ring.
    eapply Rle_trans; [apply Rabs_triang|]. rewrite Rabs_mult. pose proof (Rabs_pos (B2R x)).
    assert (Rabs e * Rabs (B2R x) <= u32 * Rabs (B2R x)) by (apply Rmult_le_compat_r; lra). lra.
Qed.

Section Any.
Variables (n : nat) (o : fusion_orders) (P1 P2 : nat -> nat -> f32).
Hypotheses (n6 : (n <= 6)%nat) (O : orders_fit n o) (U1 : no_correlations n P1) (U2 : no_correlations n P2).
Notation w := (generate_weight32 n (order_diagonal o) (inverse32 n P1) (inverse32 n P2)).
Lemma any_weight : weight_near n P1 P2 w.
Proof.
  destruct (w_range n o P1 P2 n6 (fit_of n o O) (uncorrelated_of n P1 U1) (uncorrelated_of n P2 U2)) as [F R].
  split; [exact F|]. split; [exact R|].
  exact (w_accurate n o P1 P2 n6 (fit_of n o O) (uncorrelated_of n P1 U1) (uncorrelated_of n P2 U2)).
Qed.
Lemma positive_variances i : (i < n)%nat -> 0 < variances P1 i /\ 0 < variances P2 i.
Proof. intros Hi. pose proof (bpow_gt_0 radix2 (-20)). destruct (U1 i i Hi Hi) as (_ & _ & ?), (U2 i i Hi Hi) as (_ & _ & ?). lra. Qed.
Lemma any_covariance : covariance_near n P1 P2 w (inverse32 n (fun i j => combined32 w (inverse32 n P1 i j) (inverse32 n P2 i j))).
Proof.
  intros i j Hi Hj.
  destruct (w_range n o P1 P2 n6 (fit_of n o O) (uncorrelated_of n P1 U1) (uncorrelated_of n P2 U2)) as [F R].
  destruct (fused_diagonal n o P1 P2 n6 (fit_of n o O) (uncorrelated_of n P1 U1) (uncorrelated_of n P2 U2)) as [Z E].
  unfold FloatFusionThms.w in *. destruct (E i Hi) as [Ei Ri].
  destruct (variance_near w (P1 i i) (P2 i i) F R (sane1 n P1 (uncorrelated_of n P1 U1) i Hi) (sane2 n P2 (uncorrelated_of n P2 U2) i Hi)) as [V (_ & N & _)].
  split; [|split].
  - destruct (Nat.eq_dec i j) as [<-|Nij]; [rewrite Ei; exact V|]. apply FloatDiagonal.zero_finite. now apply Z.
  - intros Nij. apply FloatDiagonal.zero_value. now apply Z.
  - cbv zeta. unfold variances at 1. rewrite Ei. destruct (positive_variances i Hi) as [v1 v2].
    unfold ci_variance, ci_information, Rdiv. eapply Rle_trans; [exact N|]. unfold variances.
    apply Rmult_le_compat_r; [|unfold u32; lra]. left. apply Rinv_0_lt_compat.
    pose proof (FloatFusionThms.C_range w (P1 i i) (P2 i i) R (sane1 n P1 (uncorrelated_of n P1 U1) i Hi) (sane2 n P2 (uncorrelated_of n P2 U2) i Hi)) as CR.
    pose proof (bpow_gt_0 radix2 (-20)). lra.
Qed.
Notation fused m1 m2 := (fst (compute_covariance_intersection32 n o m1 (inverse32 n P1) m2 (inverse32 n P2) w)).
Lemma any_mean (m1 m2 : nat -> f32) i X :
  (forall k, (k < n)%nat -> is_finite (mean_copy32 m1 k) = true /\ Rabs (B2R (mean_copy32 m1 k)) <= bpow radix2 60) ->
  (forall k, (k < n)%nat -> is_finite (mean_copy32 m2 k) = true /\ Rabs (B2R (mean_copy32 m2 k)) <= bpow radix2 60) ->
  (i < n)%nat -> Rabs (B2R (mean_copy32 m1 i)) <= X -> Rabs (B2R (mean_copy32 m2 i)) <= X -> X <= bpow radix2 60 ->
  is_finite (fused m1 m2 i) = true /\
  Rabs (B2R (fused m1 m2 i) - ci_mean (B2R w) (variances P1 i) (B2R (mean_copy32 m1 i)) (variances P2 i) (B2R (mean_copy32 m2 i))) <= 12 * u32 * X + bpow radix2 (-50).
Proof.
  intros F1 F2 Hi B1 B2 BX.
  exact (mean_near n o P1 P2 n6 (fit_of n o O) (uncorrelated_of n P1 U1) (uncorrelated_of n P2 U2) (mean_copy32 m1) (mean_copy32 m2) F1 F2 i X Hi B1 B2 BX).
Qed.
Lemma any_component (m1 m2 : nat -> f32) (x1 x2 : f64) i :
  (forall k, (k < n)%nat -> is_finite (mean_copy32 m1 k) = true /\ Rabs (B2R (mean_copy32 m1 k)) <= bpow radix2 60) ->
  (forall k, (k < n)%nat -> is_finite (mean_copy32 m2 k) = true /\ Rabs (B2R (mean_copy32 m2 k)) <= bpow radix2 60) ->
  (i < n)%nat -> i <> 3%nat -> usable x1 -> usable x2 -> m1 i = f32_of_f64 x1 -> m2 i = f32_of_f64 x2 ->
  component_near P1 P2 w i x1 x2 (f64_of_f32 (fused m1 m2 i)).
Proof.
  intros F1 F2 Hi N3 V1 V2 E1 E2. destruct (usable_float x1 V1) as (G1 & S1 & A1). destruct (usable_float x2 V2) as (G2 & S2 & A2).
  assert (C1 : mean_copy32 m1 i = f32_of_f64 x1) by (unfold mean_copy32; destruct (Nat.eqb_spec i 3); [contradiction|exact E1]).
  assert (C2 : mean_copy32 m2 i = f32_of_f64 x2) by (unfold mean_copy32; destruct (Nat.eqb_spec i 3); [contradiction|exact E2]).
  set (M := Rmax (Rabs (B2R x1)) (Rabs (B2R x2))).
  assert (M1 : Rabs (B2R x1) <= M) by apply Rmax_l. assert (M2 : Rabs (B2R x2) <= M) by apply Rmax_r.
  assert (M0 : 0 <= M) by (pose proof (Rabs_pos (B2R x1)); lra).
  assert (M59 : M <= bpow radix2 59) by (apply Rmax_lub; [apply V1|apply V2]).
  assert (T := bpow_gt_0 radix2 (-150)). assert (U : 0 < u32 < 0.0000001) by (unfold u32; lra).
  assert (T50 : bpow radix2 (-150) <= / 1024 * bpow radix2 (-50)).
  { replace (/ 1024) with (bpow radix2 (-10)) by reflexivity. rewrite <- bpow_plus. apply bpow_le. lia. }
  assert (K1 : u32 * Rabs (B2R x1) <= u32 * M) by (apply Rmult_le_compat_l; lra). assert (K2 : u32 * Rabs (B2R x2) <= u32 * M) by (apply Rmult_le_compat_l; lra).
  set (X := M * (1 + u32) + bpow radix2 (-150)).
  assert (X60 : X <= bpow radix2 60).
  { unfold X. change 60%Z with (1 + 59)%Z. rewrite bpow_plus. change (bpow radix2 1) with 2.
    assert (bpow radix2 (-50) <= bpow radix2 0) by (apply bpow_le; lia). assert (bpow radix2 1 <= bpow radix2 59) by (apply bpow_le; lia).
    change (bpow radix2 0) with 1 in *. change (bpow radix2 1) with 2 in *.
    assert (M * u32 <= bpow radix2 59 * 0.0000001) by (apply Rmult_le_compat; lra). lra. }
  assert (L : forall x : f64, Rabs (B2R x) <= M -> Rabs (B2R (f32_of_f64 x) - B2R x) <= u32 * Rabs (B2R x) + bpow radix2 (-150) ->
    u32 * Rabs (B2R x) <= u32 * M -> Rabs (B2R (f32_of_f64 x)) <= X).
  { intros x B A K. replace (B2R (f32_of_f64 x)) with ((B2R (f32_of_f64 x) - B2R x) + B2R x) by ring.
    eapply Rle_trans; [apply Rabs_triang|]. unfold X. lra. }
  destruct (any_mean m1 m2 i X F1 F2 Hi) as [F E]; [rewrite C1; now apply L|rewrite C2; now apply L|exact X60|].
  rewrite C1, C2 in E. destruct (conv64 _ F) as [Ev Fv]. split; [exact Fv|]. rewrite Ev. fold M.
  destruct (positive_variances i Hi) as [v1 v2]. destruct any_weight as (_ & Rw & _).
  destruct (ci_convex (B2R w) (variances P1 i) (variances P2 i) Rw v1 v2) as (l & Hl & El). rewrite El in *.
  set (a := B2R (f32_of_f64 x1)) in *. set (b := B2R (f32_of_f64 x2)) in *. set (z := B2R (fused m1 m2 i)) in *.
  assert (Dd : Rabs ((l * a + (1 - l) * b) - (l * B2R x1 + (1 - l) * B2R x2)) <= u32 * M + bpow radix2 (-150)).
  { replace (l * a + (1 - l) * b - (l * B2R x1 + (1 - l) * B2R x2)) with (l * (a - B2R x1) + (1 - l) * (b - B2R x2)) by ring.
    eapply Rle_trans; [apply Rabs_triang|]. rewrite !Rabs_mult, (Rabs_pos_eq l), (Rabs_pos_eq (1 - l)) by lra.
    assert (l * Rabs (a - B2R x1) <= l * (u32 * M + bpow radix2 (-150))) by (apply Rmult_le_compat_l; lra).
    assert ((1 - l) * Rabs (b - B2R x2) <= (1 - l) * (u32 * M + bpow radix2 (-150))) by (apply Rmult_le_compat_l; lra). lra. }
  assert (EU : 14 / 2 ^ 24 * M = 14 * (u32 * M)) by (unfold u32; field). rewrite EU.
  assert (B49 : bpow radix2 (-49) = 2 * bpow radix2 (-50)) by (change (-49)%Z with (1 + -50)%Z; rewrite bpow_plus; reflexivity). rewrite B49.
  assert (EX : 12 * u32 * X <= 12.1 * (u32 * M) + bpow radix2 (-150)).
  { unfold X. assert (0 <= u32 * M) by (apply Rmult_le_pos; lra). assert (u32 * M * u32 <= u32 * M * 0.0000001) by (apply Rmult_le_compat_l; lra).
    assert (u32 * bpow radix2 (-150) <= 0.0000001 * bpow radix2 (-150)) by (apply Rmult_le_compat_r; lra). lra. }
  assert (0 <= u32 * M) by (apply Rmult_le_pos; lra).
  apply Rabs_le_inv in E, Dd. apply Rabs_le. lra.
Qed.
Lemma any_heading (m1 m2 : nat -> f32) (z1 z2 : angle D) : accurate sine cosine phase -> (3 < n)%nat ->
  (forall k, (k < n)%nat -> is_finite (mean_copy32 m1 k) = true /\ Rabs (B2R (mean_copy32 m1 k)) <= bpow radix2 60) ->
  (forall k, (k < n)%nat -> is_finite (mean_copy32 m2 k) = true /\ Rabs (B2R (mean_copy32 m2 k)) <= bpow radix2 60) ->
  proper sine cosine phase z1 -> proper sine cosine phase z2 -> m1 3%nat = f32_of_f64 (get_angle z1) -> m2 3%nat = f32_of_f64 (get_angle z2) ->
  heading_near P1 P2 w z1 z2 (angle_of (A := D) (f64_of_f32 (fused m1 m2 3%nat))).
Proof.
  intros ACC H3 F1 F2 [Z1 Z1'] [Z2 Z2'] E1 E2.
  assert (C1 : mean_copy32 m1 3 = fusion_heading (get_angle z1)) by (unfold mean_copy32, fusion_heading; cbn [Nat.eqb]; now rewrite E1).
  assert (C2 : mean_copy32 m2 3 = fusion_heading (get_angle z2)) by (unfold mean_copy32, fusion_heading; cbn [Nat.eqb]; now rewrite E2).
  destruct (heading_range _ Z1 Z1') as [_ B1]. destruct (heading_range _ Z2 Z2') as [_ B2].
  assert (B4 : 13176794 * bpow radix2 (-22) <= 3.15) by (change (bpow radix2 (-22)) with (/ 4194304); lra).
  destruct (any_mean m1 m2 3 3.15 F1 F2 H3) as [F E]; [rewrite C1; lra|rewrite C2; lra| |].
  { apply Rle_trans with (bpow radix2 2); [change (bpow radix2 2) with 4; lra|apply bpow_le; lia]. }
  rewrite C1, C2 in E. destruct (conv64 _ F) as [Ev Fv]. unfold heading_near.
  destruct (angle_roundtrip _ _ _ ACC _ Fv) as (_ & _ & R1). destruct R1 as [k R1]. rewrite Ev in R1. exists k.
  set (m := ci_mean _ _ _ _ _) in *. set (g := B2R (get_angle (angle_of (A := D) _) : f64)) in *. set (z := B2R (fused m1 m2 3%nat)) in *.
  assert (B18 : bpow radix2 (-18) = 64 * u32) by (unfold u32; cbn; lra). rewrite B18.
  assert (T : 8.1 * u52 <= u32) by (rewrite u52_value; unfold u32; lra).
  assert (T2 : bpow radix2 (-50) <= u32) by (change (bpow radix2 (-50)) with (/ 1125899906842624); unfold u32; lra).
  assert (U : 0 < u32) by (unfold u32; lra).
  apply Rabs_le_inv in R1, E. apply Rabs_le. lra.
Qed.
End Any.

Lemma fuse_parts (ST : state_type64) o track P1 detection P2 :
  let n := s_dim ST in let weight := visitor_weight32 ST o P1 P2 in
  fuse32 ST o track P1 detection P2 =
  (s_from ST (fst (compute_covariance_intersection32 n o (s_to ST track) (inverse32 n P1) (s_to ST detection) (inverse32 n P2) weight)),
   inverse32 n (fun i j => combined32 weight (inverse32 n P1 i j) (inverse32 n P2 i j))).
Proof. reflexivity. Qed.
(** C118, CTRV *)
Theorem C118_ctrv o (track detection : ctrv_state D) P1 P2 : accurate sine cosine phase -> orders_fit 5 o ->
  no_correlations 5 P1 -> no_correlations 5 P2 -> usable_ctrv track -> usable_ctrv detection ->
  let weight := visitor_weight32 CV o P1 P2 in
  let (s, P) := fuse32 CV o track P1 detection P2 in
  weight_near 5 P1 P2 weight /\ covariance_near 5 P1 P2 weight P /\
  component_near P1 P2 weight 0 (v_x track) (v_x detection) (v_x s) /\
  component_near P1 P2 weight 1 (v_y track) (v_y detection) (v_y s) /\
  component_near P1 P2 weight 2 (v_vel track) (v_vel detection) (v_vel s) /\
  heading_near P1 P2 weight (v_yaw track) (v_yaw detection) (v_yaw s) /\
  component_near P1 P2 weight 4 (v_rate track) (v_rate detection) (v_rate s).
Proof.
  intros ACC O U1 U2 (X1 & Y1 & V1 & H1 & R1) (X2 & Y2 & V2 & H2 & R2) weight.
  assert (Fin : forall s : ctrv_state D, usable_ctrv s -> forall k, (k < 5)%nat -> is_finite (mean_copy32 (s_to CV s) k) = true /\ Rabs (B2R (mean_copy32 (s_to CV s) k)) <= bpow radix2 60).
  { intros s (X & Y & V & [Hf Hr] & R) k Hk. unfold mean_copy32.
    destruct k as [|[|[|[|[|]]]]]; try lia; cbn [Nat.eqb s_to ctrv64 ctrv_to32]; try (match goal with H : usable ?x |- context [f32_of_f64 ?x] => destruct (usable_float x H) as (? & ? & _); split; assumption end).
    destruct (heading_range _ Hf Hr) as [A B]. split; [exact A|]. eapply Rle_trans; [exact B|].
    apply Rle_trans with (bpow radix2 2); [change (bpow radix2 (-22)) with (/ 4194304); change (bpow radix2 2) with 4; lra|apply bpow_le; lia]. }
  pose proof (Fin track ltac:(repeat split; first [assumption | apply X1 | apply Y1 | apply V1 | apply H1 | apply R1])) as F1.
  pose proof (Fin detection ltac:(repeat split; first [assumption | apply X2 | apply Y2 | apply V2 | apply H2 | apply R2])) as F2.
  rewrite fuse_parts. cbv zeta. fold weight.
  split; [exact (any_weight 5 o P1 P2 ltac:(lia) O U1 U2)|]. split; [exact (any_covariance 5 o P1 P2 ltac:(lia) O U1 U2)|].
  split; [exact (any_component 5 o P1 P2 ltac:(lia) O U1 U2 _ _ (v_x track) (v_x detection) 0%nat F1 F2 ltac:(lia) ltac:(lia) X1 X2 eq_refl eq_refl)|].
  split; [exact (any_component 5 o P1 P2 ltac:(lia) O U1 U2 _ _ (v_y track) (v_y detection) 1%nat F1 F2 ltac:(lia) ltac:(lia) Y1 Y2 eq_refl eq_refl)|].
  split; [exact (any_component 5 o P1 P2 ltac:(lia) O U1 U2 _ _ (v_vel track) (v_vel detection) 2%nat F1 F2 ltac:(lia) ltac:(lia) V1 V2 eq_refl eq_refl)|].
  split; [exact (any_heading 5 o P1 P2 ltac:(lia) O U1 U2 _ _ (v_yaw track) (v_yaw detection) ACC ltac:(lia) F1 F2 H1 H2 eq_refl eq_refl)|].
  exact (any_component 5 o P1 P2 ltac:(lia) O U1 U2 _ _ (v_rate track) (v_rate detection) 4%nat F1 F2 ltac:(lia) ltac:(lia) R1 R2 eq_refl eq_refl).
Qed.
(** C118, CTRA *)
Theorem C118_ctra o (track detection : ctra_state D) P1 P2 : accurate sine cosine phase -> orders_fit 6 o ->
  no_correlations 6 P1 -> no_correlations 6 P2 -> usable_ctra track -> usable_ctra detection ->
  let weight := visitor_weight32 CA o P1 P2 in
  let (s, P) := fuse32 CA o track P1 detection P2 in
  weight_near 6 P1 P2 weight /\ covariance_near 6 P1 P2 weight P /\
  component_near P1 P2 weight 0 (a_x track) (a_x detection) (a_x s) /\
  component_near P1 P2 weight 1 (a_y track) (a_y detection) (a_y s) /\
  component_near P1 P2 weight 2 (a_vel track) (a_vel detection) (a_vel s) /\
  heading_near P1 P2 weight (a_yaw track) (a_yaw detection) (a_yaw s) /\
  component_near P1 P2 weight 4 (a_rate track) (a_rate detection) (a_rate s) /\
  component_near P1 P2 weight 5 (a_acc track) (a_acc detection) (a_acc s).
Proof.
  intros ACC O U1 U2 (X1 & Y1 & V1 & H1 & R1 & A1) (X2 & Y2 & V2 & H2 & R2 & A2) weight.
  assert (Fin : forall s : ctra_state D, usable_ctra s -> forall k, (k < 6)%nat -> is_finite (mean_copy32 (s_to CA s) k) = true /\ Rabs (B2R (mean_copy32 (s_to CA s) k)) <= bpow radix2 60).
  { intros s (X & Y & V & [Hf Hr] & R & A) k Hk. unfold mean_copy32.
    destruct k as [|[|[|[|[|[|]]]]]]; try lia; cbn [Nat.eqb s_to ctra64 ctra_to32]; try (match goal with H : usable ?x |- context [f32_of_f64 ?x] => destruct (usable_float x H) as (? & ? & _); split; assumption end).
    destruct (heading_range _ Hf Hr) as [B B']. split; [exact B|]. eapply Rle_trans; [exact B'|].
    apply Rle_trans with (bpow radix2 2); [change (bpow radix2 (-22)) with (/ 4194304); change (bpow radix2 2) with 4; lra|apply bpow_le; lia]. }
  pose proof (Fin track ltac:(repeat split; first [assumption | apply X1 | apply Y1 | apply V1 | apply H1 | apply R1 | apply A1])) as F1.
  pose proof (Fin detection ltac:(repeat split; first [assumption | apply X2 | apply Y2 | apply V2 | apply H2 | apply R2 | apply A2])) as F2.
  rewrite fuse_parts. cbv zeta. fold weight.
  split; [exact (any_weight 6 o P1 P2 ltac:(lia) O U1 U2)|]. split; [exact (any_covariance 6 o P1 P2 ltac:(lia) O U1 U2)|].
  split; [exact (any_component 6 o P1 P2 ltac:(lia) O U1 U2 _ _ (a_x track) (a_x detection) 0%nat F1 F2 ltac:(lia) ltac:(lia) X1 X2 eq_refl eq_refl)|].
  split; [exact (any_component 6 o P1 P2 ltac:(lia) O U1 U2 _ _ (a_y track) (a_y detection) 1%nat F1 F2 ltac:(lia) ltac:(lia) Y1 Y2 eq_refl eq_refl)|].
  split; [exact (any_component 6 o P1 P2 ltac:(lia) O U1 U2 _ _ (a_vel track) (a_vel detection) 2%nat F1 F2 ltac:(lia) ltac:(lia) V1 V2 eq_refl eq_refl)|].
  split; [exact (any_heading 6 o P1 P2 ltac:(lia) O U1 U2 _ _ (a_yaw track) (a_yaw detection) ACC ltac:(lia) F1 F2 H1 H2 eq_refl eq_refl)|].
  split; [exact (any_component 6 o P1 P2 ltac:(lia) O U1 U2 _ _ (a_rate track) (a_rate detection) 4%nat F1 F2 ltac:(lia) ltac:(lia) R1 R2 eq_refl eq_refl)|].
  exact (any_component 6 o P1 P2 ltac:(lia) O U1 U2 _ _ (a_acc track) (a_acc detection) 5%nat F1 F2 ltac:(lia) ltac:(lia) A1 A2 eq_refl eq_refl).
Qed.
Lemma between_of P1 P2 n : no_correlations n P1 -> no_correlations n P2 ->
  forall weight i (x1 x2 x : f64) P, (i < n)%nat -> weight_near n P1 P2 weight ->
  (component_near P1 P2 weight i x1 x2 x ->
     between (14 / 2 ^ 24 * Rmax (Rabs (B2R x1)) (Rabs (B2R x2)) + bpow radix2 (-49)) (B2R x1) (B2R x2) (B2R x)) /\
  (covariance_near n P1 P2 weight P ->
     between (6 / 2 ^ 24 * Rmax (variances P1 i) (variances P2 i)) (variances P1 i) (variances P2 i) (variances P i)).
Proof.
  intros U1 U2 weight i x1 x2 x P Hi (_ & Rw & _).
  destruct (positive_variances n P1 P2 U1 U2 i Hi) as [v1 v2]. split.
  - intros [_ E]. destruct (ci_convex (B2R weight) _ _ Rw v1 v2) as (l & Hl & El). rewrite El in E. apply Rabs_le_inv in E. unfold between.
    pose proof (Rmin_l (B2R x1) (B2R x2)) as A1. pose proof (Rmin_r (B2R x1) (B2R x2)) as A2. pose proof (Rmax_l (B2R x1) (B2R x2)) as A3. pose proof (Rmax_r (B2R x1) (B2R x2)) as A4.
    assert (l * Rmin (B2R x1) (B2R x2) <= l * B2R x1 <= l * Rmax (B2R x1) (B2R x2)) by (split; apply Rmult_le_compat_l; lra).
    assert ((1 - l) * Rmin (B2R x1) (B2R x2) <= (1 - l) * B2R x2 <= (1 - l) * Rmax (B2R x1) (B2R x2)) by (split; apply Rmult_le_compat_l; lra). lra.
  - intros C. destruct (C i i Hi Hi) as (_ & _ & E). cbv zeta in E. apply Rabs_le_inv in E. unfold between.
    set (p1 := variances P1 i) in *. set (p2 := variances P2 i) in *.
    assert (B : Rmin p1 p2 <= ci_variance (B2R weight) p1 p2 <= Rmax p1 p2).
    { unfold ci_variance, ci_information, Rdiv.
      pose proof (Rmin_l p1 p2) as A1. pose proof (Rmin_r p1 p2) as A2. pose proof (Rmax_l p1 p2) as A3. pose proof (Rmax_r p1 p2) as A4.
      assert (m0 : 0 < Rmin p1 p2) by (apply Rmin_glb_lt; assumption).
      pose proof (Rinv_le_contravar _ _ m0 A1) as I1. pose proof (Rinv_le_contravar _ _ m0 A2) as I2.
      pose proof (Rinv_le_contravar _ _ v1 A3) as I3. pose proof (Rinv_le_contravar _ _ v2 A4) as I4.
      assert (M0 : 0 < Rmax p1 p2) by lra. pose proof (Rinv_0_lt_compat _ M0) as J.
      set (W := B2R weight) in *.
      assert (K1 : W * / Rmax p1 p2 <= W * / p1 <= W * / Rmin p1 p2) by (split; apply Rmult_le_compat_l; lra).
      assert (K2 : (1 - W) * / Rmax p1 p2 <= (1 - W) * / p2 <= (1 - W) * / Rmin p1 p2) by (split; apply Rmult_le_compat_l; lra).
      assert (c0 : / Rmax p1 p2 <= W * / p1 + (1 - W) * / p2 <= / Rmin p1 p2) by lra. split.
      - rewrite <- (Rinv_inv (Rmin p1 p2)). apply Rinv_le_contravar; lra.
      - rewrite <- (Rinv_inv (Rmax p1 p2)). apply Rinv_le_contravar; lra. }
    assert (6 / 2 ^ 24 * ci_variance (B2R weight) p1 p2 <= 6 / 2 ^ 24 * Rmax p1 p2) by (apply Rmult_le_compat_l; lra). lra.
Qed.
(** What this means: the fused values lie between the two given ones, and the fused
    variances between the two given ones, up to the errors. *)
Definition values_between (x1 x2 x : f64) : Prop :=
  between (14 / 2 ^ 24 * Rmax (Rabs (B2R x1)) (Rabs (B2R x2)) + bpow radix2 (-49)) (B2R x1) (B2R x2) (B2R x).
Definition variances_between (n : nat) (P1 P2 P : nat -> nat -> f32) : Prop :=
  forall i, (i < n)%nat -> between (6 / 2 ^ 24 * Rmax (variances P1 i) (variances P2 i)) (variances P1 i) (variances P2 i) (variances P i).
Theorem C118_ctrv_between o (track detection : ctrv_state D) P1 P2 : accurate sine cosine phase -> orders_fit 5 o ->
  no_correlations 5 P1 -> no_correlations 5 P2 -> usable_ctrv track -> usable_ctrv detection ->
  let (s, P) := fuse32 CV o track P1 detection P2 in
  variances_between 5 P1 P2 P /\ values_between (v_x track) (v_x detection) (v_x s) /\ values_between (v_y track) (v_y detection) (v_y s) /\
  values_between (v_vel track) (v_vel detection) (v_vel s) /\ values_between (v_rate track) (v_rate detection) (v_rate s).
Proof.
  intros ACC O U1 U2 T1 T2. pose proof (C118_ctrv o track detection P1 P2 ACC O U1 U2 T1 T2) as H. cbv zeta in H.
  destruct (fuse32 CV o track P1 detection P2) as [s P]. destruct H as (Wn & Cn & X & Y & V & _ & R).
  pose proof (between_of P1 P2 5 U1 U2) as B.
  split; [intros i Hi; refine (proj2 (B _ i (v_x s) (v_x s) (v_x s) P Hi Wn) Cn)|].
  split; [refine (proj1 (B _ 0%nat _ _ _ P _ Wn) X); lia|]. split; [refine (proj1 (B _ 1%nat _ _ _ P _ Wn) Y); lia|].
  split; [refine (proj1 (B _ 2%nat _ _ _ P _ Wn) V); lia|]. refine (proj1 (B _ 4%nat _ _ _ P _ Wn) R); lia.
Qed.
Theorem C118_ctra_between o (track detection : ctra_state D) P1 P2 : accurate sine cosine phase -> orders_fit 6 o ->
  no_correlations 6 P1 -> no_correlations 6 P2 -> usable_ctra track -> usable_ctra detection ->
  let (s, P) := fuse32 CA o track P1 detection P2 in
  variances_between 6 P1 P2 P /\ values_between (a_x track) (a_x detection) (a_x s) /\ values_between (a_y track) (a_y detection) (a_y s) /\
  values_between (a_vel track) (a_vel detection) (a_vel s) /\ values_between (a_rate track) (a_rate detection) (a_rate s) /\
  values_between (a_acc track) (a_acc detection) (a_acc s).
Proof.
  intros ACC O U1 U2 T1 T2. pose proof (C118_ctra o track detection P1 P2 ACC O U1 U2 T1 T2) as H. cbv zeta in H.
  destruct (fuse32 CA o track P1 detection P2) as [s P]. destruct H as (Wn & Cn & X & Y & V & _ & R & A).
  pose proof (between_of P1 P2 6 U1 U2) as B.
  split; [intros i Hi; refine (proj2 (B _ i (a_x s) (a_x s) (a_x s) P Hi Wn) Cn)|].
  split; [refine (proj1 (B _ 0%nat _ _ _ P _ Wn) X); lia|]. split; [refine (proj1 (B _ 1%nat _ _ _ P _ Wn) Y); lia|].
  split; [refine (proj1 (B _ 2%nat _ _ _ P _ Wn) V); lia|]. split; [refine (proj1 (B _ 4%nat _ _ _ P _ Wn) R); lia|].
  refine (proj1 (B _ 5%nat _ _ _ P _ Wn) A); lia.
Qed.
End Fusion.
Print Assumptions C118_ctrv.
Print Assumptions C118_ctra.
Print Assumptions C118_ctrv_between.
Print Assumptions C118_ctra_between.

(** A track at (10, -4) with variance 1 and a detection at (20, -6) with variance 4: the
    fused state lies between them, and the orders are those of simple loops. *)
Definition loop (n : nat) : tree := fold_left (fun t i => Node t (Leaf i)) (seq 1 (n - 1)) (Leaf 0).
Definition C118_orders : fusion_orders :=
  {| order_diagonal := loop 5; order_information := On_matrix (fun _ => loop 10); order_fused := fun _ => loop 5 |}.
Definition C118_diagonal (v : Z) (i j : nat) : f32 := if (i =? j)%nat then f32_of_Z v else f32_of_Z 0.
Definition C118_state sine cosine phase (x y v : Z) : ctrv_state (doubles sine cosine phase) :=
  CtrvState (A := doubles sine cosine phase) (f64_of_Z x) (f64_of_Z y) (f64_of_Z v) (angle_of (A := doubles sine cosine phase) (f64_of_Z 1)) (f64_of_Z 0).
Example C118_case sine cosine phase : accurate sine cosine phase ->
  let track := C118_state sine cosine phase 10 (-4) 3 in let detection := C118_state sine cosine phase 20 (-6) 5 in
  let P1 := C118_diagonal 1 in let P2 := C118_diagonal 4 in
  orders_fit 5 C118_orders /\ no_correlations 5 P1 /\ no_correlations 5 P2 /\ usable_ctrv sine cosine phase track /\ usable_ctrv sine cosine phase detection /\
  let (s, P) := fuse32 (ctrv64 sine cosine phase) C118_orders track P1 detection P2 in
  9.9999 <= B2R (v_x s : f64) <= 20.0001 /\ -6.0001 <= B2R (v_y s : f64) <= -3.9999 /\ forall i, (i < 5)%nat -> 0.9999 <= B2R (P i i) <= 4.0001.
Proof.
  intros ACC track detection P1 P2.
  assert (O : orders_fit 5 C118_orders).
  { split; [|split; [cbv beta iota delta [order_information C118_orders]|]]; intros; apply Permutation_refl. }
  assert (N : forall v, (1 <= v <= 4)%Z -> no_correlations 5 (C118_diagonal v)).
  { intros v Hv i j _ _. unfold variances, C118_diagonal. rewrite Nat.eqb_refl.
    destruct (int32_value v ltac:(lia)) as [E F]. destruct (int32_value 0 ltac:(lia)) as [E0 F0].
    split; [destruct (i =? j)%nat; assumption|]. split; [destruct (Nat.eqb_spec i j); [contradiction|intros _; exact E0]|].
    rewrite E. assert (1 <= IZR v <= 4) by (split; apply IZR_le; lia). change (bpow radix2 (-20)) with (/ 1048576). change (bpow radix2 20) with 1048576. lra. }
  assert (V : forall z, (Z.abs z <= 100)%Z -> usable (f64_of_Z z) /\ B2R (f64_of_Z z) = IZR z).
  { intros z Hz. destruct (int64_value z ltac:(lia)) as [E F]. split; [split; [exact F|]|exact E]. rewrite E.
    apply Rle_trans with (bpow radix2 7); [|apply bpow_le; lia]. change (bpow radix2 7) with 128. rewrite <- abs_IZR. apply IZR_le. lia. }
  assert (S : forall x y v, (Z.abs x <= 100)%Z -> (Z.abs y <= 100)%Z -> (Z.abs v <= 100)%Z -> usable_ctrv sine cosine phase (C118_state sine cosine phase x y v)).
  { intros x y v Hx Hy Hv. split; [now apply V|]. split; [now apply V|]. split; [now apply V|]. split; [|apply V; lia].
    destruct (V 1%Z ltac:(lia)) as [[F _] _]. destruct (angle_roundtrip _ _ _ ACC _ F) as (A & B & _). now split. }
  assert (U1 : no_correlations 5 P1) by (apply N; lia). assert (U2 : no_correlations 5 P2) by (apply N; lia).
  assert (S1 : usable_ctrv sine cosine phase track) by (apply S; lia). assert (S2 : usable_ctrv sine cosine phase detection) by (apply S; lia).
  split; [exact O|]. split; [exact U1|]. split; [exact U2|]. split; [exact S1|]. split; [exact S2|].
  pose proof (C118_ctrv_between sine cosine phase C118_orders track detection P1 P2 ACC O U1 U2 S1 S2) as H.
  destruct (fuse32 _ _ _ _ _ _) as [s P]. destruct H as (Bv & Bx & By & _).
  assert (B49 : 0 < bpow radix2 (-49) < 0.00001) by (change (bpow radix2 (-49)) with (/ 562949953421312); lra).
  split; [|split].
  - unfold values_between, between in Bx. change (v_x track) with (f64_of_Z 10) in Bx. change (v_x detection) with (f64_of_Z 20) in Bx.
    rewrite (proj2 (V 10%Z ltac:(lia))), (proj2 (V 20%Z ltac:(lia))) in Bx. rewrite !Rabs_pos_eq in Bx by lra.
    rewrite Rmin_left, Rmax_right in Bx by lra. lra.
  - unfold values_between, between in By. change (v_y track) with (f64_of_Z (-4)) in By. change (v_y detection) with (f64_of_Z (-6)) in By.
    rewrite (proj2 (V (-4)%Z ltac:(lia))), (proj2 (V (-6)%Z ltac:(lia))) in By. rewrite (Rabs_left (-4)), (Rabs_left (-6)) in By by lra.
    rewrite Rmin_right, (Rmax_left (-4) (-6)), Rmax_right in By by lra. lra.
  - intros i Hi. specialize (Bv i Hi). unfold between, variances in Bv. unfold P1, P2, C118_diagonal in Bv. rewrite Nat.eqb_refl in Bv.
    rewrite (proj1 (int32_value 1 ltac:(lia))), (proj1 (int32_value 4 ltac:(lia))) in Bv.
    rewrite Rmin_left, Rmax_right in Bv by lra. lra.
Qed.
