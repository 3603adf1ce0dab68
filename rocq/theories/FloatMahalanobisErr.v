(** The error of the Mahalanobis distance in single precision. *)
From Coq Require Import ZArith Reals Lra Lia List Arith.
From Flocq Require Import Core IEEE754.BinarySingleNaN.
From Verif Require Import Float FloatProofs Motion DoubleArith DoubleThms FloatDistance FloatDistanceThms FloatWeight FloatWeightThms FloatUnscented FloatUnscentedThms
  FloatMahalanobis FloatMahalanobisThms InverseSpec MahalanobisSpec.
Import ListNotations.
Open Scope R_scope.

Lemma total3 f : total f (seq 0 3) = f 0%nat + f 1%nat + f 2%nat.
Proof. cbn [seq total]. ring. Qed.
Ltac three := unfold apply in *; rewrite ?total3 in *; cbv beta in *.

Lemma cauchy_real A B C : (forall t, 0 <= A - 2 * t * B + t * t * C) -> B * B <= A * C.
Proof.
  intros H. destruct (Rlt_le_dec 0 C) as [P|N].
  - specialize (H (B / C)). assert (E : A - 2 * (B / C) * B + B / C * (B / C) * C = (A * C - B * B) / C) by (field; lra).
    rewrite E in H. apply Rmult_le_compat_r with (r := C) in H; [|lra]. unfold Rdiv in H. rewrite Rmult_assoc, Rinv_l in H; lra.
  - assert (B = 0).
    { destruct (Req_dec B 0) as [E|E]; [exact E|]. exfalso.
      pose proof (H ((A + 1) / (2 * B))) as H1. pose proof (H (- ((A + 1) / (2 * B)))) as H2.
      replace (2 * ((A + 1) / (2 * B)) * B) with (A + 1) in H1 by (field; exact E).
      pose proof (Rle_0_sqr ((A + 1) / (2 * B))) as Q. unfold Rsqr in Q. nra. }
    pose proof (H 0) as Hz. subst B. destruct (Rle_lt_dec C 0) as [C0|]; [|lra].
    assert (C = 0).
    { destruct (Req_dec C 0) as [E|E]; [exact E|]. exfalso. assert (C < 0) by lra.
      pose proof (H (1 + A / - C)) as Hc. assert (0 <= A / - C) by (apply Rmult_le_pos; [lra|apply Rlt_le, Rinv_0_lt_compat; lra]).
      set (w := A / - C) in *. assert (A = w * - C) by (unfold w; field; lra). nra. }
    subst C. lra.
Qed.

Section Exact.
Variables (m Y : nat -> nat -> R) (s : nat -> R).
Hypothesis sym : forall i j, (i < 3)%nat -> (j < 3)%nat -> m i j = m j i.
Hypothesis psd : at_least 0 3 m.
Hypothesis inv_m : inverse_of 3 m Y.
Hypothesis s_diag : forall i, (i < 3)%nat -> 0 < s i /\ s i * s i = m i i.
Definition vec (x y z : R) (i : nat) : R := match i with 0%nat => x | 1%nat => y | _ => z end.
Lemma psd3 x y z : 0 <= x * (m 0 0 * x + m 0 1 * y + m 0 2 * z) + y * (m 1 0 * x + m 1 1 * y + m 1 2 * z) + z * (m 2 0 * x + m 2 1 * y + m 2 2 * z).
Proof. pose proof (psd (vec x y z)) as H. three. cbn [vec] in H. rewrite Rmult_0_l in H. exact H. Qed.
Lemma entry_size i j : (i < 3)%nat -> (j < 3)%nat -> Rabs (m i j) <= s i * s j.
Proof.
  intros Hi Hj. destruct (s_diag 0 ltac:(lia)) as [p0 e0]. destruct (s_diag 1 ltac:(lia)) as [p1 e1]. destruct (s_diag 2 ltac:(lia)) as [p2 e2].
  pose proof (sym 0 1 ltac:(lia) ltac:(lia)) as S1. pose proof (sym 0 2 ltac:(lia) ltac:(lia)) as S2. pose proof (sym 1 2 ltac:(lia) ltac:(lia)) as S3.
  assert (K : forall a b c, 0 < a -> 0 < b -> 0 <= 2 * (a * a * (b * b)) - 2 * (a * b) * c -> 0 <= 2 * (a * a * (b * b)) + 2 * (a * b) * c -> Rabs c <= a * b).
  { intros a0 b c A B H1 H2. assert (P : 0 < a0 * b) by now apply Rmult_lt_0_compat. apply Rabs_le. nra. }
  assert (K01 : Rabs (m 0%nat 1%nat) <= s 0%nat * s 1%nat).
  { apply K; try assumption; [pose proof (psd3 (s 1%nat) (- s 0%nat) 0) as H|pose proof (psd3 (s 1%nat) (s 0%nat) 0) as H];
      rewrite <- S1, <- e0, <- e1 in H; nra. }
  assert (K02 : Rabs (m 0%nat 2%nat) <= s 0%nat * s 2%nat).
  { apply K; try assumption; [pose proof (psd3 (s 2%nat) 0 (- s 0%nat)) as H|pose proof (psd3 (s 2%nat) 0 (s 0%nat)) as H];
      rewrite <- S2, <- e0, <- e2 in H; nra. }
  assert (K12 : Rabs (m 1%nat 2%nat) <= s 1%nat * s 2%nat).
  { apply K; try assumption; [pose proof (psd3 0 (s 2%nat) (- s 1%nat)) as H|pose proof (psd3 0 (s 2%nat) (s 1%nat)) as H];
      rewrite <- S3, <- e1, <- e2 in H; nra. }
  destruct i as [|[|[|]]]; [| | |lia]; (destruct j as [|[|[|]]]; [| | |lia]); rewrite <- ?e0, <- ?e1, <- ?e2, <- ?S1, <- ?S2, <- ?S3;
    try assumption; try (rewrite Rabs_pos_eq; nra); rewrite Rmult_comm; assumption.
Qed.
Lemma inv_column j : (j < 3)%nat ->
  m 0%nat 0%nat * Y 0%nat j + m 0%nat 1%nat * Y 1%nat j + m 0%nat 2%nat * Y 2%nat j = unit_entry 0 j /\
  m 1%nat 0%nat * Y 0%nat j + m 1%nat 1%nat * Y 1%nat j + m 1%nat 2%nat * Y 2%nat j = unit_entry 1 j /\
  m 2%nat 0%nat * Y 0%nat j + m 2%nat 1%nat * Y 1%nat j + m 2%nat 2%nat * Y 2%nat j = unit_entry 2 j.
Proof.
  intros Hj. pose proof (inv_m 0%nat j ltac:(lia) Hj) as A. pose proof (inv_m 1%nat j ltac:(lia) Hj) as B. pose proof (inv_m 2%nat j ltac:(lia) Hj) as C.
  three. repeat split; assumption.
Qed.
(** x = Y z solves M x = z *)
Lemma solves z i : (i < 3)%nat -> apply 3 m (apply 3 Y z) i = z i.
Proof.
  intros Hi. destruct (inv_column 0 ltac:(lia)) as (A0 & A1 & A2). destruct (inv_column 1 ltac:(lia)) as (B0 & B1 & B2).
  destruct (inv_column 2 ltac:(lia)) as (C0 & C1 & C2). cbn [unit_entry Nat.eqb] in *. unfold unit_entry in *. cbn [Nat.eqb] in *.
  three.
  destruct i as [|[|[|]]]; [| | |lia].
  - replace (z 0%nat) with (1 * z 0%nat + 0 * z 1%nat + 0 * z 2%nat) at 4 by ring. rewrite <- A0 at 1. rewrite <- B0 at 1. rewrite <- C0 at 1. ring.
  - replace (z 1%nat) with (0 * z 0%nat + 1 * z 1%nat + 0 * z 2%nat) at 4 by ring. rewrite <- A1 at 1. rewrite <- B1 at 1. rewrite <- C1 at 1. ring.
  - replace (z 2%nat) with (0 * z 0%nat + 0 * z 1%nat + 1 * z 2%nat) at 4 by ring. rewrite <- A2 at 1. rewrite <- B2 at 1. rewrite <- C2 at 1. ring.
Qed.
Definition square (z : nat -> R) : R := total (fun i => z i * apply 3 Y z i) (seq 0 3).
Definition product (z w : nat -> R) : R := total (fun i => z i * apply 3 Y w i) (seq 0 3).
Lemma solves3 z : exists x0 x1 x2, (forall i, apply 3 Y z i = apply 3 Y z i) /\
  x0 = apply 3 Y z 0 /\ x1 = apply 3 Y z 1 /\ x2 = apply 3 Y z 2 /\
  m 0%nat 0%nat * x0 + m 0%nat 1%nat * x1 + m 0%nat 2%nat * x2 = z 0%nat /\
  m 1%nat 0%nat * x0 + m 1%nat 1%nat * x1 + m 1%nat 2%nat * x2 = z 1%nat /\
  m 2%nat 0%nat * x0 + m 2%nat 1%nat * x1 + m 2%nat 2%nat * x2 = z 2%nat.
Proof.
  exists (apply 3 Y z 0), (apply 3 Y z 1), (apply 3 Y z 2). pose proof (solves z 0 ltac:(lia)) as A. pose proof (solves z 1 ltac:(lia)) as B. pose proof (solves z 2 ltac:(lia)) as C.
  unfold apply at 1 in A. unfold apply at 1 in B. unfold apply at 1 in C. rewrite total3 in A, B, C. repeat split; assumption.
Qed.
(** z' w = z' M x for x = Y w; the form of M on combinations *)
Lemma combine z w t : 0 <= square z - 2 * t * product w z + t * t * square w.
Proof.
  destruct (solves3 z) as (x0 & x1 & x2 & _ & E0 & E1 & E2 & Z0 & Z1 & Z2).
  destruct (solves3 w) as (y0 & y1 & y2 & _ & F0 & F1 & F2 & W0 & W1 & W2).
  pose proof (sym 0 1 ltac:(lia) ltac:(lia)) as S1. pose proof (sym 0 2 ltac:(lia) ltac:(lia)) as S2. pose proof (sym 1 2 ltac:(lia) ltac:(lia)) as S3.
  unfold square, product. rewrite !total3, <- E0, <- E1, <- E2, <- F0, <- F1, <- F2.
  rewrite <- Z0, <- Z1, <- Z2, <- W0, <- W1, <- W2.
  pose proof (psd3 (x0 - t * y0) (x1 - t * y1) (x2 - t * y2)) as H. rewrite <- S1, <- S2, <- S3 in *. lra.
Qed.
Lemma square_pos z : 0 <= square z.
Proof. pose proof (combine z z 0). lra. Qed.
Lemma square_add z w : square (fun i => z i + w i) = square z + 2 * product w z + square w.
Proof.
  destruct (solves3 z) as (x0 & x1 & x2 & _ & E0 & E1 & E2 & Z0 & Z1 & Z2).
  destruct (solves3 w) as (y0 & y1 & y2 & _ & F0 & F1 & F2 & W0 & W1 & W2).
  pose proof (sym 0 1 ltac:(lia) ltac:(lia)) as S1. pose proof (sym 0 2 ltac:(lia) ltac:(lia)) as S2. pose proof (sym 1 2 ltac:(lia) ltac:(lia)) as S3.
  assert (A : forall i, apply 3 Y (fun i => z i + w i) i = apply 3 Y z i + apply 3 Y w i) by (intros i; three; ring).
  unfold square, product. rewrite !total3, !A, <- E0, <- E1, <- E2, <- F0, <- F1, <- F2.
  rewrite <- Z0, <- Z1, <- Z2, <- W0, <- W1, <- W2. rewrite <- S1, <- S2, <- S3. ring.
Qed.
Lemma sqrt_triangle z w : sqrt (square (fun i => z i + w i)) <= sqrt (square z) + sqrt (square w).
Proof.
  pose proof (square_pos z) as P. pose proof (square_pos w) as Q. pose proof (sqrt_pos (square z)). pose proof (sqrt_pos (square w)).
  assert (C : product w z * product w z <= square z * square w) by (apply cauchy_real; intros t; apply combine).
  assert (C' : product w z <= sqrt (square z) * sqrt (square w)).
  { rewrite <- sqrt_mult by assumption. eapply Rle_trans; [apply Rle_abs|]. rewrite <- sqrt_Rsqr_abs. apply sqrt_le_1_alt. exact C. }
  rewrite <- (sqrt_Rsqr (sqrt (square z) + sqrt (square w))) by lra. apply sqrt_le_1_alt. rewrite square_add. unfold Rsqr.
  pose proof (sqrt_sqrt _ P). pose proof (sqrt_sqrt _ Q). nra.
Qed.
(** The form is at least a third of the sum of the squared deviations. *)
Definition deviation (z : nat -> R) (i : nat) : R := Rabs (z i) * / s i.
Lemma square_large z :
  deviation z 0 * deviation z 0 + deviation z 1 * deviation z 1 + deviation z 2 * deviation z 2 <= 3 * square z.
Proof.
  destruct (solves3 z) as (x0 & x1 & x2 & _ & E0 & E1 & E2 & Z0 & Z1 & Z2).
  pose proof (sym 0 1 ltac:(lia) ltac:(lia)) as S1. pose proof (sym 0 2 ltac:(lia) ltac:(lia)) as S2. pose proof (sym 1 2 ltac:(lia) ltac:(lia)) as S3.
  destruct (s_diag 0 ltac:(lia)) as [p0 e0]. destruct (s_diag 1 ltac:(lia)) as [p1 e1]. destruct (s_diag 2 ltac:(lia)) as [p2 e2].
  set (b0 := z 0%nat * / s 0%nat). set (b1 := z 1%nat * / s 1%nat). set (b2 := z 2%nat * / s 2%nat).
  assert (D : forall i, (i < 3)%nat -> deviation z i * deviation z i = (z i * / s i) * (z i * / s i)).
  { intros i Hi. destruct (s_diag i Hi) as [p _]. unfold deviation. replace (Rabs (z i) * / s i) with (Rabs (z i * / s i)).
    - rewrite <- Rabs_mult. apply Rabs_pos_eq. apply Rle_0_sqr.
    - rewrite Rabs_mult. rewrite (Rabs_pos_eq (/ s i)); [reflexivity|]. apply Rlt_le, Rinv_0_lt_compat, p. }
  rewrite !D by lia. fold b0 b1 b2.
  set (w0 := b0 * / s 0%nat). set (w1 := b1 * / s 1%nat). set (w2 := b2 * / s 2%nat).
  assert (G0 : w0 * s 0%nat = b0) by (unfold w0; field; lra). assert (G1 : w1 * s 1%nat = b1) by (unfold w1; field; lra). assert (G2 : w2 * s 2%nat = b2) by (unfold w2; field; lra).
  assert (V0 : z 0%nat = b0 * s 0%nat) by (unfold b0; field; lra). assert (V1 : z 1%nat = b1 * s 1%nat) by (unfold b1; field; lra). assert (V2 : z 2%nat = b2 * s 2%nat) by (unfold b2; field; lra).
  unfold square. rewrite total3, <- E0, <- E1, <- E2.
  pose proof (psd3 (w0 - 3 * x0) (w1 - 3 * x1) (w2 - 3 * x2)) as H.
  (* w' M w <= 3 (b0^2 + b1^2 + b2^2) *)
  assert (K : forall i j u v bi bj, (i < 3)%nat -> (j < 3)%nat -> u * s i = bi -> v * s j = bj -> 2 * (u * v * m i j) <= bi * bi + bj * bj).
  { intros i j u v bi bj Hi Hj Eu Ev. assert (N : Rabs (u * v * m i j) <= Rabs bi * Rabs bj).
    { rewrite !Rabs_mult, <- Eu, <- Ev, !Rabs_mult. destruct (s_diag i Hi) as [pi _]. destruct (s_diag j Hj) as [pj _]. rewrite (Rabs_pos_eq (s i)), (Rabs_pos_eq (s j)) by lra.
      replace (Rabs u * s i * (Rabs v * s j)) with (Rabs u * Rabs v * (s i * s j)) by ring. apply Rmult_le_compat_l; [apply Rmult_le_pos; apply Rabs_pos|now apply entry_size]. }
    pose proof (Rle_abs (u * v * m i j)). pose proof (Rle_0_sqr (Rabs bi - Rabs bj)) as Sq. unfold Rsqr in Sq.
    assert (Rabs bi * Rabs bi = bi * bi) by (rewrite <- Rabs_mult; apply Rabs_pos_eq, Rle_0_sqr). assert (Rabs bj * Rabs bj = bj * bj) by (rewrite <- Rabs_mult; apply Rabs_pos_eq, Rle_0_sqr). lra. }
  pose proof (K 0%nat 1%nat w0 w1 b0 b1 ltac:(lia) ltac:(lia) G0 G1) as K01. pose proof (K 0%nat 2%nat w0 w2 b0 b2 ltac:(lia) ltac:(lia) G0 G2) as K02. pose proof (K 1%nat 2%nat w1 w2 b1 b2 ltac:(lia) ltac:(lia) G1 G2) as K12.
  assert (L0 : w0 * w0 * m 0%nat 0%nat = b0 * b0) by (rewrite <- e0, <- G0; ring). assert (L1 : w1 * w1 * m 1%nat 1%nat = b1 * b1) by (rewrite <- e1, <- G1; ring). assert (L2 : w2 * w2 * m 2%nat 2%nat = b2 * b2) by (rewrite <- e2, <- G2; ring).
  assert (T0 : w0 * z 0%nat = b0 * b0) by (rewrite V0, <- G0; ring). assert (T1 : w1 * z 1%nat = b1 * b1) by (rewrite V1, <- G1; ring). assert (T2 : w2 * z 2%nat = b2 * b2) by (rewrite V2, <- G2; ring).
  rewrite <- S1, <- S2, <- S3 in *.
  assert (Ex : 0 <= (w0 * w0 * m 0%nat 0%nat + w1 * w1 * m 1%nat 1%nat + w2 * w2 * m 2%nat 2%nat + 2 * (w0 * w1 * m 0%nat 1%nat) + 2 * (w0 * w2 * m 0%nat 2%nat) + 2 * (w1 * w2 * m 1%nat 2%nat))
     - 6 * (w0 * z 0%nat + w1 * z 1%nat + w2 * z 2%nat) + 9 * (z 0%nat * x0 + z 1%nat * x1 + z 2%nat * x2)).
  { rewrite <- Z0, <- Z1, <- Z2. lra. }
  lra.
Qed.
End Exact.

(** ** The computed distance *)
Section Distance.
Variables (o : pose_orders) (cov : nat -> nat -> f32) (Y : nat -> nat -> R) (delta : R).
Hypothesis orders : order_of 3 (order_det o) /\ (forall j, (j < 3)%nat -> order_of 3 (order_row o j)) /\ order_of 3 (order_dot o).
Notation M := (pose_cov32 cov).
Definition pm (i j : nat) : R := B2R (M i j).
Hypothesis M_finite : forall i j, (i < 3)%nat -> (j < 3)%nat -> is_finite (M i j) = true.
Hypothesis sym : forall i j, (i < 3)%nat -> (j < 3)%nat -> pm i j = pm j i.
Hypothesis psd : at_least 0 3 pm.
Hypothesis diag : forall i, (i < 3)%nat -> bpow radix2 (-20) <= pm i i <= bpow radix2 20.
Hypothesis delta_range : / 64 <= delta <= 1.
Hypothesis det_large : delta * (pm 0 0 * pm 1 1 * pm 2 2) <= det3 pm.
Hypothesis inv_m : inverse_of 3 pm Y.
Definition dev (i : nat) : R := sqrt (pm i i).
Lemma dev_diag i : (i < 3)%nat -> 0 < dev i /\ dev i * dev i = pm i i.
Proof.
  intros Hi. destruct (diag i Hi) as [D1 D2]. pose proof (bpow_gt_0 radix2 (-20)). unfold dev. split; [apply sqrt_lt_R0; lra|apply sqrt_sqrt; lra].
Qed.
Lemma dev_range i : (i < 3)%nat -> within (dev i) 10.
Proof.
  intros Hi. destruct (diag i Hi) as [D1 D2]. unfold dev, within. split.
  - rewrite <- (sqrt_Rsqr (bpow radix2 (- (10)))) by apply bpow_ge_0. apply sqrt_le_1_alt. unfold Rsqr. rewrite <- bpow_plus. exact D1.
  - rewrite <- (sqrt_Rsqr (bpow radix2 10)) by apply bpow_ge_0. apply sqrt_le_1_alt. unfold Rsqr. rewrite <- bpow_plus. exact D2.
Qed.
Lemma pm_size i j : (i < 3)%nat -> (j < 3)%nat -> Rabs (pm i j) <= dev i * dev j.
Proof. exact (entry_size pm dev sym psd dev_diag i j). Qed.
Lemma volume_square : volume dev * volume dev = pm 0 0 * pm 1 1 * pm 2 2.
Proof.
  unfold volume. destruct (dev_diag 0 ltac:(lia)) as [_ <-]. destruct (dev_diag 1 ltac:(lia)) as [_ <-]. destruct (dev_diag 2 ltac:(lia)) as [_ <-]. ring.
Qed.
Lemma det_det3 : det M = det3 pm.
Proof.
  unfold det, cof, det3, pm. cbn [Nat.modulo Nat.divmod Nat.add fst snd Nat.sub]. ring.
Qed.
Lemma det_large' : delta * (volume dev * volume dev) <= det M.
Proof. rewrite volume_square, det_det3. exact det_large. Qed.
Lemma det_positive : 0 < det M.
Proof. exact (det_pos M dev delta dev_range delta_range det_large'). Qed.
Lemma inv_Y i j : (i < 3)%nat -> (j < 3)%nat -> inv M i j = Y i j.
Proof.
  intros Hi Hj. pose proof det_positive as P. apply Rmult_eq_reg_r with (det M); [|lra]. unfold inv. rewrite Rmult_assoc, Rinv_l, Rmult_1_r by lra.
  destruct (inv_column pm Y inv_m j Hj) as (A & B & C).
  assert (E : cof M j i = cof M 0 i * unit_entry 0 j + cof M 1 i * unit_entry 1 j + cof M 2 i * unit_entry 2 j).
  { unfold unit_entry. destruct j as [|[|[|]]]; [| | |lia]; cbn [Nat.eqb]; ring. }
  rewrite E, <- A, <- B, <- C. unfold det, cof, pm.
  destruct i as [|[|[|]]]; [| | |lia]; cbn [Nat.modulo Nat.divmod Nat.add fst snd Nat.sub]; ring.
Qed.
Notation k := (/ delta).
Lemma Y_size i j : (i < 3)%nat -> (j < 3)%nat -> Rabs (Y i j) <= 2 * k * / (dev i * dev j).
Proof.
  intros Hi Hj. rewrite <- inv_Y by assumption. destruct orders as (O & _ & _).
  exact (proj2 (proj2 (inverse_near M dev delta M_finite pm_size dev_range delta_range det_large' (order_det o) i j O Hi Hj))).
Qed.
Lemma square_upper z : square Y z <= 2 * k * ((deviation dev z 0 + deviation dev z 1 + deviation dev z 2) * (deviation dev z 0 + deviation dev z 1 + deviation dev z 2)).
Proof.
  pose proof (kappa_range delta delta_range) as K.
  assert (T : forall i j, (i < 3)%nat -> (j < 3)%nat -> z i * (Y i j * z j) <= 2 * k * (deviation dev z i * deviation dev z j)).
  { intros i j Hi Hj. eapply Rle_trans; [apply Rle_abs|]. rewrite !Rabs_mult. pose proof (Y_size i j Hi Hj) as S. unfold deviation.
    destruct (dev_diag i Hi) as [pi _]. destruct (dev_diag j Hj) as [pj _].
    replace (2 * k * (Rabs (z i) * / dev i * (Rabs (z j) * / dev j))) with (Rabs (z i) * (2 * k * / (dev i * dev j) * Rabs (z j))) by (field; repeat split; lra).
    apply Rmult_le_compat_l; [apply Rabs_pos|]. apply Rmult_le_compat_r; [apply Rabs_pos|exact S]. }
  unfold square. three.
  pose proof (T 0%nat 0%nat ltac:(lia) ltac:(lia)). pose proof (T 0%nat 1%nat ltac:(lia) ltac:(lia)). pose proof (T 0%nat 2%nat ltac:(lia) ltac:(lia)).
  pose proof (T 1%nat 0%nat ltac:(lia) ltac:(lia)). pose proof (T 1%nat 1%nat ltac:(lia) ltac:(lia)). pose proof (T 1%nat 2%nat ltac:(lia) ltac:(lia)).
  pose proof (T 2%nat 0%nat ltac:(lia) ltac:(lia)). pose proof (T 2%nat 1%nat ltac:(lia) ltac:(lia)). pose proof (T 2%nat 2%nat ltac:(lia) ltac:(lia)).
  lra.
Qed.

Section Point.
Variable d : nat -> f32.
Hypothesis d_finite : forall i, (i < 3)%nat -> is_finite (d i) = true /\ Rabs (B2R (d i)) <= bpow radix2 21.
Hypothesis d_large : exists i, (i < 3)%nat /\ bpow radix2 (-20) <= Rabs (B2R (d i)).
Notation z := (fun i => B2R (d i)).
Notation q := (square Y z).
Notation dv i := (deviation dev z i).
Lemma form_square : form M d = q.
Proof.
  unfold form, row, square. three. rewrite !inv_Y by lia. ring.
Qed.
Lemma dv_pos i : (i < 3)%nat -> 0 <= dv i.
Proof. intros Hi. unfold deviation. apply Rmult_le_pos; [apply Rabs_pos|]. destruct (dev_diag i Hi). apply Rlt_le, Rinv_0_lt_compat. assumption. Qed.
Lemma dv_sum : bpow radix2 (-30) <= dv 0 + dv 1 + dv 2.
Proof.
  pose proof (dv_pos 0 ltac:(lia)). pose proof (dv_pos 1 ltac:(lia)). pose proof (dv_pos 2 ltac:(lia)).
  destruct d_large as (i & Hi & L).
  assert (G : bpow radix2 (-30) <= dv i).
  { destruct (within_inv _ _ (dev_range i Hi)) as [S1 S2]. change (-30)%Z with (-20 + - (10))%Z. rewrite bpow_plus.
    apply Rmult_le_compat; try apply bpow_ge_0; [exact L|exact S1]. }
  destruct i as [|[|[|]]]; [| | |lia]; lra.
Qed.
Lemma Z1_upper : Z1 dev d * Z1 dev d <= 9.0135 * q.
Proof.
  pose proof dv_sum as L. pose proof (dv_pos 0 ltac:(lia)) as P0. pose proof (dv_pos 1 ltac:(lia)) as P1. pose proof (dv_pos 2 ltac:(lia)) as P2.
  assert (A : forall i, (i < 3)%nat -> a d i * / dev i <= dv i + bpow radix2 (-42)).
  { intros i Hi. unfold a, deviation. rewrite Rmult_plus_distr_r. apply Rplus_le_compat_l.
    destruct (within_inv _ _ (dev_range i Hi)) as [S1 S2]. change (-42)%Z with (-52 + 10)%Z. rewrite bpow_plus. apply Rmult_le_compat_l; [apply bpow_ge_0|exact S2]. }
  pose proof (A 0%nat ltac:(lia)) as A0. pose proof (A 1%nat ltac:(lia)) as A1. pose proof (A 2%nat ltac:(lia)) as A2.
  assert (T : bpow radix2 (-42) = / 4096 * bpow radix2 (-30)).
  { change (-42)%Z with (-12 + -30)%Z. rewrite bpow_plus. reflexivity. }
  set (S := dv 0 + dv 1 + dv 2) in *.
  assert (U : 0 <= Z1 dev d <= 1.00074 * S).
  { split.
    - unfold Z1, a. assert (I : forall i, (i < 3)%nat -> 0 <= (Rabs (B2R (d i)) + bpow radix2 (-52)) * / dev i).
      { intros i Hi. pose proof (Rabs_pos (B2R (d i))). pose proof (bpow_ge_0 radix2 (-52)). destruct (dev_diag i Hi) as [p _]. apply Rmult_le_pos; [lra|apply Rlt_le, Rinv_0_lt_compat, p]. }
      pose proof (I 0%nat ltac:(lia)). pose proof (I 1%nat ltac:(lia)). pose proof (I 2%nat ltac:(lia)). lra.
    - unfold Z1. unfold S in *. lra. }
  assert (S0 : 0 <= S) by (unfold S; lra).
  assert (V : Z1 dev d * Z1 dev d <= 1.00074 * S * (1.00074 * S)) by (apply Rmult_le_compat; lra).
  assert (C : S * S <= 3 * (dv 0 * dv 0 + dv 1 * dv 1 + dv 2 * dv 2)).
  { unfold S. pose proof (Rle_0_sqr (dv 0 - dv 1)) as Q1. pose proof (Rle_0_sqr (dv 0 - dv 2)) as Q2. pose proof (Rle_0_sqr (dv 1 - dv 2)) as Q3. unfold Rsqr in *. lra. }
  pose proof (square_large pm Y dev sym psd inv_m dev_diag z) as B. pose proof (square_pos pm Y sym psd inv_m z). lra.
Qed.
Lemma q_large : bpow radix2 (-64) <= q.
Proof.
  pose proof dv_sum as L. pose proof (dv_pos 0 ltac:(lia)) as P0. pose proof (dv_pos 1 ltac:(lia)) as P1. pose proof (dv_pos 2 ltac:(lia)) as P2.
  pose proof (square_large pm Y dev sym psd inv_m dev_diag z) as B. set (S := dv 0 + dv 1 + dv 2) in *.
  assert (C : S * S <= 3 * (dv 0 * dv 0 + dv 1 * dv 1 + dv 2 * dv 2)).
  { unfold S. pose proof (Rle_0_sqr (dv 0 - dv 1)) as Q1. pose proof (Rle_0_sqr (dv 0 - dv 2)) as Q2. pose proof (Rle_0_sqr (dv 1 - dv 2)) as Q3. unfold Rsqr in *. lra. }
  assert (E : bpow radix2 (-30) * bpow radix2 (-30) <= S * S) by (apply Rmult_le_compat; try apply bpow_ge_0; assumption).
  rewrite <- bpow_plus in E. change (-30 + -30)%Z with (-60)%Z in E. change (-64)%Z with (-4 + -60)%Z. rewrite bpow_plus. change (bpow radix2 (-4)) with (/ 16). pose proof (bpow_ge_0 radix2 (-60)). lra.
Qed.
Lemma point_error :
  is_finite (pose_mahalanobis32 o d cov) = true /\
  Rabs (B2R (pose_mahalanobis32 o d cov) - sqrt q) <= 400 * u32 * (k * k) * sqrt q.
Proof.
  destruct orders as (O & O' & O''). pose proof (kappa_range delta delta_range) as K.
  destruct (form_near M dev delta M_finite pm_size dev_range delta_range det_large' d d_finite d_large _ _ _ O O' O'') as (F & E & _).
  rewrite form_square in E. unfold pose_mahalanobis32. cbv zeta.
  set (v32 := sum32 (order_dot o) _) in *. set (v := B2R v32) in *.
  pose proof q_large as Q. pose proof (bpow_gt_0 radix2 (-64)) as Q0. pose proof Z1_upper as ZU.
  set (qq := square Y (fun i => B2R (d i))) in *. pose proof (Rle_0_sqr (Z1 dev d)) as Zp. unfold Rsqr in Zp.
  assert (KK : 1 <= k * k <= 4096) by (split; nra).
  assert (u0 : 0 < u32) by (unfold u32; lra).
  set (h := u32 * (k * k)). assert (H1 : u32 <= h <= / 4096) by (unfold h, u32; split; nra).
  assert (Eq : Rabs (v - qq) <= 736 * h * qq).
  { eapply Rle_trans; [exact E|]. replace (40.8 * k * u32 * (2 * k * (Z1 dev d * Z1 dev d))) with (81.6 * h * (Z1 dev d * Z1 dev d)) by (unfold h; set (kk := / delta); lra).
    apply Rle_trans with (81.6 * h * (9.0135 * qq)); [apply Rmult_le_compat_l; lra|]. assert (0 <= h * qq) by (apply Rmult_le_pos; lra). lra. }
  assert (B : 736 * h * qq <= 0.18 * qq) by (apply Rmult_le_compat_r; lra).
  apply Rabs_le_inv in Eq as Eq2.
  assert (v0 : 0.82 * qq <= v <= 1.18 * qq) by lra.
  destruct (sqrt32_value v32 F) as [Sv Fv]; [fold v; lra|]. split; [exact Fv|]. rewrite Sv. fold v.
  set (x := sqrt v). set (y := sqrt qq).
  assert (x2 : x * x = v) by (apply sqrt_sqrt; lra). assert (y2 : y * y = qq) by (apply sqrt_sqrt; lra).
  assert (x0 : 0 < x) by (apply sqrt_lt_R0; lra). assert (y0 : 0 < y) by (apply sqrt_lt_R0; lra).
  assert (xy : 0.9 * y <= x <= 1.1 * y) by (split; nra).
  destruct (rnd32_big x) as (eps & He & Er).
  { rewrite Rabs_pos_eq by lra. apply Rle_trans with (bpow radix2 (-33)); [apply bpow_le; lia|].
    rewrite <- (sqrt_Rsqr (bpow radix2 (-33))) by apply bpow_ge_0. apply sqrt_le_1_alt. unfold Rsqr. rewrite <- bpow_plus.
    change (-33 + -33)%Z with (-2 + -64)%Z. rewrite bpow_plus. change (bpow radix2 (-2)) with (/ 4). lra. }
  rewrite Er.
  assert (D : Rabs (x - y) <= 387.4 * h * y).
  { apply Rmult_le_reg_r with (x + y); [lra|]. rewrite <- (Rabs_pos_eq (x + y)) at 1 by lra. rewrite <- Rabs_mult.
    replace ((x - y) * (x + y)) with (v - qq) by (rewrite <- x2, <- y2; ring). eapply Rle_trans; [exact Eq|]. rewrite <- y2.
    assert (hy : 0 <= h * y) by (apply Rmult_le_pos; lra). 
    replace (736 * h * (y * y)) with (736 * (h * y) * y) by ring. replace (387.4 * h * y * (x + y)) with (387.4 * (h * y) * (x + y)) by ring.
    apply Rle_trans with (387.4 * (h * y) * (1.9 * y)); [|apply Rmult_le_compat_l; lra].
    assert (0 <= h * y * y) by (apply Rmult_le_pos; lra). lra. }
  replace (x * (1 + eps) - y) with (x - y + x * eps) by ring. eapply Rle_trans; [apply Rabs_triang|].
  rewrite Rabs_mult, (Rabs_pos_eq x) by lra.
  assert (x * Rabs eps <= 1.1 * y * u32) by (apply Rmult_le_compat; try apply Rabs_pos; lra).
  assert (y * u32 <= y * h) by (apply Rmult_le_compat_l; lra).
  replace (400 * u32 * (k * k) * y) with (400 * (y * h)) by (unfold h; ring).
  assert (0 < y * h) by (apply Rmult_lt_0_compat; lra). lra.
Qed.
End Point.

(** With the errors of the differences *)
Section Errors.
Variables (d : nat -> f32) (z : nat -> R) (rho sigma : R).
Hypothesis d_finite : forall i, (i < 3)%nat -> is_finite (d i) = true /\ Rabs (B2R (d i)) <= bpow radix2 21.
Hypothesis d_large : exists i, (i < 3)%nat /\ bpow radix2 (-20) <= Rabs (B2R (d i)).
Hypothesis sigma_pos : 0 < sigma.
Hypothesis sigma_diag : forall i, (i < 3)%nat -> sigma * sigma <= pm i i.
Hypothesis error : forall i, (i < 3)%nat -> Rabs (B2R (d i) - z i) <= rho.
Lemma perturbed_error : is_finite (pose_mahalanobis32 o d cov) = true /\
  Rabs (B2R (pose_mahalanobis32 o d cov) - mahalanobis Y z) <= 400 * u32 / (delta * delta) * mahalanobis Y z + 7 * rho / (delta * sigma).
Proof.
  destruct (point_error d d_finite d_large) as [F E]. split; [exact F|]. pose proof (kappa_range delta delta_range) as K.
  set (w := fun i => B2R (d i)) in *. set (r := fun i => w i - z i). set (r' := fun i => z i - w i).
  assert (R0 : 0 <= rho) by (pose proof (error 0 ltac:(lia)); pose proof (Rabs_pos (B2R (d 0%nat) - z 0%nat)); lra).
  assert (Q : forall r, (forall i, (i < 3)%nat -> Rabs (r i) <= rho) -> sqrt (square Y r) <= 6 * (k * rho * / sigma)).
  { intros r0 Hr.
    assert (S : forall i, (i < 3)%nat -> 0 <= deviation dev r0 i <= rho * / sigma).
    { intros i Hi. destruct (dev_diag i Hi) as [p e]. unfold deviation. pose proof (Rinv_0_lt_compat _ p). split; [apply Rmult_le_pos; [apply Rabs_pos|lra]|].
      apply Rmult_le_compat; [apply Rabs_pos|lra|now apply Hr|]. apply Rinv_le_contravar; [exact sigma_pos|].
      pose proof (sigma_diag i Hi). rewrite <- e in *. nra. }
    pose proof (S 0%nat ltac:(lia)). pose proof (S 1%nat ltac:(lia)). pose proof (S 2%nat ltac:(lia)).
    set (b := rho * / sigma) in *. replace (6 * (k * rho * / sigma)) with (6 * (k * b)) by (unfold b; ring). assert (0 <= k * b) by (apply Rmult_le_pos; lra).
    rewrite <- (sqrt_Rsqr (6 * (k * b))) by lra. apply sqrt_le_1_alt. eapply Rle_trans; [apply square_upper|]. unfold Rsqr.
    set (s := deviation dev r0 0 + deviation dev r0 1 + deviation dev r0 2). assert (s1 : 0 <= s <= 3 * b) by (unfold s; lra).
    assert (s2 : s * s <= 3 * b * (3 * b)) by (apply Rmult_le_compat; lra).
    apply Rle_trans with (2 * k * (3 * b * (3 * b))); [apply Rmult_le_compat_l; lra|].
    assert (k * (b * b) <= k * k * (b * b)) by (apply Rmult_le_compat_r; [apply Rle_0_sqr|nra]).
    replace (6 * (k * b) * (6 * (k * b))) with (36 * (k * k * (b * b))) by ring. pose proof (Rle_0_sqr (k * b)) as Sq. unfold Rsqr in Sq.
    replace (2 * k * (3 * b * (3 * b))) with (18 * (k * (b * b))) by ring. lra. }
  assert (T1 : sqrt (square Y w) <= mahalanobis Y z + 6 * (k * rho * / sigma)).
  { replace (sqrt (square Y w)) with (sqrt (square Y (fun i => z i + r i))).
    - eapply Rle_trans; [apply (sqrt_triangle pm Y sym psd inv_m)|]. apply Rplus_le_compat; [apply Rle_refl|]. apply Q. exact error.
    - f_equal. unfold square, r. three. ring. }
  assert (T2 : mahalanobis Y z <= sqrt (square Y w) + 6 * (k * rho * / sigma)).
  { replace (mahalanobis Y z) with (sqrt (square Y (fun i => w i + r' i))).
    - eapply Rle_trans; [apply (sqrt_triangle pm Y sym psd inv_m)|]. apply Rplus_le_compat; [apply Rle_refl|]. apply Q.
      intros i Hi. unfold r'. rewrite Rabs_minus_sym. now apply error.
    - unfold mahalanobis. f_equal. unfold square, r'. three. ring. }
  assert (P0 : 0 <= mahalanobis Y z) by apply sqrt_pos.
  set (e := mahalanobis Y z) in *. set (e' := sqrt (square Y w)) in *. set (g := k * rho * / sigma) in *.
  assert (g0 : 0 <= g) by (unfold g; repeat apply Rmult_le_pos; [lra|exact R0|apply Rlt_le, Rinv_0_lt_compat, sigma_pos]).
  replace (7 * rho / (delta * sigma)) with (7 * g) by (unfold g; field; split; lra).
  replace (400 * u32 / (delta * delta) * e) with (400 * (u32 * (k * k)) * e) by (field; lra).
  replace (400 * u32 * (k * k) * e') with (400 * (u32 * (k * k)) * e') in E by ring.
  set (h := u32 * (k * k)) in *. assert (KK : 1 <= k * k <= 4096) by (split; nra).
  assert (H1 : 0 <= h <= / 4096) by (unfold h, u32; split; nra).
  assert (h * e' <= h * (e + 6 * g)) by (apply Rmult_le_compat_l; lra).
  assert (h * g <= / 4096 * g) by (apply Rmult_le_compat_r; lra).
  apply Rabs_le_inv in E. apply Rabs_le. lra.
Qed.
End Errors.
End Distance.

(** ** Differences of two states *)
Lemma difference_error (x y : f64) e : (3 <= e <= 19)%Z -> is_finite x = true -> is_finite y = true ->
  Rabs (B2R x) <= bpow radix2 e -> Rabs (B2R y) <= bpow radix2 e ->
  let v := f32_sub (f32_of_f64 x) (f32_of_f64 y) in
  is_finite v = true /\ Rabs (B2R v - (B2R x - B2R y)) <= bpow radix2 (e - 22) /\ Rabs (B2R v) <= bpow radix2 21.
Proof.
  intros He Fx Fy Hx Hy v. destruct (difference x y e ltac:(lia) Fx Fy Hx Hy) as (E & F & _). fold v in E, F. split; [exact F|].
  destruct (component (B2R x) (B2R y) e ltac:(lia) Hx Hy) as (rho & eps & Hr & Hp & C). rewrite C in E. rewrite E.
  assert (S : Rabs (B2R x - B2R y) <= 2 * bpow radix2 e).
  { unfold Rminus. eapply Rle_trans; [apply Rabs_triang|]. rewrite Rabs_Ropp. lra. }
  set (t := B2R x - B2R y) in *. set (b := bpow radix2 e) in *. assert (b0 : 0 < b) by apply bpow_gt_0.
  assert (b24 : bpow radix2 (e - 24) = u32 * b) by (unfold b, u32, Zminus; rewrite bpow_plus, Rmult_comm; apply Rmult_eq_compat_r; cbn; lra).
  assert (b22 : bpow radix2 (e - 22) = 4 * (u32 * b)).
  { replace (e - 22)%Z with (2 + (e - 24))%Z by lia. rewrite bpow_plus, b24. reflexivity. }
  rewrite b24 in Hr. rewrite b22.
  assert (u0 : 0 < u32 < 0.0000001) by (unfold u32; lra). assert (ub : 0 < u32 * b) by (apply Rmult_lt_0_compat; lra).
  assert (D : Rabs ((t + rho) * (1 + eps) - t) <= 4 * (u32 * b)).
  { replace ((t + rho) * (1 + eps) - t) with (rho + (t * eps + rho * eps)) by ring.
    eapply Rle_trans; [apply Rabs_triang|]. assert (T := Rabs_triang (t * eps) (rho * eps)). rewrite !Rabs_mult in T.
    assert (Rabs t * Rabs eps <= 2 * b * u32) by (apply Rmult_le_compat; try apply Rabs_pos; assumption).
    assert (Rabs rho * Rabs eps <= u32 * b * u32) by (apply Rmult_le_compat; try apply Rabs_pos; assumption).
    assert (u32 * b * u32 <= u32 * b * 0.0000001) by (apply Rmult_le_compat_l; lra). lra. }
  split; [exact D|].
  replace ((t + rho) * (1 + eps)) with (((t + rho) * (1 + eps) - t) + t) by ring. eapply Rle_trans; [apply Rabs_triang|].
  assert (b <= bpow radix2 19) by (apply bpow_le; lia). change (bpow radix2 19) with 524288 in *. change (bpow radix2 21) with 2097152.
  assert (u32 * b <= 0.0000001 * b) by (apply Rmult_le_compat_r; lra). lra.
Qed.

(** Equal poses *)
Definition is_zero (x : f32) : Prop := exists s, x = B754_zero s.
Lemma mul_zero_l x y : is_zero x -> is_finite y = true -> is_zero (f32_mul x y).
Proof. intros [s ->] F. destruct y; try discriminate; eexists; reflexivity. Qed.
Lemma sum_zero t p : (forall i, In i (leaves t) -> is_zero (p i)) -> is_zero (sum32 t p).
Proof.
  induction t as [i|l IHl r IHr]; cbn [leaves sum32]; intros H; [apply H; now left|].
  destruct IHl as [a ->]; [intros i Hi; apply H, in_or_app; now left|]. destruct IHr as [b ->]; [intros i Hi; apply H, in_or_app; now right|].
  unfold f32_add, Bplus. destruct (Bool.eqb a b); eexists; reflexivity.
Qed.
Lemma finite_zero (x : f32) : is_finite x = true -> B2R x = 0 -> is_zero x.
Proof.
  intros F E. destruct x as [s| | |s m e Hb]; try discriminate; [now exists s|]. exfalso. cbn in E.
  apply eq_0_F2R in E. destruct s; discriminate.
Qed.
Lemma sub_same_zero (x : f32) : is_finite x = true -> is_zero (f32_sub x x).
Proof.
  intros F. pose proof (Bminus_correct 24 128 _ _ mode_NE x x F F) as C. rewrite Rminus_diag_eq in C by reflexivity. rewrite round_0 in C by apply valid_rnd_N.
  rewrite Rabs_R0, Rlt_bool_true in C by apply bpow_gt_0. destruct C as (E & G & _). now apply finite_zero.
Qed.
Lemma below3 t i : order_of 3 t -> In i (leaves t) -> (i < 3)%nat.
Proof. intros O H. apply (Permutation.Permutation_in _ O), in_seq in H. lia. Qed.
Section Same.
Variables (o : pose_orders) (cov : nat -> nat -> f32) (delta : R).
Hypothesis orders : order_of 3 (order_det o) /\ (forall j, (j < 3)%nat -> order_of 3 (order_row o j)) /\ order_of 3 (order_dot o).
Hypothesis M_finite : forall i j, (i < 3)%nat -> (j < 3)%nat -> is_finite (pose_cov32 cov i j) = true.
Hypothesis sym : forall i j, (i < 3)%nat -> (j < 3)%nat -> pm cov i j = pm cov j i.
Hypothesis psd : at_least 0 3 (pm cov).
Hypothesis diag : forall i, (i < 3)%nat -> bpow radix2 (-20) <= pm cov i i <= bpow radix2 20.
Hypothesis delta_range : / 64 <= delta <= 1.
Hypothesis det_large : delta * (pm cov 0 0 * pm cov 1 1 * pm cov 2 2) <= det3 (pm cov).
Variable d : nat -> f32.
Hypothesis d_zero : forall i, (i < 3)%nat -> is_zero (d i).
Lemma same_zero : is_zero (pose_mahalanobis32 o d cov).
Proof.
  destruct orders as (O & O' & O'').
  assert (I : forall i j, (i < 3)%nat -> (j < 3)%nat -> is_finite (inverse3_32 (order_det o) (pose_cov32 cov) i j) = true).
  { intros i j Hi Hj.
    exact (proj1 (inverse_near _ (dev cov) delta M_finite (pm_size cov sym psd diag) (dev_range cov diag) delta_range (det_large' cov delta diag det_large) (order_det o) i j O Hi Hj)). }
  unfold pose_mahalanobis32. cbv zeta.
  assert (Z : is_zero (sum32 (order_dot o) (fun j => f32_mul (sum32 (order_row o j) (fun i => f32_mul (d i) (inverse3_32 (order_det o) (pose_cov32 cov) i j))) (d j)))).
  { apply sum_zero. intros j Hj. apply (below3 _ _ O'') in Hj. apply mul_zero_l.
    - apply sum_zero. intros i Hi. apply (below3 _ _ (O' j Hj)) in Hi. apply mul_zero_l; [now apply d_zero|now apply I].
    - destruct (d_zero j Hj) as [s ->]. reflexivity. }
  destruct Z as [s ->]. exists s. reflexivity.
Qed.
End Same.

(** ** Not a number *)
Lemma sum_nan t p i : In i (leaves t) -> p i = B754_nan -> sum32 t p = B754_nan.
Proof.
  induction t as [k|l IHl r IHr]; cbn [leaves sum32]; intros H E.
  - destruct H as [->|[]]. exact E.
  - apply in_app_or in H. destruct H as [H|H]; [rewrite (IHl H E); reflexivity|rewrite (IHr H E)]. unfold f32_add. now destruct (sum32 l p).
Qed.
Lemma mul_nan_r (x : f32) : f32_mul x B754_nan = B754_nan.
Proof. now destruct x. Qed.
Lemma mul_nan_l (x : f32) : f32_mul B754_nan x = B754_nan.
Proof. reflexivity. Qed.
Lemma tree3 t : order_of 3 t -> exists a b c, Permutation.Permutation [a; b; c] [0; 1; 2]%nat /\
  (t = Node (Leaf a) (Node (Leaf b) (Leaf c)) \/ t = Node (Node (Leaf a) (Leaf b)) (Leaf c)).
Proof.
  intros O. unfold order_of in O. cbn [seq] in O. pose proof (Permutation.Permutation_length O) as L. cbn [length] in L.
  assert (P : forall t, (1 <= length (leaves t))%nat) by (intros t0; induction t0; cbn; [lia|rewrite app_length; lia]).
  assert (One : forall t, length (leaves t) = 1%nat -> exists a, t = Leaf a).
  { intros [a|l r]; [now exists a|]. cbn. rewrite app_length. pose proof (P l). pose proof (P r). lia. }
  assert (Two : forall t, length (leaves t) = 2%nat -> exists a b, t = Node (Leaf a) (Leaf b)).
  { intros [a|l r]; cbn; [lia|]. rewrite app_length. pose proof (P l). pose proof (P r). intros HL. destruct (One l) as [a ->]; [lia|]. destruct (One r) as [b ->]; [lia|]. now exists a, b. }
  destruct t as [a|l r]; cbn in L; [lia|]. rewrite app_length in L. pose proof (P l). pose proof (P r).
  destruct (Nat.eq_dec (length (leaves l)) 1) as [E|E].
  - destruct (One l E) as [a ->]. destruct (Two r) as (b & c & ->); [lia|]. exists a, b, c. split; [exact O|now left].
  - destruct (One r) as [c ->]; [lia|]. destruct (Two l) as (a & b & ->); [lia|]. exists a, b, c. split; [exact O|now right].
Qed.
Lemma perm3 a b c : Permutation.Permutation [a; b; c] [0; 1; 2]%nat ->
  In (a, b, c) [(0, 1, 2); (0, 2, 1); (1, 0, 2); (1, 2, 0); (2, 0, 1); (2, 1, 0)]%nat.
Proof.
  intros P. assert (I : forall x, In x [a; b; c] -> In x [0; 1; 2]%nat) by (intros x; now apply Permutation.Permutation_in).
  assert (N : NoDup [a; b; c]) by (apply (Permutation.Permutation_NoDup (Permutation.Permutation_sym P)); repeat constructor; cbn; lia).
  pose proof (I a ltac:(cbn; tauto)) as A. pose proof (I b ltac:(cbn; tauto)) as B. pose proof (I c ltac:(cbn; tauto)) as C.
  inversion N as [|? ? N1 N2]; subst. inversion N2 as [|? ? N3 N4]; subst. cbn in A, B, C, N1, N3 |- *.
  destruct A as [<-|[<-|[<-|[]]]], B as [<-|[<-|[<-|[]]]], C as [<-|[<-|[<-|[]]]]; tauto.
Qed.
Lemma all_trees (Q : tree -> bool) :
  forallb (fun p => let '(a, b, c) := p in (Q (Node (Leaf a) (Node (Leaf b) (Leaf c))) && Q (Node (Node (Leaf a) (Leaf b)) (Leaf c)))%bool)
    [(0, 1, 2); (0, 2, 1); (1, 0, 2); (1, 2, 0); (2, 0, 1); (2, 1, 0)]%nat = true ->
  forall t, order_of 3 t -> Q t = true.
Proof.
  intros H t O. destruct (tree3 t O) as (a & b & c & P & E). apply perm3 in P. rewrite forallb_forall in H. specialize (H _ P).
  cbv beta iota in H. apply andb_prop in H. destruct H as [H1 H2]. destruct E as [->| ->]; assumption.
Qed.
