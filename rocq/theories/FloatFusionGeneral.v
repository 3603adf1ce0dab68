(** Accuracy of the fusion in single precision for covariances with correlations: rounding
    errors of the combined information, of the information vector and of the fused mean. *)
From Coq Require Import ZArith Reals Lra Lia List Arith Bool Permutation.
From Flocq Require Import Core IEEE754.BinarySingleNaN.
From Verif Require Import Float FloatProofs FloatDistance FloatDistanceThms FloatWeight FloatWeightThms FloatUnscented FloatUnscentedThms
  FloatLlt FloatLltThms FloatLu FloatLuThms FloatSolve FloatHeading FloatFusion InverseSpec.
Import ListNotations.
Open Scope R_scope.
Notation sum32 := FloatUnscented.sum32.
Notation total := FloatUnscentedThms.total.

Lemma u32_small : 0 < u32 < / 1000000. Proof. unfold u32. lra. Qed.
Lemma mul_near (x y : f32) : is_finite (f32_mul x y) = true ->
  Rabs (B2R (f32_mul x y) - B2R x * B2R y) <= u32 * Rabs (B2R x * B2R y) + tiny.
Proof.
  intros F. destruct (mul_exact _ _ F) as (_ & _ & ->). destruct (rnd32_rel (B2R x * B2R y)) as (eps & eta & He & Ht & E).
  rewrite E. replace (B2R x * B2R y * (1 + eps) + eta - B2R x * B2R y) with (eps * (B2R x * B2R y) + eta) by ring.
  eapply Rle_trans; [apply Rabs_triang|]. rewrite Rabs_mult.
  apply Rplus_le_compat; [|exact Ht]. apply Rmult_le_compat_r; [apply Rabs_pos|exact He].
Qed.
Lemma one_minus (w : f32) : is_finite w = true -> Rabs (B2R w) <= 2 ->
  is_finite (f32_sub (f32_of_Z 1) w) = true /\ Rabs (B2R (f32_sub (f32_of_Z 1) w) - (1 - B2R w)) <= u32 * Rabs (1 - B2R w).
Proof.
  intros F R. destruct (int32_value 1 ltac:(lia)) as [E1 F1].
  destruct (sub_small (f32_of_Z 1) w 2 ltac:(lia) F1 F) as (G & E & _).
  { rewrite E1. change (bpow radix2 2) with 4. apply Rabs_le_inv in R. apply Rabs_le. lra. }
  split; [exact G|]. rewrite E, E1.
  destruct (rnd32_add 1 (- B2R w)) as (eps & He & Eq).
  { rewrite <- E1. apply fmtB. } { apply generic_format_opp, fmtB. }
  unfold Rminus at 2. rewrite Eq. replace ((1 + - B2R w) * (1 + eps) - (1 - B2R w)) with (eps * (1 - B2R w)) by ring.
  rewrite Rabs_mult. apply Rmult_le_compat_r; [apply Rabs_pos|exact He].
Qed.

(** A sum of at most 13 terms, each with a relative and an absolute error *)
Lemma sum_terms t m (p : nat -> f32) (e : nat -> R) d tau : order_of m t -> (m <= 13)%nat -> 0 <= d <= 4 -> 0 <= tau ->
  is_finite (sum32 t p) = true ->
  (forall i, (i < m)%nat -> is_finite (p i) = true -> Rabs (B2R (p i) - e i) <= d * u32 * Rabs (e i) + tau) ->
  Rabs (B2R (sum32 t p) - total e (seq 0 m)) <=
    (13.01 + d) * u32 * total (fun i => Rabs (e i)) (seq 0 m) + 1.01 * (INR m * tau).
Proof.
  intros O Hm Hd Ht F H. pose proof (sum_error t p F) as S. pose proof (sum_finite t p F) as Fi.
  rewrite (total_perm _ _ _ O), (total_perm (fun i => Rabs (B2R (p i))) _ _ O), (Permutation_length O), seq_length in S.
  assert (H' : forall i, In i (seq 0 m) -> Rabs (B2R (p i) - e i) <= d * u32 * Rabs (e i) + tau).
  { intros i Hi. apply in_seq in Hi. apply H; [lia|]. apply Fi. apply (Permutation_in _ (Permutation_sym O)). apply in_seq. lia. }
  pose proof (grow13 m Hm) as G. pose proof u32_small as U.
  assert (G1 : 1 <= (1 + u32) ^ m) by (apply (pow_grow m m); lia).
  assert (D : Rabs (total (fun i => B2R (p i)) (seq 0 m) - total e (seq 0 m)) <= d * u32 * total (fun i => Rabs (e i)) (seq 0 m) + INR m * tau).
  { rewrite <- FloatCovarianceThms.total_minus. eapply Rle_trans; [apply total_abs|].
    apply Rle_trans with (total (fun i => d * u32 * Rabs (e i) + tau) (seq 0 m)); [now apply total_le|].
    rewrite total_plus, total_scale, total_const, seq_length. lra. }
  assert (A : total (fun i => Rabs (B2R (p i))) (seq 0 m) <= (1 + d * u32) * total (fun i => Rabs (e i)) (seq 0 m) + INR m * tau).
  { apply Rle_trans with (total (fun i => (1 + d * u32) * Rabs (e i) + tau) (seq 0 m)).
    - apply total_le. intros i Hi. specialize (H' i Hi). pose proof (Rabs_triang_inv (B2R (p i)) (e i)). lra.
    - rewrite total_plus, total_scale, total_const, seq_length. lra. }
  assert (E0 : 0 <= total (fun i => Rabs (e i)) (seq 0 m)) by (apply total_nonneg; intros; apply Rabs_pos).
  assert (A0 : 0 <= total (fun i => Rabs (B2R (p i))) (seq 0 m)) by (apply total_nonneg; intros; apply Rabs_pos).
  pose proof (pos_INR m) as M0. assert (T0 : 0 <= INR m * tau) by now apply Rmult_le_pos.
  set (T := total (fun i => Rabs (e i)) (seq 0 m)) in *. set (a := total (fun i => Rabs (B2R (p i))) (seq 0 m)) in *.
  set (g := (1 + u32) ^ m) in *. set (q := INR m * tau) in *.
  assert (S2 : (g - 1) * a <= 13.001 * u32 * ((1 + d * u32) * T + q)).
  { apply Rmult_le_compat; lra. }
  assert (K1 : 13.001 * u32 * ((1 + d * u32) * T) <= 13.0099 * u32 * T).
  { rewrite <- Rmult_assoc. apply Rmult_le_compat_r; [exact E0|].
    assert (d * u32 <= 4 * / 1000000) by (apply Rmult_le_compat; lra).
    replace (13.001 * u32 * (1 + d * u32)) with (u32 * (13.001 * (1 + d * u32))) by ring. replace (13.0099 * u32) with (u32 * 13.0099) by ring. apply Rmult_le_compat_l; lra. }
  assert (K2 : 13.001 * u32 * q <= 0.0001 * q) by (apply Rmult_le_compat_r; lra).
  assert (K3 : 0 <= u32 * T) by (apply Rmult_le_pos; lra).
  apply Rabs_le_inv in S, D. apply Rabs_le. lra.
Qed.

(** A product with a factor that has an error *)
Lemma compose p a v b d s t : 0 <= d <= 4 -> 0 <= s -> Rabs (p - a * b) <= u32 * Rabs (a * b) + t -> Rabs (a - v) <= d * u32 * Rabs v + s ->
  Rabs (p - v * b) <= (d + 1.001) * u32 * Rabs (v * b) + (1.001 * (s * Rabs b) + t).
Proof.
  intros Hd Hs N H. pose proof u32_small as U. rewrite !Rabs_mult in *. pose proof (Rabs_pos v) as V0. pose proof (Rabs_pos b) as B0.
  assert (A : Rabs a <= (1 + d * u32) * Rabs v + s) by (pose proof (Rabs_triang_inv a v); lra).
  assert (A2 : Rabs a * Rabs b <= ((1 + d * u32) * Rabs v + s) * Rabs b) by now apply Rmult_le_compat_r.
  assert (D : Rabs (a * b - v * b) <= (d * u32 * Rabs v + s) * Rabs b).
  { replace (a * b - v * b) with ((a - v) * b) by ring. rewrite Rabs_mult. now apply Rmult_le_compat_r. }
  assert (A3 : u32 * (Rabs a * Rabs b) <= u32 * (((1 + d * u32) * Rabs v + s) * Rabs b)) by (apply Rmult_le_compat_l; lra).
  assert (VB : 0 <= Rabs v * Rabs b) by now apply Rmult_le_pos. assert (SB : 0 <= s * Rabs b) by now apply Rmult_le_pos.
  assert (K : u32 * (d * u32) * (Rabs v * Rabs b) <= 0.001 * u32 * (Rabs v * Rabs b)).
  { apply Rmult_le_compat_r; [exact VB|]. assert (d * u32 <= 4 * / 1000000) by (apply Rmult_le_compat; lra).
    rewrite (Rmult_comm 0.001). apply Rmult_le_compat_l; lra. }
  assert (K2 : u32 * (s * Rabs b) <= 0.001 * (s * Rabs b)) by (apply Rmult_le_compat_r; lra).
  replace (p - v * b) with ((p - a * b) + (a * b - v * b)) by ring. eapply Rle_trans; [apply Rabs_triang|].
  apply Rle_trans with (u32 * (((1 + d * u32) * Rabs v + s) * Rabs b) + t + (d * u32 * Rabs v + s) * Rabs b); [lra|].
  replace (u32 * (((1 + d * u32) * Rabs v + s) * Rabs b) + t + (d * u32 * Rabs v + s) * Rabs b) with
    ((d + 1) * u32 * (Rabs v * Rabs b) + u32 * (d * u32) * (Rabs v * Rabs b) + s * Rabs b + u32 * (s * Rabs b) + t) by ring. lra.
Qed.
Lemma tiny_sum x : Rabs x <= bpow radix2 40 -> 1.001 * (tiny * Rabs x) + tiny <= bpow radix2 (-109).
Proof.
  intros Bx. assert (T1 : tiny * Rabs x <= bpow radix2 (-110)).
  { replace (-110)%Z with (-150 + 40)%Z by reflexivity. rewrite bpow_plus. apply Rmult_le_compat_l; [apply bpow_ge_0|exact Bx]. }
  assert (T2 : tiny <= bpow radix2 (-120)) by (apply bpow_le; lia).
  replace (bpow radix2 (-120)) with (/ 1024 * bpow radix2 (-110)) in T2 by (change (-120)%Z with (-10 + -110)%Z; rewrite bpow_plus; reflexivity).
  replace (bpow radix2 (-109)) with (2 * bpow radix2 (-110)) by (change (-109)%Z with (1 + -110)%Z; rewrite bpow_plus; reflexivity).
  pose proof (bpow_gt_0 radix2 (-110)). lra.
Qed.
(** Three factors, the first of which has a relative error *)
Section Triple.
Variables (f y x : f32) (v : R).
Hypothesis factor : Rabs (B2R f - v) <= u32 * Rabs v.
Lemma triple_left : is_finite (f32_mul (f32_mul f y) x) = true -> Rabs (B2R x) <= bpow radix2 40 ->
  Rabs (B2R (f32_mul (f32_mul f y) x) - v * B2R y * B2R x) <= 3.01 * u32 * Rabs (v * B2R y * B2R x) + bpow radix2 (-109).
Proof.
  intros F Bx. destruct (mul_exact _ _ F) as (F2 & _). pose proof (mul_near _ _ F) as N1. pose proof (mul_near _ _ F2) as N2.
  pose proof u32_small as U. pose proof (bpow_gt_0 radix2 (-150)) as T0.
  pose proof (compose _ _ v (B2R y) 1 0 tiny ltac:(lra) ltac:(lra) N2 ltac:(lra)) as C1.
  rewrite Rmult_0_l, Rmult_0_r, Rplus_0_l in C1.
  pose proof (compose _ _ _ (B2R x) (1 + 1.001) _ tiny ltac:(lra) (Rlt_le _ _ T0) N1 C1) as C2.
  eapply Rle_trans; [exact C2|]. apply Rplus_le_compat; [|now apply tiny_sum].
  apply Rmult_le_compat_r; [apply Rabs_pos|lra].
Qed.
Lemma triple_right : is_finite (f32_mul y (f32_mul f x)) = true -> Rabs (B2R y) <= bpow radix2 40 ->
  Rabs (B2R (f32_mul y (f32_mul f x)) - v * B2R y * B2R x) <= 3.01 * u32 * Rabs (v * B2R y * B2R x) + bpow radix2 (-109).
Proof.
  intros F By. destruct (mul_exact _ _ F) as (_ & F2 & _). pose proof (mul_near _ _ F) as N1. pose proof (mul_near _ _ F2) as N2.
  pose proof u32_small as U. pose proof (bpow_gt_0 radix2 (-150)) as T0.
  pose proof (compose _ _ v (B2R x) 1 0 tiny ltac:(lra) ltac:(lra) N2 ltac:(lra)) as C1.
  rewrite Rmult_0_l, Rmult_0_r, Rplus_0_l in C1. rewrite (Rmult_comm (B2R y)) in N1.
  pose proof (compose _ _ _ (B2R y) (1 + 1.001) _ tiny ltac:(lra) (Rlt_le _ _ T0) N1 C1) as C2.
  replace (v * B2R y * B2R x) with (v * B2R x * B2R y) by ring.
  eapply Rle_trans; [exact C2|]. apply Rplus_le_compat; [|now apply tiny_sum].
  apply Rmult_le_compat_r; [apply Rabs_pos|lra].
Qed.
End Triple.
(** A factor times a sum *)
Lemma times_sum (f s : f32) v E T D q : Rabs (B2R f - v) <= u32 * Rabs v -> is_finite (f32_mul f s) = true -> Rabs v <= 3 -> 0 <= D <= 20 -> 0 <= q ->
  Rabs E <= T -> Rabs (B2R s - E) <= D * u32 * T + q ->
  Rabs (B2R (f32_mul f s) - v * E) <= (D + 2.01) * u32 * (Rabs v * T) + (3.1 * q + tiny).
Proof.
  intros Hf F Hv HD Hq HE Hs. pose proof u32_small as U. pose proof (mul_near _ _ F) as N. rewrite Rabs_mult in N.
  pose proof (Rabs_pos E) as E0. pose proof (Rabs_pos v) as V0.
  set (p := B2R (f32_mul f s)) in *. set (a := B2R f) in *. set (S := B2R s) in *.
  assert (A : Rabs a <= (1 + u32) * Rabs v) by (pose proof (Rabs_triang_inv a v) as I; lra).
  assert (B : Rabs S <= (1 + D * u32) * T + q) by (pose proof (Rabs_triang_inv S E); lra).
  assert (D2 : Rabs (a * E - v * E) <= u32 * Rabs v * T).
  { replace (a * E - v * E) with ((a - v) * E) by ring. rewrite Rabs_mult. apply Rmult_le_compat; try apply Rabs_pos; assumption. }
  assert (AB : Rabs a * Rabs S <= (1 + u32) * Rabs v * ((1 + D * u32) * T + q)) by (apply Rmult_le_compat; try apply Rabs_pos; assumption).
  assert (D1 : Rabs (a * S - a * E) <= (1 + u32) * Rabs v * (D * u32 * T + q)).
  { replace (a * S - a * E) with (a * (S - E)) by ring. rewrite Rabs_mult. apply Rmult_le_compat; try apply Rabs_pos; assumption. }
  set (vv := Rabs v) in *.
  assert (T0 : 0 <= vv * T) by (apply Rmult_le_pos; lra). assert (Q0 : 0 <= vv * q) by (apply Rmult_le_pos; lra).
  assert (Q1 : vv * q <= 3 * q) by (apply Rmult_le_compat_r; lra).
  replace (p - v * E) with ((p - a * S) + (a * S - a * E) + (a * E - v * E)) by ring.
  eapply Rle_trans; [apply Rabs_triang|]. assert (X := Rabs_triang (p - a * S) (a * S - a * E)).
  apply Rle_trans with (u32 * ((1 + u32) * vv * ((1 + D * u32) * T + q)) + tiny + (1 + u32) * vv * (D * u32 * T + q) + u32 * vv * T).
  { assert (u32 * (Rabs a * Rabs S) <= u32 * ((1 + u32) * vv * ((1 + D * u32) * T + q))) by (apply Rmult_le_compat_l; lra). lra. }
  replace (u32 * ((1 + u32) * vv * ((1 + D * u32) * T + q)) + tiny + (1 + u32) * vv * (D * u32 * T + q) + u32 * vv * T) with
    (((1 + u32) * (1 + D * u32) + (1 + u32) * D + 1) * (u32 * (vv * T)) + (1 + u32) * (1 + u32) * (vv * q) + tiny) by ring.
  assert (DU : 0 <= D * u32 <= 20 * / 1000000) by (split; [apply Rmult_le_pos; lra|apply Rmult_le_compat; lra]).
  assert (C1 : (1 + u32) * (1 + D * u32) + (1 + u32) * D + 1 <= D + 2.01).
  { assert ((1 + u32) * (1 + D * u32) <= 1.000001 * 1.00002) by (apply Rmult_le_compat; lra). lra. }
  assert (C2 : (1 + u32) * (1 + u32) <= 1.01) by (apply Rle_trans with (1.000001 * 1.000001); [apply Rmult_le_compat; lra|lra]).
  assert (UT : 0 <= u32 * (vv * T)) by (apply Rmult_le_pos; lra).
  assert (E1 : ((1 + u32) * (1 + D * u32) + (1 + u32) * D + 1) * (u32 * (vv * T)) <= (D + 2.01) * (u32 * (vv * T))) by now apply Rmult_le_compat_r.
  assert (E2 : (1 + u32) * (1 + u32) * (vv * q) <= 1.01 * (3 * q)) by (apply Rmult_le_compat; try lra; apply Rmult_le_pos; lra).
  lra.
Qed.

Lemma total_shift f n m : total (fun j => f (j + n)%nat) (seq 0 m) = total f (seq n m).
Proof.
  rewrite <- (total_map (fun j => (j + n)%nat)). f_equal. clear. revert n. induction m as [|m IH]; intros n; [reflexivity|].
  cbn [seq map Nat.add]. f_equal. rewrite <- seq_shift, map_map. rewrite <- (IH (S n)). apply map_ext. intros; lia.
Qed.

(** ** The information vector, the combined information and the fused mean *)
Section General.
Variables (n : nat) (o : fusion_orders) (w : f32) (Y1 Y2 : nat -> nat -> f32) (x1 x2 : nat -> f32).
Hypothesis small : (n <= 6)%nat.
Hypothesis Fw : is_finite w = true.
Hypothesis Rw : Rabs (B2R w) <= 2.
Notation W := (B2R w).
Definition bounded_entries (Y : nat -> nat -> f32) : Prop := forall i j, (i < n)%nat -> (j < n)%nat -> Rabs (real Y i j) <= bpow radix2 40.
Definition bounded_vector (x : nat -> f32) : Prop := forall j, (j < n)%nat -> Rabs (B2R (x j)) <= bpow radix2 40.
Hypothesis bY1 : bounded_entries Y1.
Hypothesis bY2 : bounded_entries Y2.
Hypothesis bx1 : bounded_vector x1.
Hypothesis bx2 : bounded_vector x2.
Definition fits (v : evaluation) : Prop :=
  match v with
  | On_matrix t | On_vector t => forall i, (i < n)%nat -> order_of (2 * n) (t i)
  | On_product t1 t2 => forall i, (i < n)%nat -> order_of n (t1 i) /\ order_of n (t2 i)
  end.
Definition info (i : nat) : R := W * apply n (real Y1) (fun j => B2R (x1 j)) i + (1 - W) * apply n (real Y2) (fun j => B2R (x2 j)) i.
Definition info_size (i : nat) : R :=
  Rabs W * total (fun j => Rabs (real Y1 i j * B2R (x1 j))) (seq 0 n) + Rabs (1 - W) * total (fun j => Rabs (real Y2 i j * B2R (x2 j))) (seq 0 n).

Lemma info_size_nonneg i : 0 <= info_size i.
Proof. unfold info_size. apply Rplus_le_le_0_compat; (apply Rmult_le_pos; [apply Rabs_pos|apply total_nonneg; intros; apply Rabs_pos]). Qed.
Lemma info_le i : Rabs (info i) <= info_size i.
Proof.
  unfold info, info_size, apply. eapply Rle_trans; [apply Rabs_triang|]. rewrite !Rabs_mult.
  apply Rplus_le_compat; (apply Rmult_le_compat_l; [apply Rabs_pos|apply total_abs]).
Qed.

(** The terms of the two products, one after the other *)
Definition term (i j : nat) : R := if (j <? n)%nat then W * real Y1 i j * B2R (x1 j) else (1 - W) * real Y2 i (j - n) * B2R (x2 (j - n)%nat).
Lemma both (g : R -> R) i : total (fun j => g (term i j)) (seq 0 (2 * n)) =
  total (fun j => g (W * real Y1 i j * B2R (x1 j))) (seq 0 n) + total (fun j => g ((1 - W) * real Y2 i j * B2R (x2 j))) (seq 0 n).
Proof.
  replace (2 * n)%nat with (n + n)%nat by lia. rewrite seq_app, total_app. f_equal.
  - apply total_ext. intros j Hj. apply in_seq in Hj. unfold term. destruct (Nat.ltb_spec j n); [reflexivity|lia].
  - cbn [Nat.add]. rewrite <- total_shift. apply total_ext. intros j Hj. apply in_seq in Hj. unfold term.
    destruct (Nat.ltb_spec (j + n) n); [lia|]. now rewrite Nat.add_sub.
Qed.
Lemma term_total i : total (term i) (seq 0 (2 * n)) = info i.
Proof.
  rewrite (both (fun x => x)). unfold info, apply. rewrite <- !total_scale. f_equal; apply total_ext; intros; ring.
Qed.
Lemma term_size i : total (fun j => Rabs (term i j)) (seq 0 (2 * n)) = info_size i.
Proof.
  rewrite (both Rabs). unfold info_size. rewrite <- !total_scale.
  f_equal; apply total_ext; intros; rewrite !Rabs_mult; ring.
Qed.
Lemma info_error v i : (i < n)%nat -> fits v -> is_finite (information32 n v w Y1 x1 Y2 x2 i) = true ->
  Rabs (B2R (information32 n v w Y1 x1 Y2 x2 i) - info i) <= 18 * u32 * info_size i + bpow radix2 (-105).
Proof.
  intros Hi Hv. destruct (one_minus w Fw Rw) as [Fr Er]. pose proof u32_small as U. pose proof (info_size_nonneg i) as S0.
  assert (Ew : Rabs (W - W) <= u32 * Rabs W).
  { replace (W - W) with 0 by ring. rewrite Rabs_R0. apply Rmult_le_pos; [lra|apply Rabs_pos]. }
  assert (Rw3 : Rabs (1 - W) <= 3) by (apply Rabs_le_inv in Rw; apply Rabs_le; lra).
  assert (P109 := bpow_gt_0 radix2 (-109)).
  assert (E105 : bpow radix2 (-105) = 16 * bpow radix2 (-109)) by (change (-105)%Z with (4 + -109)%Z; rewrite bpow_plus; reflexivity).
  assert (US : 0 <= u32 * info_size i) by (apply Rmult_le_pos; lra).
  assert (N0 := pos_INR n). assert (N6 : INR n <= 6) by (replace 6 with (INR 6) by (rewrite INR_IZR_INZ; reflexivity); now apply le_INR).
  assert (Tot : forall t (p : nat -> f32), order_of (2 * n) t -> is_finite (sum32 t p) = true ->
    (forall j, (j < 2 * n)%nat -> is_finite (p j) = true -> Rabs (B2R (p j) - term i j) <= 3.01 * u32 * Rabs (term i j) + bpow radix2 (-109)) ->
    Rabs (B2R (sum32 t p) - info i) <= 18 * u32 * info_size i + bpow radix2 (-105)).
  { intros t p O F H. pose proof (sum_terms t (2 * n) p (term i) 3.01 (bpow radix2 (-109)) O ltac:(lia) ltac:(lra) ltac:(lra) F H) as S.
    rewrite term_total, term_size in S. eapply Rle_trans; [exact S|].
    assert (INR (2 * n) * bpow radix2 (-109) <= 12 * bpow radix2 (-109)).
    { apply Rmult_le_compat_r; [lra|]. rewrite mult_INR. change (INR 2) with 2. lra. }
    lra. }
  destruct v as [t|t|t1 t2]; cbn [information32 fits] in *; intros F.
  - apply Tot; [now apply Hv|exact F|]. intros j Hj. unfold term. destruct (Nat.ltb_spec j n) as [L|L]; intros Fj.
    + apply triple_left; [exact Ew|exact Fj|now apply bx1].
    + apply triple_left; [exact Er|exact Fj|apply bx2; lia].
  - apply Tot; [now apply Hv|exact F|]. intros j Hj. unfold term. destruct (Nat.ltb_spec j n) as [L|L]; intros Fj.
    + apply triple_right; [exact Ew|exact Fj|now apply bY1].
    + apply triple_right; [exact Er|exact Fj|apply bY2; lia].
  - destruct (Hv i Hi) as [O1 O2]. destruct (add_exact _ _ F) as (F1 & F2 & E). rewrite E.
    destruct (mul_exact _ _ F1) as (_ & G1 & _). destruct (mul_exact _ _ F2) as (_ & G2 & _).
    assert (T0 := bpow_gt_0 radix2 (-150)).
    assert (Q : forall (Y : nat -> nat -> f32) (x : nat -> f32) t, order_of n t -> is_finite (sum32 t (fun j => f32_mul (Y i j) (x j))) = true ->
      Rabs (B2R (sum32 t (fun j => f32_mul (Y i j) (x j))) - apply n (real Y) (fun j => B2R (x j)) i) <=
      14.01 * u32 * total (fun j => Rabs (real Y i j * B2R (x j))) (seq 0 n) + 1.01 * (6 * tiny)).
    { intros Y x t O G. pose proof (sum_terms t n _ (fun j => real Y i j * B2R (x j)) 1 tiny O ltac:(lia) ltac:(lra) ltac:(lra) G) as S.
      eapply Rle_trans; [apply S|].
      - intros j Hj Fj. rewrite Rmult_1_l. exact (mul_near _ _ Fj).
      - assert (INR n * tiny <= 6 * tiny) by (apply Rmult_le_compat_r; lra). lra. }
    pose proof (times_sum w _ W _ _ 14.01 (1.01 * (6 * tiny)) Ew F1 ltac:(lra) ltac:(lra) ltac:(lra) (total_abs _ _) (Q Y1 x1 (t1 i) O1 G1)) as A1.
    pose proof (times_sum _ _ (1 - W) _ _ 14.01 (1.01 * (6 * tiny)) Er F2 ltac:(lra) ltac:(lra) ltac:(lra) (total_abs _ _) (Q Y2 x2 (t2 i) O2 G2)) as A2.
    set (p1 := B2R (f32_mul w _)) in *. set (p2 := B2R (f32_mul (f32_sub _ _) _)) in *.
    destruct (rnd32_add p1 p2) as (eps & He & ->); [apply fmtB|apply fmtB|].
    assert (A : Rabs (p1 + p2 - info i) <= 16.02 * u32 * info_size i + 50 * tiny).
    { unfold info, info_size, apply. apply Rabs_le_inv in A1, A2. apply Rabs_le. unfold apply in A1, A2. lra. }
    pose proof (info_le i) as I.
    assert (B : Rabs (p1 + p2) <= (1 + 16.02 * u32) * info_size i + 50 * tiny) by (pose proof (Rabs_triang_inv (p1 + p2) (info i)); lra).
    assert (C : Rabs ((p1 + p2) * eps) <= ((1 + 16.02 * u32) * info_size i + 50 * tiny) * u32).
    { rewrite Rabs_mult. apply Rmult_le_compat; try apply Rabs_pos; assumption. }
    replace ((p1 + p2) * (1 + eps) - info i) with ((p1 + p2 - info i) + (p1 + p2) * eps) by ring.
    eapply Rle_trans; [apply Rabs_triang|].
    assert (U2 : 16.02 * u32 * (u32 * info_size i) <= 0.1 * (u32 * info_size i)) by (apply Rmult_le_compat_r; lra).
    assert (TT : 50 * tiny * u32 <= 50 * tiny) by (rewrite <- (Rmult_1_r (50 * tiny)) at 2; apply Rmult_le_compat_l; lra).
    assert (T2 : 100 * tiny <= bpow radix2 (-105)).
    { apply Rle_trans with (bpow radix2 (7 + -150)); [rewrite bpow_plus; change (bpow radix2 7) with 128; lra|apply bpow_le; lia]. }
    lra.
Qed.

(** The combined information matrix *)
Lemma combined_error i j : (i < n)%nat -> (j < n)%nat -> is_finite (combined32 w (Y1 i j) (Y2 i j)) = true ->
  Rabs (B2R (combined32 w (Y1 i j) (Y2 i j)) - (W * real Y1 i j + (1 - W) * real Y2 i j)) <=
    3.1 * u32 * (Rabs W * Rabs (real Y1 i j) + Rabs (1 - W) * Rabs (real Y2 i j)) + bpow radix2 (-148).
Proof.
  intros Hi Hj F. unfold combined32 in *. destruct (one_minus w Fw Rw) as [Fr Er]. pose proof u32_small as U.
  destruct (add_exact _ _ F) as (F1 & F2 & E). rewrite E. unfold real. set (a := B2R (Y1 i j)). set (b := B2R (Y2 i j)).
  pose proof (mul_near _ _ F1) as N1. pose proof (mul_near _ _ F2) as N2.
  pose proof (compose _ _ (1 - W) b 1 0 tiny ltac:(lra) ltac:(lra) N2 ltac:(lra)) as C2.
  rewrite Rmult_0_l, Rmult_0_r, Rplus_0_l in C2.
  set (p1 := B2R (f32_mul w _)) in *. set (p2 := B2R (f32_mul (f32_sub _ _) _)) in *. fold a in N1.
  rewrite Rabs_mult in N1. rewrite Rabs_mult in C2.
  destruct (rnd32_add p1 p2) as (eps & He & ->); [apply fmtB|apply fmtB|].
  assert (a0 : 0 <= Rabs W * Rabs a) by (apply Rmult_le_pos; apply Rabs_pos).
  assert (b0 : 0 <= Rabs (1 - W) * Rabs b) by (apply Rmult_le_pos; apply Rabs_pos).
  assert (I : Rabs (W * a + (1 - W) * b) <= Rabs W * Rabs a + Rabs (1 - W) * Rabs b).
  { eapply Rle_trans; [apply Rabs_triang|]. rewrite !Rabs_mult. lra. }
  set (A := Rabs W * Rabs a) in *. set (B := Rabs (1 - W) * Rabs b) in *. assert (T0 := bpow_gt_0 radix2 (-150)).
  assert (UA : 0 <= u32 * A) by (apply Rmult_le_pos; lra). assert (UB : 0 <= u32 * B) by (apply Rmult_le_pos; lra).
  assert (S : Rabs (p1 + p2 - (W * a + (1 - W) * b)) <= 2.001 * u32 * (A + B) + 2 * tiny).
  { apply Rabs_le_inv in N1, C2. apply Rabs_le. lra. }
  assert (S2 : Rabs (p1 + p2) <= (1 + 2.001 * u32) * (A + B) + 2 * tiny) by (pose proof (Rabs_triang_inv (p1 + p2) (W * a + (1 - W) * b)); lra).
  assert (C : Rabs ((p1 + p2) * eps) <= ((1 + 2.001 * u32) * (A + B) + 2 * tiny) * u32).
  { rewrite Rabs_mult. apply Rmult_le_compat; try apply Rabs_pos; assumption. }
  replace ((p1 + p2) * (1 + eps) - (W * a + (1 - W) * b)) with ((p1 + p2 - (W * a + (1 - W) * b)) + (p1 + p2) * eps) by ring.
  eapply Rle_trans; [apply Rabs_triang|].
  assert (U2 : 2.001 * u32 * (u32 * (A + B)) <= 0.01 * (u32 * (A + B))) by (apply Rmult_le_compat_r; lra).
  assert (TT : 2 * tiny * u32 <= 2 * tiny) by (rewrite <- (Rmult_1_r (2 * tiny)) at 2; apply Rmult_le_compat_l; lra).
  replace (bpow radix2 (-148)) with (4 * tiny) by (change (-148)%Z with (2 + -150)%Z; rewrite bpow_plus; reflexivity). lra.
Qed.

(** The product of a matrix of floats and the computed information vector *)
Lemma mean_error v t (P : nat -> nat -> f32) i : (i < n)%nat -> fits v -> order_of n t ->
  is_finite (sum32 t (fun k => f32_mul (P i k) (information32 n v w Y1 x1 Y2 x2 k))) = true ->
  Rabs (B2R (sum32 t (fun k => f32_mul (P i k) (information32 n v w Y1 x1 Y2 x2 k))) - apply n (real P) info i) <=
    33 * u32 * total (fun k => Rabs (real P i k) * info_size k) (seq 0 n) + bpow radix2 (-100) * total (fun k => Rabs (real P i k)) (seq 0 n) + bpow radix2 (-140).
Proof.
  intros Hi Hv O F. pose proof u32_small as U. assert (T0 := bpow_gt_0 radix2 (-150)). assert (P105 := bpow_gt_0 radix2 (-105)).
  set (b := information32 n v w Y1 x1 Y2 x2) in *.
  pose proof (sum_terms t n _ (fun k => real P i k * B2R (b k)) 1 tiny O ltac:(lia) ltac:(lra) ltac:(lra) F) as S.
  assert (Fb : forall k, (k < n)%nat -> is_finite (b k) = true).
  { intros k Hk. assert (Fk := sum_finite _ _ F k). cbv beta in Fk. apply (mul_exact (P i k) (b k)). apply Fk.
    apply (Permutation_in _ (Permutation_sym O)). apply in_seq. lia. }
  assert (Eb : forall k, (k < n)%nat -> Rabs (B2R (b k) - info k) <= 18 * u32 * info_size k + bpow radix2 (-105)) by (intros k Hk; apply info_error; auto; now apply Fb).
  assert (S' : Rabs (B2R (sum32 t (fun k => f32_mul (P i k) (b k))) - total (fun k => real P i k * B2R (b k)) (seq 0 n)) <=
    14.01 * u32 * total (fun k => Rabs (real P i k * B2R (b k))) (seq 0 n) + 1.01 * (INR n * tiny)).
  { eapply Rle_trans; [apply S; intros k Hk Fk; rewrite Rmult_1_l; exact (mul_near _ _ Fk)|]. lra. }
  assert (Z0 : forall k, 0 <= Rabs (real P i k)) by (intros; apply Rabs_pos).
  set (X := total (fun k => Rabs (real P i k) * info_size k) (seq 0 n)). set (V := total (fun k => Rabs (real P i k)) (seq 0 n)).
  assert (X0 : 0 <= X) by (apply total_nonneg; intros; apply Rmult_le_pos; [apply Z0|apply info_size_nonneg]).
  assert (V0 : 0 <= V) by (apply total_nonneg; intros; apply Z0).
  assert (D : Rabs (total (fun k => real P i k * B2R (b k)) (seq 0 n) - apply n (real P) info i) <= 18 * u32 * X + bpow radix2 (-105) * V).
  { unfold apply. rewrite <- FloatCovarianceThms.total_minus. eapply Rle_trans; [apply total_abs|].
    unfold X, V. rewrite <- !total_scale, <- total_plus. apply total_le. intros k Hk. apply in_seq in Hk.
    rewrite <- Rmult_minus_distr_l, Rabs_mult. specialize (Eb k ltac:(lia)).
    apply Rle_trans with (Rabs (real P i k) * (18 * u32 * info_size k + bpow radix2 (-105))); [apply Rmult_le_compat_l; [apply Z0|exact Eb]|lra]. }
  assert (Z : total (fun k => Rabs (real P i k * B2R (b k))) (seq 0 n) <= (1 + 18 * u32) * X + bpow radix2 (-105) * V).
  { unfold X, V. rewrite <- !total_scale, <- total_plus. apply total_le. intros k Hk. apply in_seq in Hk. rewrite Rabs_mult.
    specialize (Eb k ltac:(lia)). pose proof (Rabs_triang_inv (B2R (b k)) (info k)). pose proof (info_le k).
    apply Rle_trans with (Rabs (real P i k) * ((1 + 18 * u32) * info_size k + bpow radix2 (-105))); [apply Rmult_le_compat_l; [apply Z0|lra]|lra]. }
  assert (N6 : INR n * tiny <= 6 * tiny).
  { apply Rmult_le_compat_r; [lra|]. replace 6 with (INR 6) by (rewrite INR_IZR_INZ; reflexivity). now apply le_INR. }
  assert (E140 : 7 * tiny <= bpow radix2 (-140)).
  { apply Rle_trans with (bpow radix2 (3 + -150)); [rewrite bpow_plus; change (bpow radix2 3) with 8; lra|apply bpow_le; lia]. }
  assert (E100 : bpow radix2 (-100) = 32 * bpow radix2 (-105)) by (change (-100)%Z with (5 + -105)%Z; rewrite bpow_plus; reflexivity).
  assert (UX : 0 <= u32 * X) by (apply Rmult_le_pos; lra). assert (PV : 0 <= bpow radix2 (-105) * V) by (apply Rmult_le_pos; lra).
  assert (M1 : 14.01 * u32 * total (fun k => Rabs (real P i k * B2R (b k))) (seq 0 n) <= 14.01 * u32 * ((1 + 18 * u32) * X + bpow radix2 (-105) * V)) by (apply Rmult_le_compat_l; lra).
  assert (M2 : 14.01 * u32 * 18 * (u32 * X) <= 0.9 * (u32 * X)) by (apply Rmult_le_compat_r; lra).
  assert (M3 : 14.01 * u32 * (bpow radix2 (-105) * V) <= 1 * (bpow radix2 (-105) * V)) by (apply Rmult_le_compat_r; lra).
  rewrite E100.
  replace (B2R (sum32 t (fun k => f32_mul (P i k) (b k))) - apply n (real P) info i) with
    ((B2R (sum32 t (fun k => f32_mul (P i k) (b k))) - total (fun k => real P i k * B2R (b k)) (seq 0 n)) +
     (total (fun k => real P i k * B2R (b k)) (seq 0 n) - apply n (real P) info i)) by ring.
  eapply Rle_trans; [apply Rabs_triang|]. lra.
Qed.
End General.
