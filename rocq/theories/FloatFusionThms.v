(** Accuracy of the fusion in single precision for uncorrelated components. *)
From Coq Require Import ZArith Reals Lra Lia List Arith Bool Permutation.
From Flocq Require Import Core IEEE754.BinarySingleNaN.
From Verif Require Import Float FloatProofs FloatDistance FloatDistanceThms FloatWeight FloatWeightThms FloatUnscented FloatUnscentedThms
  FloatHeading FloatPredict FloatLu FloatFusion FloatMahalanobisThms FloatMahalanobisErr FloatDiagonal FusionAccuracySpec.
Import ListNotations.
Open Scope R_scope.
Notation sum32 := FloatUnscented.sum32.
Notation rel := FloatWeightThms.within.

(** ** Sums most of whose terms are zero *)
Lemma sum_one t (f : nat -> f32) a : NoDup (leaves t) -> In a (leaves t) -> is_finite (f a) = true ->
  (forall i, In i (leaves t) -> i <> a -> is_zero (f i)) -> is_finite (sum32 t f) = true /\ B2R (sum32 t f) = B2R (f a).
Proof.
  induction t as [i|l IHl r IHr]; cbn [leaves FloatUnscented.sum32]; intros ND I F Z.
  - destruct I as [->|[]]. now split.
  - assert (N : forall x, In x (leaves l) -> In x (leaves r) -> False).
    { clear - ND. revert ND. induction (leaves l) as [|y m IH]; cbn; intros ND x H K; [exact H|].
      inversion ND as [|? ? N1 N2]; subst. destruct H as [->|H]; [apply N1, in_or_app; now right|exact (IH N2 x H K)]. }
    assert (NDl : NoDup (leaves l)) by (revert ND; clear; induction (leaves l); cbn; intros ND; [constructor|inversion ND; subst; constructor; [intros ?; apply H1, in_or_app; now left|auto]]).
    assert (NDr : NoDup (leaves r)) by (revert ND; clear; induction (leaves l); cbn; intros ND; [exact ND|inversion ND; auto]).
    assert (Add : forall x z : f32, is_finite x = true -> is_zero z -> B2R x = B2R (f a) ->
      (is_finite (f32_add x z) = true /\ B2R (f32_add x z) = B2R (f a)) /\ (is_finite (f32_add z x) = true /\ B2R (f32_add z x) = B2R (f a))).
    { intros x z Fx [b ->] E. rewrite <- E. destruct x as [s|s| |s m e H]; try discriminate; destruct b; try destruct s; repeat split; reflexivity. }
    apply in_app_or in I. destruct I as [I|I].
    + destruct (IHl NDl I F) as [A B]; [intros i Hi; apply Z, in_or_app; now left|].
      refine (proj1 (Add _ _ A _ B)). apply sum_zero. intros i Hi. apply Z; [apply in_or_app; now right|]. intros ->. exact (N _ I Hi).
    + destruct (IHr NDr I F) as [A B]; [intros i Hi; apply Z, in_or_app; now right|].
      refine (proj2 (Add _ _ A _ B)). apply sum_zero. intros i Hi. apply Z; [apply in_or_app; now left|]. intros ->. exact (N _ Hi I).
Qed.
Lemma NoDup_left {E : Type} (l m : list E) : NoDup (l ++ m) -> NoDup l.
Proof. induction l as [|x l IH]; cbn; intros ND; [constructor|]. inversion ND as [|? ? N1 N2]; subst. constructor; [intros H; apply N1, in_or_app; now left|auto]. Qed.
Lemma NoDup_right {E : Type} (l m : list E) : NoDup (l ++ m) -> NoDup m.
Proof. induction l as [|x l IH]; cbn; intros ND; [exact ND|]. inversion ND; auto. Qed.
Lemma NoDup_apart {E : Type} (l m : list E) x : NoDup (l ++ m) -> In x l -> In x m -> False.
Proof.
  induction l as [|y l IH]; cbn; intros ND H K; [exact H|]. inversion ND as [|? ? N1 N2]; subst.
  destruct H as [->|H]; [apply N1, in_or_app; now right|exact (IH N2 H K)].
Qed.
Lemma sum_two t (f : nat -> f32) a b : NoDup (leaves t) -> In a (leaves t) -> In b (leaves t) -> a <> b ->
  is_finite (f a) = true -> is_finite (f b) = true -> Rabs (B2R (f a) + B2R (f b)) <= bpow radix2 101 ->
  (forall i, In i (leaves t) -> i <> a -> i <> b -> is_zero (f i)) ->
  is_finite (sum32 t f) = true /\ B2R (sum32 t f) = rnd32 (B2R (f a) + B2R (f b)).
Proof.
  induction t as [i|l IHl r IHr]; cbn [leaves FloatUnscented.sum32]; intros ND Ia Ib Nab Fa Fb S Z.
  - destruct Ia as [->|[]], Ib as [->|[]]. now elim Nab.
  - pose proof (NoDup_left _ _ ND) as NDl. pose proof (NoDup_right _ _ ND) as NDr.
    assert (Fmt : format32 (rnd32 (B2R (f a) + B2R (f b)))) by apply fmt32.
    assert (Bd := rnd32_bound _ 101 ltac:(lia) S).
    assert (Add : forall x z : f32, is_finite x = true -> is_zero z -> B2R x = rnd32 (B2R (f a) + B2R (f b)) ->
      (is_finite (f32_add x z) = true /\ B2R (f32_add x z) = rnd32 (B2R (f a) + B2R (f b))) /\
      (is_finite (f32_add z x) = true /\ B2R (f32_add z x) = rnd32 (B2R (f a) + B2R (f b)))).
    { intros x z Fx [c ->] E. rewrite <- E. destruct x as [s|s| |s m e H]; try discriminate; destruct c; try destruct s; repeat split; reflexivity. }
    apply in_app_or in Ia. apply in_app_or in Ib.
    destruct Ia as [Ia|Ia], Ib as [Ib|Ib].
    + destruct (IHl NDl Ia Ib Nab Fa Fb S) as [A B]; [intros i Hi; apply Z, in_or_app; now left|].
      refine (proj1 (Add _ _ A _ B)). apply sum_zero. intros i Hi.
      apply Z; [apply in_or_app; now right| |]; intros ->; [exact (NoDup_apart _ _ _ ND Ia Hi)|exact (NoDup_apart _ _ _ ND Ib Hi)].
    + destruct (sum_one l f a NDl Ia Fa) as [A1 B1].
      { intros i Hi N. apply Z; [apply in_or_app; now left|exact N|]. intros ->. exact (NoDup_apart _ _ _ ND Hi Ib). }
      destruct (sum_one r f b NDr Ib Fb) as [A2 B2].
      { intros i Hi N. apply Z; [apply in_or_app; now right| |exact N]. intros ->. exact (NoDup_apart _ _ _ ND Ia Hi). }
      destruct (add32_value (sum32 l f) (sum32 r f) 101 ltac:(lia) A1 A2) as [V W]; [rewrite B1, B2; exact S|].
      rewrite B1, B2 in V. now split.
    + destruct (sum_one l f b NDl Ib Fb) as [A1 B1].
      { intros i Hi N. apply Z; [apply in_or_app; now left| |exact N]. intros ->. exact (NoDup_apart _ _ _ ND Hi Ia). }
      destruct (sum_one r f a NDr Ia Fa) as [A2 B2].
      { intros i Hi N. apply Z; [apply in_or_app; now right|exact N|]. intros ->. exact (NoDup_apart _ _ _ ND Ib Hi). }
      destruct (add32_value (sum32 l f) (sum32 r f) 101 ltac:(lia) A1 A2) as [V W]; [rewrite B1, B2, Rplus_comm; exact S|].
      rewrite B1, B2, (Rplus_comm (B2R (f b))) in V. now split.
    + destruct (IHr NDr Ia Ib Nab Fa Fb S) as [A B]; [intros i Hi; apply Z, in_or_app; now right|].
      refine (proj2 (Add _ _ A _ B)). apply sum_zero. intros i Hi.
      apply Z; [apply in_or_app; now left| |]; intros ->; [exact (NoDup_apart _ _ _ ND Hi Ia)|exact (NoDup_apart _ _ _ ND Hi Ib)].
Qed.
Lemma order_nodup n t : order_of n t -> NoDup (leaves t).
Proof. intros O. apply (Permutation_NoDup (Permutation_sym O)), seq_NoDup. Qed.
Lemma order_mem n t i : order_of n t -> In i (leaves t) <-> (i < n)%nat.
Proof.
  intros O. split; intros H; [apply (Permutation_in _ O), in_seq in H; lia|]. apply (Permutation_in _ (Permutation_sym O)), in_seq. lia.
Qed.

(** ** Errors *)
Lemma near_same x z e A k : near x e A k -> is_finite z = true -> B2R z = B2R x -> near z e A k.
Proof. intros (F & D & B) G E. split; [exact G|]. rewrite E. now split. Qed.
Lemma near_add x y z e f A B k m : near x e A k -> near y f B k -> 0 <= k <= 10000 -> k + 1 + u32 * k <= m ->
  is_finite z = true -> B2R z = rnd32 (B2R x + B2R y) -> near z (e + f) (A + B) m.
Proof.
  intros Hx Hy Hk Hm Fz Ez. destruct (near_size _ _ _ _ Hx) as [A0 Sx]. destruct (near_size _ _ _ _ Hy) as [B0 Sy].
  destruct Hx as (Fx & Dx & Ex). destruct Hy as (Fy & Dy & Ey). split; [exact Fz|].
  split; [|eapply Rle_trans; [apply Rabs_triang|lra]]. rewrite Ez.
  destruct (rnd32_add (B2R x) (B2R y)) as (d & Hd & ->); [apply fmtB|apply fmtB|].
  assert (U : 0 < u32 < 0.0000001) by (unfold u32; lra).
  replace ((B2R x + B2R y) * (1 + d) - (e + f)) with ((B2R x - e) + (B2R y - f) + (B2R x + B2R y) * d) by ring.
  assert (S : Rabs ((B2R x + B2R y) * d) <= ((1 + k * u32) * (A + B)) * u32).
  { rewrite Rabs_mult. apply Rmult_le_compat; auto using Rabs_pos. eapply Rle_trans; [apply Rabs_triang|]. lra. }
  eapply Rle_trans; [apply Rabs_triang|]. eapply Rle_trans; [apply Rplus_le_compat_r, Rabs_triang|].
  apply Rle_trans with ((k + 1 + u32 * k) * u32 * (A + B)); [lra|].
  apply Rmult_le_compat_r; [lra|]. apply Rmult_le_compat_r; lra.
Qed.
Lemma near_scale x e A B k : 0 <= k -> A <= B -> near x e A k -> near x e B k.
Proof.
  intros Hk H (F & D & E). split; [exact F|]. split; [|lra]. eapply Rle_trans; [exact D|]. apply Rmult_le_compat_l; [|exact H].
  apply Rmult_le_pos; [exact Hk|unfold u32; lra].
Qed.

Lemma reciprocal_sane (p : f32) : sane p -> sane (reciprocal p) /\ rel 1 (B2R (reciprocal p)) (/ B2R p).
Proof.
  intros [F [L H]]. destruct (int32_value 1 ltac:(lia)) as [E1 F1]. pose proof (bpow_gt_0 radix2 (-20)) as P.
  assert (R : bpow radix2 (-20) <= / B2R p <= bpow radix2 20).
  { change (-20)%Z with (Z.opp 20). rewrite bpow_opp. split; [apply Rinv_le_contravar; lra|].
    rewrite <- (Rinv_inv (bpow radix2 20)), <- bpow_opp. apply Rinv_le_contravar; [exact P|exact L]. }
  destruct (div32_value (f32_of_Z 1) p 20 ltac:(lia) F1) as [V W].
  - intros E. rewrite E in L. lra.
  - rewrite E1. unfold Rdiv. rewrite Rmult_1_l. apply Rabs_le. lra.
  - rewrite E1 in V. unfold Rdiv in V. rewrite Rmult_1_l in V. unfold sane, reciprocal. rewrite V. split; [split; [exact W|apply rnd32_range; [lia|lia|exact R]]|].
    unfold rel. rewrite Rmult_1_l. apply rnd32_normal. eapply Rle_trans; [|apply R]. apply bpow_le. lia.
Qed.
Lemma sane_regular p : sane p -> regular p.
Proof. intros [F [L _]]. pose proof (bpow_gt_0 radix2 (-20)). apply regular_of; [exact F|lra]. Qed.

Lemma product_rprod l : product l = rprod l.
Proof. induction l as [|x l IH]; [reflexivity|]. cbn. now rewrite IH. Qed.

Lemma one_value : B2R (f32_of_Z 1) = 1 /\ is_finite (f32_of_Z 1) = true.
Proof. exact (int32_value 1 ltac:(lia)). Qed.
Lemma bp a : (0 < a)%Z -> bpow radix2 (- a) * bpow radix2 a = 1.
Proof. intros _. rewrite <- bpow_plus. replace (- a + a)%Z with 0%Z by lia. reflexivity. Qed.

(** A product of three factors, in any of the orders *)
Lemma triple (a y x : f32) (ea Aa ka q ex X : R) : 0 <= ka <= 1 -> near a ea Aa ka -> near y q q 1 -> near x ex X 0 ->
  bpow radix2 (-50) <= Aa <= 2 -> bpow radix2 (-20) <= q <= bpow radix2 20 -> bpow radix2 (-30) <= X <= bpow radix2 61 ->
  near (f32_mul (f32_mul a y) x) (ea * q * ex) (Aa * q * X) (ka + 3.01) /\
  near (f32_mul y (f32_mul a x)) (ea * q * ex) (Aa * q * X) (ka + 3.01) /\
  near (f32_mul a (f32_mul y x)) (ea * q * ex) (Aa * q * X) (ka + 3.01).
Proof.
  intros Hk Na Ny Nx RA Rq RX.
  assert (U : 0 < u32 < 0.0000001) by (unfold u32; lra).
  pose proof (bpow_gt_0 radix2 (-50)) as P1. pose proof (bpow_gt_0 radix2 (-20)) as P2. pose proof (bpow_gt_0 radix2 (-30)) as P3.
  assert (Mul : forall (i j : Z) (v z : R) (i' j' : Z), bpow radix2 i <= v <= bpow radix2 i' -> bpow radix2 j <= z <= bpow radix2 j' ->
    bpow radix2 (i + j) <= v * z <= bpow radix2 (i' + j')).
  { intros i j v z i' j' A B. pose proof (bpow_gt_0 radix2 i). pose proof (bpow_gt_0 radix2 j). rewrite !bpow_plus.
    split; apply Rmult_le_compat; lra. }
  assert (Wide : forall i i' v, (-100 <= i)%Z -> (i' <= 100)%Z -> bpow radix2 i <= v <= bpow radix2 i' -> bpow radix2 (-100) <= v <= bpow radix2 100).
  { intros i i' v A B [C D]. split; [eapply Rle_trans; [apply bpow_le; exact A|exact C]|eapply Rle_trans; [exact D|apply bpow_le; exact B]]. }
  assert (RA' : bpow radix2 (-50) <= Aa <= bpow radix2 1) by exact RA.
  pose proof (Mul _ _ _ _ _ _ RA' Rq) as R1. pose proof (Mul _ _ _ _ _ _ RA' RX) as R2. pose proof (Mul _ _ _ _ _ _ Rq RX) as R3.
  pose proof (Mul _ _ _ _ _ _ R1 RX) as R4.
  split; [|split].
  - apply (near_mul _ _ _ _ _ _ (ka + 2.005) 0); [|exact Nx|lra|lra|eapply Wide; [| |exact R4]; lia|nra].
    apply (near_mul _ _ _ _ _ _ ka 1); [exact Na|exact Ny|lra|lra|eapply Wide; [| |exact R1]; lia|nra].
  - replace (ea * q * ex) with (q * (ea * ex)) by ring. replace (Aa * q * X) with (q * (Aa * X)) by ring.
    apply (near_mul _ _ _ _ _ _ 1 (ka + 1.002)); [exact Ny| |lra|lra|eapply Wide; [| |replace (q * (Aa * X)) with (Aa * q * X) by ring; exact R4]; lia|nra].
    apply (near_mul _ _ _ _ _ _ ka 0); [exact Na|exact Nx|lra|lra|eapply Wide; [| |exact R2]; lia|nra].
  - replace (ea * q * ex) with (ea * (q * ex)) by ring. replace (Aa * q * X) with (Aa * (q * X)) by ring.
    apply (near_mul _ _ _ _ _ _ ka 2.002); [exact Na| |lra|lra|eapply Wide; [| |replace (Aa * (q * X)) with (Aa * q * X) by ring; exact R4]; lia|nra].
    apply (near_mul _ _ _ _ _ _ 1 0); [exact Ny|exact Nx|lra|lra|eapply Wide; [| |exact R3]; lia|nra].
Qed.

(** ** One component *)
Section Component.
Variables (w p1 p2 : f32).
Hypotheses (Fw : is_finite w = true) (Rw : 0 <= B2R w <= 1) (S1 : sane p1) (S2 : sane p2).
Notation W := (B2R w).
Notation q1 := (/ B2R p1).
Notation q2 := (/ B2R p2).
Notation C := (W * q1 + (1 - W) * q2).
Notation rest := (f32_sub (f32_of_Z 1) w).
Notation tau := (bpow radix2 (-50)).
Lemma q_range (p : f32) : sane p -> bpow radix2 (-20) <= / B2R p <= bpow radix2 20.
Proof.
  intros [_ [L H]]. pose proof (bpow_gt_0 radix2 (-20)) as P. change (-20)%Z with (Z.opp 20) at 1. rewrite bpow_opp. split; [apply Rinv_le_contravar; lra|].
  rewrite <- (Rinv_inv (bpow radix2 20)), <- bpow_opp. apply Rinv_le_contravar; [exact P|exact L].
Qed.
Lemma C_range : bpow radix2 (-20) <= C <= bpow radix2 20.
Proof. pose proof (q_range p1 S1). pose proof (q_range p2 S2). nra. Qed.
Lemma C_ci : ci_information W (B2R p1) (B2R p2) = C.
Proof. reflexivity. Qed.
Lemma weight_near : near w W (W + tau) 0.
Proof. apply near_exact; [exact Fw|]. pose proof (bpow_gt_0 radix2 (-50)). rewrite Rabs_pos_eq; lra. Qed.
Lemma rest_near : near rest (1 - W) (1 - W + tau) 1.
Proof.
  destruct one_value as [E F]. pose proof (bpow_gt_0 radix2 (-50)) as P.
  destruct (sub32_value (f32_of_Z 1) w 0 ltac:(lia) F Fw) as [V G]; [rewrite E; change (bpow radix2 0) with 1; apply Rabs_le; lra|].
  rewrite E in V. split; [exact G|]. split; [|rewrite Rabs_pos_eq; lra]. rewrite V.
  assert (F1 : format32 1) by (rewrite <- E; apply fmtB). assert (F2 : format32 (- W)) by (apply generic_format_opp, fmtB).
  destruct (rnd32_add 1 (- W) F1 F2) as (e & He & Ee). change (1 + - W) with (1 - W) in Ee. rewrite Ee.
  replace ((1 - W) * (1 + e) - (1 - W)) with ((1 - W) * e) by ring. rewrite Rabs_mult, (Rabs_pos_eq (1 - W)) by lra.
  assert (U0 : 0 < u32) by (unfold u32; lra).
  assert ((1 - W) * Rabs e <= (1 - W) * u32) by (apply Rmult_le_compat_l; lra).
  assert (0 < u32 * tau) by (apply Rmult_lt_0_compat; assumption). lra.
Qed.
Lemma recip_near (p : f32) : sane p -> near (reciprocal p) (/ B2R p) (/ B2R p) 1.
Proof.
  intros S. destruct (reciprocal_sane p S) as [[F _] [A B]]. pose proof (q_range p S) as Q. pose proof (bpow_gt_0 radix2 (-20)).
  split; [exact F|]. split; [apply Rabs_le; lra|rewrite Rabs_pos_eq; lra].
Qed.
Lemma scale_C : (W + tau) * q1 + (1 - W + tau) * q2 <= 1.002 * C.
Proof.
  pose proof (q_range p1 S1) as Q1. pose proof (q_range p2 S2) as Q2. pose proof C_range as [R _].
  assert (T : tau * (q1 + q2) <= bpow radix2 (-29)).
  { change (-29)%Z with (-50 + 21)%Z. rewrite bpow_plus. apply Rmult_le_compat_l; [apply bpow_ge_0|].
    change 21%Z with (1 + 20)%Z. rewrite bpow_plus. change (bpow radix2 1) with 2. lra. }
  assert (E : bpow radix2 (-29) = / 512 * bpow radix2 (-20)).
  { change (-29)%Z with (-9 + -20)%Z. rewrite bpow_plus. reflexivity. }
  pose proof (bpow_gt_0 radix2 (-20)). lra.
Qed.
Lemma factor_range a : 0 <= a <= 1 -> tau <= a + tau <= 2.
Proof. intros H. assert (tau <= bpow radix2 0) by (apply bpow_le; lia). change (bpow radix2 0) with 1 in H0. lra. Qed.
Lemma combined_near : near (combined32 w (reciprocal p1) (reciprocal p2)) C (1.002 * C) 4.03.
Proof.
  assert (U : 0 < u32 < 0.0000001) by (unfold u32; lra).
  pose proof (q_range p1 S1) as Q1. pose proof (q_range p2 S2) as Q2. pose proof (factor_range W Rw) as T1. pose proof (factor_range (1 - W) ltac:(lra)) as T2.
  pose proof (bpow_gt_0 radix2 (-50)) as P1. pose proof (bpow_gt_0 radix2 (-20)) as P2.
  assert (Rng : forall a q, tau <= a <= 2 -> bpow radix2 (-20) <= q <= bpow radix2 20 -> bpow radix2 (-100) <= a * q <= bpow radix2 100).
  { intros a q Ha Hq. split.
    - apply Rle_trans with (bpow radix2 (-50 + -20)); [apply bpow_le; lia|]. rewrite bpow_plus. apply Rmult_le_compat; lra.
    - apply Rle_trans with (bpow radix2 (1 + 20)); [|apply bpow_le; lia]. rewrite bpow_plus. change (bpow radix2 1) with 2. apply Rmult_le_compat; lra. }
  assert (A : near (f32_mul w (reciprocal p1)) (W * q1) ((W + tau) * q1) 3.01).
  { apply (near_mul _ _ _ _ _ _ 0 1); [exact weight_near|exact (recip_near p1 S1)|lra|lra|now apply Rng|nra]. }
  assert (B : near (f32_mul rest (reciprocal p2)) ((1 - W) * q2) ((1 - W + tau) * q2) 3.01).
  { apply (near_mul _ _ _ _ _ _ 1 1); [exact rest_near|exact (recip_near p2 S2)|lra|lra|now apply Rng|nra]. }
  destruct (near_size _ _ _ _ A) as [A0 SA]. destruct (near_size _ _ _ _ B) as [B0 SB].
  pose proof (proj1 A) as FA. pose proof (proj1 B) as FB. pose proof scale_C as SC. pose proof C_range as RC.
  assert (Big : Rabs (B2R (f32_mul w (reciprocal p1)) + B2R (f32_mul rest (reciprocal p2))) <= bpow radix2 22).
  { change 22%Z with (2 + 20)%Z. rewrite bpow_plus. change (bpow radix2 2) with 4. eapply Rle_trans; [apply Rabs_triang|]. nra. }
  destruct (add32_value _ _ 22 ltac:(lia) FA FB Big) as [V G].
  apply (near_scale _ _ ((W + tau) * q1 + (1 - W + tau) * q2)); [lra|exact SC|].
  apply (near_add (f32_mul w (reciprocal p1)) (f32_mul rest (reciprocal p2)) _ _ _ _ _ 3.01 4.03); [exact A|exact B|lra|lra|exact G|exact V].
Qed.
Lemma combined_range : is_finite (combined32 w (reciprocal p1) (reciprocal p2)) = true /\
  rel 4.04 (B2R (combined32 w (reciprocal p1) (reciprocal p2))) C /\
  bpow radix2 (-21) <= B2R (combined32 w (reciprocal p1) (reciprocal p2)) <= bpow radix2 21.
Proof.
  destruct combined_near as (F & D & _). pose proof C_range as RC. pose proof (bpow_gt_0 radix2 (-20)) as P. apply Rabs_le_inv in D.
  set (c := B2R (combined32 _ _ _)) in *. assert (U : u32 = / 16777216) by reflexivity.
  assert (R : rel 4.04 c C) by (unfold rel; rewrite U in *; lra).
  split; [exact F|]. split; [exact R|]. change (-21)%Z with (-1 + -20)%Z. change 21%Z with (1 + 20)%Z. rewrite !bpow_plus.
  change (bpow radix2 (-1)) with (/ 2). change (bpow radix2 1) with 2. unfold rel in R. rewrite U in R. lra.
Qed.
Definition fused_variance : f32 := reciprocal (combined32 w (reciprocal p1) (reciprocal p2)).
Lemma variance_near : is_finite fused_variance = true /\ near fused_variance (/ C) (/ C) 5.1.
Proof.
  destruct combined_range as (F & [A B] & RC). unfold fused_variance. set (c := combined32 _ _ _) in *.
  pose proof C_range as R. pose proof (bpow_gt_0 radix2 (-21)) as P. pose proof (bpow_gt_0 radix2 (-20)) as P'.
  assert (Q : bpow radix2 (-21) <= / B2R c <= bpow radix2 21).
  { change (-21)%Z with (Z.opp 21) at 1. rewrite bpow_opp. split; [apply Rinv_le_contravar; lra|].
    rewrite <- (Rinv_inv (bpow radix2 21)), <- bpow_opp. apply Rinv_le_contravar; [exact P|apply RC]. }
  destruct one_value as [E F1].
  destruct (div32_value (f32_of_Z 1) c 21 ltac:(lia) F1) as [V G]; [lra|rewrite E; unfold Rdiv; rewrite Rmult_1_l; apply Rabs_le; lra|].
  rewrite E in V. unfold Rdiv in V. rewrite Rmult_1_l in V. split; [exact G|]. unfold reciprocal. split; [exact G|].
  assert (Cp : 0 < C) by lra. assert (cp : 0 < B2R c) by lra. pose proof (Rinv_0_lt_compat _ Cp) as IC.
  split; [|rewrite Rabs_pos_eq; lra]. rewrite V.
  destruct (rnd32_normal (/ B2R c)) as [N1 N2]; [eapply Rle_trans; [|apply Q]; apply bpow_le; lia|].
  assert (U : u32 = / 16777216) by reflexivity.
  assert (L : / C * (1 - 4.05 * u32) <= / B2R c <= / C * (1 + 4.05 * u32)).
  { set (k := / B2R c) in *. assert (Ek : k * B2R c = 1) by (unfold k; apply Rinv_l; lra). set (j := / C) in *. assert (Ej : j * C = 1) by (unfold j; apply Rinv_l; lra).
    assert (k0 : 0 < k) by (apply Rinv_0_lt_compat; exact cp).
    (* j = j * (k c), k = k * (j C) *)
    assert (J : j * (1 - 4.04 * u32) <= j * (k * B2R c) * (1 - 4.04 * u32)) by (rewrite Ek; lra).
    assert (KJ : 0 < k * j) by (apply Rmult_lt_0_compat; assumption).
    assert (H1 : k * j * (C * (1 - 4.04 * u32)) <= k * j * B2R c) by (apply Rmult_le_compat_l; lra).
    assert (H2 : k * j * B2R c <= k * j * (C * (1 + 4.04 * u32))) by (apply Rmult_le_compat_l; lra).
    replace (k * j * (C * (1 - 4.04 * u32))) with (k * (j * C) * (1 - 4.04 * u32)) in H1 by ring.
    replace (k * j * (C * (1 + 4.04 * u32))) with (k * (j * C) * (1 + 4.04 * u32)) in H2 by ring.
    replace (k * j * B2R c) with (j * (k * B2R c)) in H1, H2 by ring. rewrite Ek, Ej in H1, H2. rewrite U in *. lra. }
  apply Rabs_le. rewrite U in *. lra.
Qed.

(** The two terms of the information vector *)
Variables (x1 x2 : f32) (X : R).
Hypotheses (Fx1 : is_finite x1 = true) (Fx2 : is_finite x2 = true) (Bx1 : Rabs (B2R x1) <= X) (Bx2 : Rabs (B2R x2) <= X) (RX : X <= bpow radix2 60).
Notation Xt := (X + bpow radix2 (-30)).
Notation J := (W * q1 * B2R x1 + (1 - W) * q2 * B2R x2).
Lemma x_near x : is_finite x = true -> Rabs (B2R x) <= X -> near x (B2R x) Xt 0.
Proof. intros F B. apply near_exact; [exact F|]. pose proof (bpow_gt_0 radix2 (-30)). lra. Qed.
Lemma X_range : 0 <= X /\ bpow radix2 (-30) <= Xt <= bpow radix2 61.
Proof.
  pose proof (Rabs_pos (B2R x1)). assert (bpow radix2 (-30) <= bpow radix2 60) by (apply bpow_le; lia).
  change 61%Z with (1 + 60)%Z. rewrite bpow_plus. change (bpow radix2 1) with 2. lra.
Qed.
Definition first_term (a : f32) : Prop := near a (W * q1 * B2R x1) ((W + tau) * q1 * Xt) 4.01.
Definition second_term (b : f32) : Prop := near b ((1 - W) * q2 * B2R x2) ((1 - W + tau) * q2 * Xt) 4.01.
Lemma first_terms : first_term (f32_mul (f32_mul w (reciprocal p1)) x1) /\ first_term (f32_mul (reciprocal p1) (f32_mul w x1)) /\
  first_term (f32_mul w (f32_mul (reciprocal p1) x1)).
Proof.
  destruct X_range as [_ XR]. unfold first_term. replace 4.01 with (1 + 3.01) by lra.
  apply triple; [lra|apply (near_weaken _ _ _ 0); [lra|exact weight_near]|exact (recip_near p1 S1)|now apply x_near|now apply factor_range|now apply q_range|exact XR].
Qed.
Lemma second_terms : second_term (f32_mul (f32_mul rest (reciprocal p2)) x2) /\ second_term (f32_mul (reciprocal p2) (f32_mul rest x2)) /\
  second_term (f32_mul rest (f32_mul (reciprocal p2) x2)).
Proof.
  destruct X_range as [_ XR]. unfold second_term. replace 4.01 with (1 + 3.01) by lra.
  apply triple; [lra|exact rest_near|exact (recip_near p2 S2)|now apply x_near|apply factor_range; lra|now apply q_range|exact XR].
Qed.
Lemma terms_sum a b : first_term a -> second_term b -> is_finite a = true /\ is_finite b = true /\
  Rabs (B2R a + B2R b) <= bpow radix2 101 /\
  forall z, is_finite z = true -> B2R z = rnd32 (B2R a + B2R b) -> near z J (1.002 * C * Xt) 5.02.
Proof.
  intros A B. destruct (near_size _ _ _ _ A) as [A0 SA]. destruct (near_size _ _ _ _ B) as [B0 SB].
  assert (U : 0 < u32 < 0.0000001) by (unfold u32; lra).
  destruct X_range as [X0 XR]. pose proof scale_C as SC. pose proof C_range as RC. pose proof (bpow_gt_0 radix2 (-30)) as P.
  assert (SC' : (W + tau) * q1 * Xt + (1 - W + tau) * q2 * Xt <= 1.002 * C * Xt).
  { rewrite <- Rmult_plus_distr_r. apply Rmult_le_compat_r; lra. }
  assert (CX : C * Xt <= bpow radix2 81).
  { change 81%Z with (20 + 61)%Z. rewrite bpow_plus. pose proof (bpow_gt_0 radix2 (-20)). apply Rmult_le_compat; lra. }
  split; [apply A|]. split; [apply B|]. split.
  - eapply Rle_trans; [apply Rabs_triang|]. apply Rle_trans with (bpow radix2 (2 + 81)); [|apply bpow_le; lia].
    rewrite bpow_plus. change (bpow radix2 2) with 4. nra.
  - intros z Fz Ez. apply (near_scale _ _ ((W + tau) * q1 * Xt + (1 - W + tau) * q2 * Xt)); [lra|exact SC'|].
    apply (near_add a b _ _ _ _ _ 4.01 5.02); [exact A|exact B|lra|lra|exact Fz|exact Ez].
Qed.
Lemma fused_mean (info z : f32) : near info J (1.002 * C * Xt) 5.02 -> is_finite z = true -> B2R z = B2R (f32_mul fused_variance info) ->
  Rabs (B2R z - ci_mean W (B2R p1) (B2R x1) (B2R p2) (B2R x2)) <= 12 * u32 * X + bpow radix2 (-50).
Proof.
  intros N Fz Ez. destruct variance_near as [_ NV]. pose proof C_range as RC. destruct X_range as [X0 XR]. pose proof (bpow_gt_0 radix2 (-20)) as P.
  assert (E : / C * (1.002 * C * Xt) = 1.002 * Xt).
  { replace (/ C * (1.002 * C * Xt)) with ((/ C * C) * (1.002 * Xt)) by ring. rewrite Rinv_l by lra. ring. }
  assert (U : 0 < u32 < 0.0000001) by (unfold u32; lra).
  assert (NM : near (f32_mul fused_variance info) (/ C * J) (/ C * (1.002 * C * Xt)) 11.2).
  { apply (near_mul _ _ _ _ _ _ 5.1 5.02); [exact NV|exact N|lra|lra| |lra]. rewrite E.
    assert (bpow radix2 (-100) <= bpow radix2 (-30)) by (apply bpow_le; lia). assert (B : bpow radix2 (1 + 61) <= bpow radix2 100) by (apply bpow_le; lia).
    rewrite bpow_plus in B. change (bpow radix2 1) with 2 in B. pose proof (bpow_gt_0 radix2 (-30)). lra. }
  rewrite E in NM. destruct NM as (_ & D & _). rewrite Ez.
  unfold ci_mean. rewrite C_ci. unfold Rdiv. rewrite (Rmult_comm J). eapply Rle_trans; [exact D|].
  assert (B50 : bpow radix2 (-50) = 16 * u32 * bpow radix2 (-30)).
  { change (-50)%Z with (-20 + -30)%Z. rewrite bpow_plus. f_equal. unfold u32. cbn. lra. }
  rewrite B50. pose proof (bpow_gt_0 radix2 (-30)). assert (0 <= u32 * X) by (apply Rmult_le_pos; lra). assert (0 < u32 * bpow radix2 (-30)) by (apply Rmult_lt_0_compat; lra). lra.
Qed.
End Component.

(** ** The whole fusion *)
Definition uncorrelated (n : nat) (cov : nat -> nat -> f32) : Prop :=
  (forall i j, (i < n)%nat -> (j < n)%nat -> i <> j -> is_finite (cov i j) = true /\ B2R (cov i j) = 0) /\
  (forall i, (i < n)%nat -> sane (cov i i)).
Definition information_orders (n : nat) (v : evaluation) : Prop :=
  match v with
  | On_matrix t | On_vector t => forall i, (i < n)%nat -> order_of (2 * n) (t i)
  | On_product t1 t2 => forall i, (i < n)%nat -> order_of n (t1 i) /\ order_of n (t2 i)
  end.
Definition fusion_orders_fit (n : nat) (o : fusion_orders) : Prop :=
  order_of n (order_diagonal o) /\ information_orders n (order_information o) /\ forall i, (i < n)%nat -> order_of n (order_fused o i).

Section Whole.
Variables (n : nat) (o : fusion_orders) (P1 P2 : nat -> nat -> f32).
Hypotheses (n6 : (n <= 6)%nat) (O : fusion_orders_fit n o) (U1 : uncorrelated n P1) (U2 : uncorrelated n P2).
Notation t := (order_diagonal o).
Notation p1 := (fun i => P1 i i).
Notation p2 := (fun i => P2 i i).
Notation y1 := (fun i => reciprocal (P1 i i)).
Notation y2 := (fun i => reciprocal (P2 i i)).
Notation Y1 := (inverse32 n P1).
Notation Y2 := (inverse32 n P2).
Definition w : f32 := generate_weight32 n t Y1 Y2.

Lemma uncorrelated_diagonal P : uncorrelated n P -> diagonal_of n P (fun i => P i i).
Proof.
  intros [Z S]. split.
  - intros i j Hi Hj N. destruct (Z i j Hi Hj N) as [F E]. now apply finite_zero.
  - intros i Hi. split; [reflexivity|]. apply sane_regular. now apply S.
Qed.
Lemma inverse_uncorrelated P : uncorrelated n P -> diagonal_of n (inverse32 n P) (fun i => reciprocal (P i i)).
Proof.
  intros U. pose proof (uncorrelated_diagonal P U) as D. destruct U as [_ S].
  assert (R : forall i, (i < n)%nat -> sane (reciprocal (P i i))) by (intros i Hi; apply reciprocal_sane; now apply S).
  destruct (inverse_diagonal n P _ D) as [A B].
  - intros i Hi. rewrite mul_one. split; [apply sane_regular; now apply R|apply R; exact Hi].
  - split; [exact A|]. intros i Hi. destruct (B i Hi) as [E G]. rewrite mul_one in E, G. now split.
Qed.
Lemma D1 : diagonal_of n Y1 y1. Proof. exact (inverse_uncorrelated P1 U1). Qed.
Lemma D2 : diagonal_of n Y2 y2. Proof. exact (inverse_uncorrelated P2 U2). Qed.
Lemma sane1 i : (i < n)%nat -> sane (P1 i i). Proof. apply U1. Qed.
Lemma sane2 i : (i < n)%nat -> sane (P2 i i). Proof. apply U2. Qed.
Lemma leaf i : In i (leaves t) <-> (i < n)%nat.
Proof. apply order_mem, O. Qed.
Lemma length_t : (length (leaves t) <= 6)%nat.
Proof. rewrite (Permutation_length (proj1 O)), seq_length. exact n6. Qed.
Lemma sanes i : In i (leaves t) -> sane (y1 i) /\ sane (y2 i).
Proof. intros Hi. apply leaf in Hi. split; apply reciprocal_sane; [now apply sane1|now apply sane2]. Qed.
Lemma w_diagonal : w = weight32 t y1 y2.
Proof.
  apply weight_diagonal; [apply O|exact D1|exact D2|]. intros i Hi. destruct (sanes i (proj2 (leaf i) Hi)) as [[F1 R1] [F2 R2]].
  pose proof (bpow_gt_0 radix2 (-20)).
  destruct (add32_value (y1 i) (y2 i) 21 ltac:(lia) F1 F2) as [V G].
  { change 21%Z with (1 + 20)%Z. rewrite bpow_plus. change (bpow radix2 1) with 2. apply Rabs_le. lra. }
  apply regular_of; [exact G|]. rewrite V.
  assert (bpow radix2 (-20) <= rnd32 (B2R (y1 i) + B2R (y2 i))); [|lra].
  rewrite <- (rnd32_id (bpow radix2 (-20))) by (apply fmt32_bpow; lia). apply rnd32_le. lra.
Qed.
Lemma w_range : is_finite w = true /\ 0 <= B2R w <= 1.
Proof.
  rewrite w_diagonal. pose proof (bpow_gt_0 radix2 (-20)) as P20.
  destruct (sum_accurate t y1 y2 length_t sanes) as (Fs & Bs & _).
  apply (weight_cases t y1 y2); [| |exact Fs|exact Bs]; intros i Hi; destruct (sanes i Hi) as [[? ?] [? ?]]; (split; [assumption|lra]).
Qed.

(** Products of numbers with a relative error of one rounding each *)
Lemma product_rel (f g : nat -> R) l : (length l <= 6)%nat -> (forall i, In i l -> 0 < g i /\ rel 1 (f i) (g i)) ->
  0 < rprod (map g l) /\ rel 6.1 (rprod (map f l)) (rprod (map g l)).
Proof.
  intros Hl H. assert (U : 0 < u32 < 0.0000001) by (unfold u32; lra).
  assert (G : 0 < rprod (map g l) /\ rprod (map g l) * (1 - u32) ^ length l <= rprod (map f l) <= rprod (map g l) * (1 + u32) ^ length l).
  { clear Hl. induction l as [|i l IH]; cbn [map rprod length pow]; [lra|].
    destruct (H i (or_introl eq_refl)) as [g0 [L R]]. destruct IH as [G0 [A B]]; [intros j Hj; apply H; now right|].
    rewrite !Rmult_1_l in L, R. assert (0 <= (1 - u32) ^ length l) by (apply pow_le; lra).
    split; [apply Rmult_lt_0_compat; assumption|]. split.
    - replace (g i * rprod (map g l) * ((1 - u32) * (1 - u32) ^ length l)) with (g i * (1 - u32) * (rprod (map g l) * (1 - u32) ^ length l)) by ring.
      apply Rmult_le_compat; try assumption; apply Rmult_le_pos; lra.
    - replace (g i * rprod (map g l) * ((1 + u32) * (1 + u32) ^ length l)) with (g i * (1 + u32) * (rprod (map g l) * (1 + u32) ^ length l)) by ring.
      apply Rmult_le_compat; try assumption.
      + apply Rle_trans with (g i * (1 - u32)); [apply Rmult_le_pos; lra|exact L].
      + apply Rle_trans with (rprod (map g l) * (1 - u32) ^ length l); [apply Rmult_le_pos; lra|exact A]. }
  destruct G as [G0 [A B]]. split; [exact G0|].
  assert (K : 1 - 6.1 * u32 <= (1 - u32) ^ length l /\ (1 + u32) ^ length l <= 1 + 6.1 * u32).
  { clear - Hl U. destruct (length l) as [|[|[|[|[|[|[|m]]]]]]]; try lia; cbn [pow]; unfold u32; lra. }
  split; [eapply Rle_trans; [|exact A]|eapply Rle_trans; [exact B|]]; apply Rmult_le_compat_l; lra.
Qed.
Lemma quotient_rel d s D S : 0 < D <= S -> rel 6.1 d D -> rel 6.1 s S -> Rabs (d / s - D / S) <= 12.3 * u32.
Proof.
  intros [HD HDS] [A B] [L H]. assert (U : u32 = / 16777216) by reflexivity. assert (HS : 0 < S) by lra.
  assert (s0 : 0 < s) by (rewrite U in L; lra).
  assert (s9 : 0.9999 * S <= s) by (rewrite U in L; lra).
  replace (d / s - D / S) with ((d * S - D * s) / (s * S)) by (field; lra).
  assert (E : Rabs (d * S - D * s) <= 12.2 * u32 * (D * S)).
  { assert (X1 : d * S <= D * (1 + 6.1 * u32) * S) by (apply Rmult_le_compat_r; lra).
    assert (X2 : D * (1 - 6.1 * u32) * S <= d * S) by (apply Rmult_le_compat_r; lra).
    assert (X3 : D * s <= D * (S * (1 + 6.1 * u32))) by (apply Rmult_le_compat_l; lra).
    assert (X4 : D * (S * (1 - 6.1 * u32)) <= D * s) by (apply Rmult_le_compat_l; lra).
    apply Rabs_le. lra. }
  unfold Rdiv. rewrite Rabs_mult, (Rabs_pos_eq (/ (s * S))) by (left; apply Rinv_0_lt_compat; nra).
  apply (Rmult_le_reg_r (s * S)); [nra|]. rewrite Rmult_assoc, Rinv_l, Rmult_1_r by nra.
  eapply Rle_trans; [exact E|].
  assert (Y1 : D * S <= S * S) by (apply Rmult_le_compat_r; lra). assert (Y2 : 0.9999 * S * S <= s * S) by (apply Rmult_le_compat_r; lra).
  assert (0 < S * S) by nra. rewrite U. lra.
Qed.
Lemma product_order (f : nat -> R) : rprod (map f (leaves t)) = product (map f (seq 0 n)).
Proof. rewrite (product_rprod (map f (seq 0 n))). apply rprod_perm, Permutation_map, O. Qed.
Lemma w_accurate : Rabs (B2R w - exact_weight n (fun i => B2R (P1 i i)) (fun i => B2R (P2 i i))) <= bpow radix2 (-18).
Proof.
  rewrite w_diagonal. destruct (weight_accurate t y1 y2 length_t sanes) as (_ & S0 & E).
  unfold exact_weight. rewrite <- !product_order.
  assert (B19 : bpow radix2 (-19) = 32 * u32) by (unfold u32; cbn; lra). assert (B18 : bpow radix2 (-18) = 64 * u32) by (unfold u32; cbn; lra).
  rewrite B19 in E. rewrite B18. pose proof (bpow_gt_0 radix2 (-20)) as P20.
  assert (Q1 : forall i, In i (leaves t) -> 0 < / B2R (P1 i i) /\ rel 1 (B2R (reciprocal (P1 i i))) (/ B2R (P1 i i))).
  { intros i Hi. pose proof (sane1 i (proj1 (leaf i) Hi)) as S. pose proof (q_range _ S). split; [lra|]. now apply reciprocal_sane. }
  assert (Q2 : forall i, In i (leaves t) -> 0 < / B2R (P2 i i) /\ rel 1 (B2R (reciprocal (P2 i i))) (/ B2R (P2 i i))).
  { intros i Hi. pose proof (sane2 i (proj1 (leaf i) Hi)) as S. pose proof (q_range _ S). split; [lra|]. now apply reciprocal_sane. }
  destruct (product_rel _ _ _ length_t Q1) as [A1 R1]. destruct (product_rel _ _ _ length_t Q2) as [A2 R2].
  destruct (product_rel (fun i => B2R (reciprocal (P1 i i)) + B2R (reciprocal (P2 i i))) (fun i => / B2R (P1 i i) + / B2R (P2 i i)) _ length_t) as [A3 R3].
  { intros i Hi. destruct (Q1 i Hi) as [? [? ?]]. destruct (Q2 i Hi) as [? [? ?]]. split; [lra|]. split; lra. }
  assert (M : forall (f g : nat -> R) l, (forall i, In i l -> 0 <= f i <= g i) -> 0 <= rprod (map f l) <= rprod (map g l)).
  { intros f g l. induction l as [|i l IH]; cbn; intros K; [lra|].
    destruct (K i (or_introl eq_refl)). destruct IH as [I1 I2]; [intros j Hj; apply K; auto|].
    split; [apply Rmult_le_pos; lra|apply Rmult_le_compat; lra]. }
  assert (M1 := proj2 (M (fun i => / B2R (P1 i i)) (fun i => / B2R (P1 i i) + / B2R (P2 i i)) (leaves t) ltac:(intros i Hi; destruct (Q1 i Hi); destruct (Q2 i Hi); lra))).
  assert (M2 := proj2 (M (fun i => / B2R (P2 i i)) (fun i => / B2R (P1 i i) + / B2R (P2 i i)) (leaves t) ltac:(intros i Hi; destruct (Q1 i Hi); destruct (Q2 i Hi); lra))).
  pose proof (quotient_rel _ _ _ _ (conj A1 M1) R1 R3) as K1. pose proof (quotient_rel _ _ _ _ (conj A2 M2) R2 R3) as K2.
  set (d1 := rprod (map (fun i => B2R (reciprocal (P1 i i))) (leaves t))) in *. set (d2 := rprod (map (fun i => B2R (reciprocal (P2 i i))) (leaves t))) in *.
  set (s := rprod (map (fun i => B2R (reciprocal (P1 i i)) + B2R (reciprocal (P2 i i))) (leaves t))) in *.
  set (E1 := rprod (map (fun i => / B2R (P1 i i)) (leaves t))) in *. set (E2 := rprod (map (fun i => / B2R (P2 i i)) (leaves t))) in *.
  set (S := rprod (map (fun i => / B2R (P1 i i) + / B2R (P2 i i)) (leaves t))) in *.
  replace ((s - d2 + d1) / (2 * s)) with ((1 - d2 / s + d1 / s) / 2) in E by (field; lra).
  replace ((S - E2 + E1) / (2 * S)) with ((1 - E2 / S + E1 / S) / 2) by (field; lra).
  apply Rabs_le_inv in E, K1, K2. apply Rabs_le. lra.
Qed.

(** The information matrix and its inverse *)
Definition c (i : nat) : f32 := combined32 w (reciprocal (P1 i i)) (reciprocal (P2 i i)).
Lemma rest_finite : is_finite (f32_sub (f32_of_Z 1) w) = true.
Proof. destruct w_range as [F R]. exact (proj1 (rest_near w F R)). Qed.
Lemma combined_diagonal : diagonal_of n (fun i j => combined32 w (Y1 i j) (Y2 i j)) c.
Proof.
  destruct w_range as [F R]. destruct D1 as [Z1 E1], D2 as [Z2 E2]. split.
  - intros i j Hi Hj N. apply add_zero_zero; apply mul_zero_r; auto using rest_finite.
  - intros i Hi. destruct (E1 i Hi) as [-> _], (E2 i Hi) as [-> _]. split; [reflexivity|].
    destruct (combined_range w (P1 i i) (P2 i i) F R (sane1 i Hi) (sane2 i Hi)) as (G & _ & B). pose proof (bpow_gt_0 radix2 (-21)).
    apply regular_of; [exact G|unfold c; lra].
Qed.
Notation fused i := (fused_variance w (P1 i i) (P2 i i)).
Lemma fused_diagonal : diagonal_of n (inverse32 n (fun i j => combined32 w (Y1 i j) (Y2 i j))) (fun i => fused i).
Proof.
  destruct w_range as [F R].
  assert (G : forall i, (i < n)%nat -> regular (reciprocal (c i)) /\ is_finite (reciprocal (c i)) = true).
  { intros i Hi. destruct (variance_near w (P1 i i) (P2 i i) F R (sane1 i Hi) (sane2 i Hi)) as [V (_ & D & _)]. split; [|exact V].
    apply regular_of; [exact V|]. intros E. change (reciprocal (c i)) with (fused i) in E. rewrite E in D.
    pose proof (C_range w (P1 i i) (P2 i i) R (sane1 i Hi) (sane2 i Hi)) as CR. pose proof (bpow_gt_0 radix2 (-20)).
    set (C := B2R w * / B2R (P1 i i) + (1 - B2R w) * / B2R (P2 i i)) in *. assert (I : 0 < / C) by (apply Rinv_0_lt_compat; lra).
    apply Rabs_le_inv in D. unfold u32 in D. lra. }
  destruct (inverse_diagonal n _ c combined_diagonal) as [A B].
  - intros i Hi. rewrite mul_one. now apply G.
  - split; [exact A|]. intros i Hi. destruct (B i Hi) as [E K]. rewrite mul_one in E, K. now split.
Qed.

Variables (x1 x2 : nat -> f32).
Hypotheses (F1 : forall i, (i < n)%nat -> is_finite (x1 i) = true /\ Rabs (B2R (x1 i)) <= bpow radix2 60)
  (F2 : forall i, (i < n)%nat -> is_finite (x2 i) = true /\ Rabs (B2R (x2 i)) <= bpow radix2 60).
Notation J i := (B2R w * / B2R (P1 i i) * B2R (x1 i) + (1 - B2R w) * / B2R (P2 i i) * B2R (x2 i)).
Notation C i := (B2R w * / B2R (P1 i i) + (1 - B2R w) * / B2R (P2 i i)).
Notation info := (information32 n (order_information o) w Y1 x1 Y2 x2).
Lemma mulF (a b : f32) : is_zero a -> is_finite b = true -> is_zero (f32_mul a b). Proof. apply mul_zero_l. Qed.
Lemma wx_finite i : (i < n)%nat -> is_finite (f32_mul w (x1 i)) = true /\ is_finite (f32_mul (f32_sub (f32_of_Z 1) w) (x2 i)) = true.
Proof.
  intros Hi. destruct w_range as [F R]. destruct (F1 i Hi) as [A1 B1]. destruct (F2 i Hi) as [A2 B2].
  destruct (rest_near w F R) as (FR & _ & _). destruct (near_size _ _ _ _ (rest_near w F R)) as [_ SR].
  assert (B60 := bpow_gt_0 radix2 60). assert (T : bpow radix2 (-50) <= bpow radix2 0) by (apply bpow_le; lia). change (bpow radix2 0) with 1 in T.
  assert (U : 0 < u32 < 0.0000001) by (unfold u32; lra).
  split.
  - apply (mul32_value w (x1 i) 60 ltac:(lia) F A1). rewrite Rabs_mult, (Rabs_pos_eq (B2R w)) by lra. pose proof (Rabs_pos (B2R (x1 i))). nra.
  - apply (mul32_value _ (x2 i) 62 ltac:(lia) FR A2). rewrite Rabs_mult. change 62%Z with (2 + 60)%Z. rewrite bpow_plus. change (bpow radix2 2) with 4.
    apply Rmult_le_compat; auto using Rabs_pos. nra.
Qed.
Lemma info_near i X : (i < n)%nat -> Rabs (B2R (x1 i)) <= X -> Rabs (B2R (x2 i)) <= X -> X <= bpow radix2 60 ->
  near (info i) (J i) (1.002 * C i * (X + bpow radix2 (-30))) 5.02.
Proof.
  intros Hi B1 B2 BX. destruct w_range as [F R]. pose proof (sane1 i Hi) as S1. pose proof (sane2 i Hi) as S2.
  destruct (first_terms w (P1 i i) F R S1 (x1 i) X (proj1 (F1 i Hi)) B1 BX) as (T1 & T2 & T3).
  destruct (second_terms w (P2 i i) F R S2 (x1 i) (x2 i) X (proj1 (F2 i Hi)) B1 B2 BX) as (V1 & V2 & V3).
  pose proof (terms_sum w (P1 i i) (P2 i i) R S1 S2 (x1 i) (x2 i) X B1 BX) as TS.
  destruct D1 as [Z1 E1], D2 as [Z2 E2].
  unfold information32. destruct O as (_ & OI & _). destruct (order_information o) as [tr|tr|t1 t2]; cbn [information_orders] in OI.
  - specialize (OI i Hi). destruct (TS _ _ T1 V1) as (Fa & Fb & Bd & K).
    match goal with |- near (sum32 _ ?f) _ _ _ => set (g := f) end.
    assert (Ga : g i = f32_mul (f32_mul w (reciprocal (P1 i i))) (x1 i)).
    { unfold g. rewrite (proj2 (Nat.ltb_lt i n) Hi). destruct (E1 i Hi) as [-> _]. reflexivity. }
    assert (Gb : g (n + i)%nat = f32_mul (f32_mul (f32_sub (f32_of_Z 1) w) (reciprocal (P2 i i))) (x2 i)).
    { unfold g. rewrite (proj2 (Nat.ltb_ge (n + i) n) ltac:(lia)). replace (n + i - n)%nat with i by lia. destruct (E2 i Hi) as [-> _]. reflexivity. }
    destruct (sum_two (tr i) g i (n + i)) as [G V].
    + now apply (order_nodup (2 * n)).
    + apply (order_mem (2 * n)); [exact OI|lia].
    + apply (order_mem (2 * n)); [exact OI|lia].
    + lia.
    + now rewrite Ga.
    + now rewrite Gb.
    + now rewrite Ga, Gb.
    + intros j Hj Na Nb. apply (order_mem (2 * n) _ _ OI) in Hj. unfold g. destruct (Nat.ltb_spec j n).
      * apply mul_zero_l; [|now apply F1]. apply mul_zero_r; [exact F|]. apply Z1; lia.
      * apply mul_zero_l; [|apply F2; lia]. apply mul_zero_r; [exact rest_finite|]. apply Z2; lia.
    + apply K; [exact G|]. rewrite <- Ga, <- Gb. exact V.
  - specialize (OI i Hi). destruct (TS _ _ T2 V2) as (Fa & Fb & Bd & K).
    match goal with |- near (sum32 _ ?f) _ _ _ => set (g := f) end.
    assert (Ga : g i = f32_mul (reciprocal (P1 i i)) (f32_mul w (x1 i))).
    { unfold g. rewrite (proj2 (Nat.ltb_lt i n) Hi). destruct (E1 i Hi) as [-> _]. reflexivity. }
    assert (Gb : g (n + i)%nat = f32_mul (reciprocal (P2 i i)) (f32_mul (f32_sub (f32_of_Z 1) w) (x2 i))).
    { unfold g. rewrite (proj2 (Nat.ltb_ge (n + i) n) ltac:(lia)). replace (n + i - n)%nat with i by lia. destruct (E2 i Hi) as [-> _]. reflexivity. }
    destruct (sum_two (tr i) g i (n + i)) as [G V].
    + now apply (order_nodup (2 * n)).
    + apply (order_mem (2 * n)); [exact OI|lia].
    + apply (order_mem (2 * n)); [exact OI|lia].
    + lia.
    + now rewrite Ga.
    + now rewrite Gb.
    + now rewrite Ga, Gb.
    + intros j Hj Na Nb. apply (order_mem (2 * n) _ _ OI) in Hj. unfold g. destruct (Nat.ltb_spec j n).
      * apply mul_zero_l; [apply Z1; lia|]. apply wx_finite. exact H.
      * apply mul_zero_l; [apply Z2; lia|]. apply wx_finite. lia.
    + apply K; [exact G|]. rewrite <- Ga, <- Gb. exact V.
  - specialize (OI i Hi). destruct OI as [O1 O2].
    (* the two inner products are those of the diagonal *)
    assert (YF1 : is_finite (f32_mul (reciprocal (P1 i i)) (x1 i)) = true) by (apply (mul_finite w), T3).
    assert (YF2 : is_finite (f32_mul (reciprocal (P2 i i)) (x2 i)) = true) by (apply (mul_finite (f32_sub (f32_of_Z 1) w)), V3).
    destruct (sum_one (t1 i) (fun j => f32_mul (Y1 i j) (x1 j)) i) as [G1 W1].
    { now apply (order_nodup n). } { now apply (order_mem n). } { destruct (E1 i Hi) as [-> _]. exact YF1. }
    { intros j Hj N. apply (order_mem n _ _ O1) in Hj. apply mul_zero_l; [apply Z1; lia|now apply F1]. }
    destruct (sum_one (t2 i) (fun j => f32_mul (Y2 i j) (x2 j)) i) as [G2 W2].
    { now apply (order_nodup n). } { now apply (order_mem n). } { destruct (E2 i Hi) as [-> _]. exact YF2. }
    { intros j Hj N. apply (order_mem n _ _ O2) in Hj. apply mul_zero_l; [apply Z2; lia|now apply F2]. }
    cbv beta in W1, W2. rewrite (proj1 (E1 i Hi)) in W1. rewrite (proj1 (E2 i Hi)) in W2.
    set (s1 := sum32 (t1 i) _) in *. set (s2 := sum32 (t2 i) _) in *.
    (* a product depends on the values of its factors only *)
    assert (Same : forall a b b' : f32, is_finite a = true -> is_finite b = true -> is_finite (f32_mul a b') = true -> B2R b = B2R b' ->
      is_finite (f32_mul a b) = true /\ B2R (f32_mul a b) = B2R (f32_mul a b')).
    { clear. intros a b b' Fa Fb Fm E. pose proof (mul_finite _ _ Fm) as [_ Fb']. unfold f32_mul in *.
      pose proof (Bmult_correct 24 128 _ _ mode_NE a b) as M1. pose proof (Bmult_correct 24 128 _ _ mode_NE a b') as M2. rewrite E in M1.
      destruct (Rlt_bool _ _).
      - destruct M1 as (A1 & A2 & _), M2 as (B1 & _). rewrite Fa, Fb in A2. split; [exact A2|]. congruence.
      - exfalso. revert Fm M2. clear. destruct (Bmult mode_NE a b'); cbn; intros; discriminate. }
    assert (A1 : first_term w (P1 i i) (x1 i) X (f32_mul w s1)).
    { destruct (Same w s1 (f32_mul (reciprocal (P1 i i)) (x1 i)) F G1 (proj1 T3) W1) as [P Q]. eapply near_same; [exact T3|exact P|exact Q]. }
    assert (A2 : second_term w (P2 i i) (x2 i) X (f32_mul (f32_sub (f32_of_Z 1) w) s2)).
    { destruct (Same _ s2 (f32_mul (reciprocal (P2 i i)) (x2 i)) rest_finite G2 (proj1 V3) W2) as [P Q]. eapply near_same; [exact V3|exact P|exact Q]. }
    destruct (TS _ _ A1 A2) as (Fa & Fb & Bd & K). destruct (add32_value _ _ 101 ltac:(lia) Fa Fb Bd) as [V G]. now apply K.
Qed.
Notation mean_of := (fun i => sum32 (order_fused o i) (fun k => f32_mul (inverse32 n (fun i j => combined32 w (Y1 i j) (Y2 i j)) i k) (info k))).
Lemma mean_near i X : (i < n)%nat -> Rabs (B2R (x1 i)) <= X -> Rabs (B2R (x2 i)) <= X -> X <= bpow radix2 60 ->
  is_finite (mean_of i) = true /\
  Rabs (B2R (mean_of i) - ci_mean (B2R w) (B2R (P1 i i)) (B2R (x1 i)) (B2R (P2 i i)) (B2R (x2 i))) <= 12 * u32 * X + bpow radix2 (-50).
Proof.
  intros Hi B1 B2 BX. destruct w_range as [F R]. pose proof (info_near i X Hi B1 B2 BX) as NI.
  destruct fused_diagonal as [Z E]. set (cov := inverse32 n (fun i j => combined32 w (Y1 i j) (Y2 i j))) in *.
  assert (FM : is_finite (f32_mul (fused i) (info i)) = true).
  { destruct (variance_near w (P1 i i) (P2 i i) F R (sane1 i Hi) (sane2 i Hi)) as [_ NV].
    pose proof (C_range w (P1 i i) (P2 i i) R (sane1 i Hi) (sane2 i Hi)) as RC. pose proof (bpow_gt_0 radix2 (-20)). pose proof (bpow_gt_0 radix2 (-30)).
    pose proof (Rabs_pos (B2R (x1 i))). assert (U : 0 < u32 < 0.0000001) by (unfold u32; lra).
    assert (EQ : / C i * (1.002 * C i * (X + bpow radix2 (-30))) = 1.002 * (X + bpow radix2 (-30))).
    { replace (/ C i * (1.002 * C i * (X + bpow radix2 (-30)))) with ((/ C i * C i) * (1.002 * (X + bpow radix2 (-30)))) by ring. rewrite Rinv_l by lra. ring. }
    apply (near_mul _ _ _ _ _ _ 5.1 5.02 11.2 NV NI); [lra|lra| |lra]. rewrite EQ.
    assert (bpow radix2 (-100) <= bpow radix2 (-30)) by (apply bpow_le; lia). assert (bpow radix2 (-30) <= bpow radix2 60) by (apply bpow_le; lia).
    assert (B : bpow radix2 (3 + 60) <= bpow radix2 100) by (apply bpow_le; lia).
    rewrite bpow_plus in B. change (bpow radix2 3) with 8 in B. lra. }
  destruct (sum_one (order_fused o i) (fun k => f32_mul (cov i k) (info k)) i) as [G V].
  - apply (order_nodup n). now apply O.
  - apply (order_mem n); [now apply O|exact Hi].
  - destruct (E i Hi) as [-> _]. exact FM.
  - intros k Hk N. apply (order_mem n) in Hk; [|now apply O]. apply mul_zero_l; [apply Z; auto|].
    destruct (F1 k Hk) as [_ A1], (F2 k Hk) as [_ A2]. exact (proj1 (info_near k _ Hk A1 A2 (Rle_refl _))).
  - cbv beta in V. rewrite (proj1 (E i Hi)) in V. split; [exact G|].
    exact (fused_mean w (P1 i i) (P2 i i) F R (sane1 i Hi) (sane2 i Hi) (x1 i) (x2 i) X B1 BX (info i) _ NI G V).
Qed.
End Whole.
