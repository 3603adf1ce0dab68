(** How accurate mahalanobis_distance is in single precision. *)
From Coq Require Import ZArith Reals Lra Lia Bool List Arith Permutation.
From Flocq Require Import Core IEEE754.BinarySingleNaN.
From Verif Require Import Base Float FloatProofs Motion DoubleArith DoubleThms FloatDistance FloatDistanceThms FloatWeight FloatWeightThms
  FloatUnscented FloatUnscentedThms FloatCovarianceThms FloatLltThms FloatLltRuns FloatMahalanobis InverseSpec.
Import ListNotations.
Open Scope R_scope.

(** ** Floats near exact values of bounded size *)
Definition near (x : f32) (e A k : R) : Prop :=
  is_finite x = true /\ Rabs (B2R x - e) <= k * u32 * A /\ Rabs e <= A.
Lemma near_exact x A : is_finite x = true -> Rabs (B2R x) <= A -> near x (B2R x) A 0.
Proof. intros F H. split; [exact F|]. split; [|exact H]. unfold Rminus. rewrite Rplus_opp_r, Rabs_R0. lra. Qed.
Lemma near_weaken x e A k m : k <= m -> near x e A k -> near x e A m.
Proof.
  intros H (F & D & B). split; [exact F|]. split; [|exact B]. eapply Rle_trans; [exact D|].
  pose proof (Rabs_pos e). apply Rmult_le_compat_r; [lra|]. apply Rmult_le_compat_r; [unfold u32; lra|exact H].
Qed.
Lemma near_size x e A k : near x e A k -> 0 <= A /\ Rabs (B2R x) <= (1 + k * u32) * A.
Proof.
  intros (_ & D & B). split; [pose proof (Rabs_pos e); lra|].
  replace (B2R x) with ((B2R x - e) + e) by ring. eapply Rle_trans; [apply Rabs_triang|]. lra.
Qed.
Lemma near_mul x y e f A B k l m : near x e A k -> near y f B l -> 0 <= k <= 10000 -> 0 <= l <= 10000 ->
  bpow radix2 (-100) <= A * B <= bpow radix2 100 -> k + l + 1.001 + u32 * (2 * (k * l) + k + l) <= m ->
  near (f32_mul x y) (e * f) (A * B) m.
Proof.
  intros Hx Hy Hk Hl [AB1 AB2] Hm. destruct (near_size _ _ _ _ Hx) as [A0 Sx]. destruct (near_size _ _ _ _ Hy) as [B0 Sy].
  destruct Hx as (Fx & Dx & Ex). destruct Hy as (Fy & Dy & Ey).
  assert (u0 : 0 < u32 < 0.0000001) by (unfold u32; lra).
  assert (kl : 0 <= k * l) by (apply Rmult_le_pos; lra).
  assert (ku : 0 <= k * u32 <= 0.001) by (unfold u32; lra). assert (lu : 0 <= l * u32 <= 0.001) by (unfold u32; lra).
  set (P := A * B) in *. assert (P0 : 0 < P) by (pose proof (bpow_gt_0 radix2 (-100)); lra).
  assert (S : Rabs (B2R x * B2R y) <= (1 + k * u32) * (1 + l * u32) * P).
  { rewrite Rabs_mult. unfold P. replace ((1 + k * u32) * (1 + l * u32) * (A * B)) with (((1 + k * u32) * A) * ((1 + l * u32) * B)) by ring.
    apply Rmult_le_compat; try apply Rabs_pos; assumption. }
  assert (G : (1 + k * u32) * (1 + l * u32) <= 1.01) by nra.
  assert (S2 : Rabs (B2R x * B2R y) <= bpow radix2 101).
  { eapply Rle_trans; [exact S|]. change 101%Z with (1 + 100)%Z. rewrite bpow_plus. change (bpow radix2 1) with 2.
    apply Rle_trans with (1.01 * P); [apply Rmult_le_compat_r; lra|lra]. }
  destruct (mul32_value x y 101 ltac:(lia) Fx Fy S2) as [E F]. split; [exact F|]. split.
  2:{ rewrite Rabs_mult. apply Rmult_le_compat; try apply Rabs_pos; assumption. }
  rewrite E. destruct (rnd32_rel (B2R x * B2R y)) as (d & h & Hd & Hh & ->).
  assert (T : bpow radix2 (-150) <= 0.001 * u32 * P).
  { apply Rle_trans with (0.001 * u32 * bpow radix2 (-100)); [|apply Rmult_le_compat_l; lra].
    change (-150)%Z with (-50 + -100)%Z. rewrite bpow_plus. apply Rmult_le_compat_r; [apply bpow_ge_0|].
    apply Rle_trans with (bpow radix2 (-40)); [apply bpow_le; lia|]. change (bpow radix2 (-40)) with (/ 1099511627776). unfold u32. lra. }
  assert (D : Rabs (B2R x * B2R y - e * f) <= (k * u32 + l * u32 + k * u32 * (l * u32)) * P).
  { replace (B2R x * B2R y - e * f) with ((B2R x - e) * B2R y + e * (B2R y - f)) by ring.
    eapply Rle_trans; [apply Rabs_triang|]. rewrite !Rabs_mult.
    assert (Rabs (B2R x - e) * Rabs (B2R y) <= (k * u32 * A) * ((1 + l * u32) * B)) by (apply Rmult_le_compat; try apply Rabs_pos; assumption).
    assert (Rabs e * Rabs (B2R y - f) <= A * (l * u32 * B)) by (apply Rmult_le_compat; try apply Rabs_pos; assumption).
    unfold P. lra. }
  replace (B2R x * B2R y * (1 + d) + h - e * f) with ((B2R x * B2R y - e * f) + B2R x * B2R y * d + h) by ring.
  assert (Q : Rabs (B2R x * B2R y * d) <= (1 + k * u32) * (1 + l * u32) * P * u32).
  { rewrite Rabs_mult. apply Rmult_le_compat; try apply Rabs_pos; assumption. }
  eapply Rle_trans; [apply Rabs_triang|]. eapply Rle_trans; [apply Rplus_le_compat_r, Rabs_triang|].
  apply Rle_trans with ((k + l + 1.001 + u32 * (2 * (k * l) + k + l)) * u32 * P).
  - assert (0 <= u32 * u32 * (k * l) * P * (1 - u32)).
    { repeat apply Rmult_le_pos; lra. }
    lra.
  - apply Rmult_le_compat_r; [lra|]. apply Rmult_le_compat_r; lra.
Qed.
Lemma near_sub x y e f A B k m : near x e A k -> near y f B k -> 0 <= k <= 10000 ->
  A + B <= bpow radix2 100 -> k + 1 + u32 * k <= m ->
  near (f32_sub x y) (e - f) (A + B) m.
Proof.
  intros Hx Hy Hk AB Hm. destruct (near_size _ _ _ _ Hx) as [A0 Sx]. destruct (near_size _ _ _ _ Hy) as [B0 Sy].
  destruct Hx as (Fx & Dx & Ex). destruct Hy as (Fy & Dy & Ey).
  assert (u0 : 0 < u32 < 0.0000001) by (unfold u32; lra). assert (ku : 0 <= k * u32 <= 0.001) by (unfold u32; lra).
  assert (S : Rabs (B2R x - B2R y) <= (1 + k * u32) * (A + B)).
  { unfold Rminus. eapply Rle_trans; [apply Rabs_triang|]. rewrite Rabs_Ropp. lra. }
  assert (S2 : Rabs (B2R x - B2R y) <= bpow radix2 101).
  { eapply Rle_trans; [exact S|]. change 101%Z with (1 + 100)%Z. rewrite bpow_plus. change (bpow radix2 1) with 2.
    apply Rle_trans with (2 * (A + B)); [apply Rmult_le_compat_r; lra|lra]. }
  destruct (sub32_value x y 101 ltac:(lia) Fx Fy S2) as [E F]. split; [exact F|]. split.
  2:{ unfold Rminus. eapply Rle_trans; [apply Rabs_triang|]. rewrite Rabs_Ropp. lra. }
  rewrite E. change (B2R x - B2R y) with (B2R x + - B2R y) at 1. destruct (rnd32_add (B2R x) (- B2R y)) as (d & Hd & ->); [apply fmtB|apply generic_format_opp, fmtB|].
  replace ((B2R x + - B2R y) * (1 + d) - (e - f)) with ((B2R x - e) + - (B2R y - f) + (B2R x - B2R y) * d) by ring.
  assert (Q : Rabs ((B2R x - B2R y) * d) <= (1 + k * u32) * (A + B) * u32).
  { rewrite Rabs_mult. apply Rmult_le_compat; try apply Rabs_pos; assumption. }
  eapply Rle_trans; [apply Rabs_triang|]. eapply Rle_trans; [apply Rplus_le_compat_r, Rabs_triang|]. rewrite Rabs_Ropp.
  apply Rle_trans with ((k + 1 + u32 * k) * u32 * (A + B)); [lra|].
  apply Rmult_le_compat_r; [lra|]. apply Rmult_le_compat_r; lra.
Qed.
Lemma near_sum t (p : nat -> f32) (e A : nat -> R) k : 0 <= k <= 10000 ->
  (forall i, In i (leaves t) -> near (p i) (e i) (A i) k) ->
  2 * ((1 + u32) ^ length (leaves t) * total A (leaves t)) <= bpow radix2 100 ->
  is_finite (sum32 t p) = true /\ Rabs (total e (leaves t)) <= total A (leaves t) /\
  Rabs (B2R (sum32 t p) - total e (leaves t)) <= ((1 + k * u32) * (1 + u32) ^ Nat.pred (length (leaves t)) - 1) * total A (leaves t).
Proof.
  intros Hk. assert (ku : 0 <= k * u32 <= 0.001) by (unfold u32; lra).
  induction t as [i|l IHl r IHr]; cbn [leaves sum32]; intros H B.
  - destruct (H i ltac:(now left)) as (F & D & S). cbn in *. rewrite !Rplus_0_r. split; [exact F|]. split; [exact S|]. lra.
  - rewrite app_length in *. rewrite !total_app in *.
    assert (HA : forall i, In i (leaves l ++ leaves r) -> 0 <= A i).
    { intros i Hi. apply (near_size _ _ _ _ (H i Hi)). }
    assert (Al : 0 <= total A (leaves l)) by (apply total_nonneg; intros; apply HA, in_or_app; now left).
    assert (Ar : 0 <= total A (leaves r)) by (apply total_nonneg; intros; apply HA, in_or_app; now right).
    pose proof (leaves_pos l) as Ll. pose proof (leaves_pos r) as Lr.
    set (a := total A (leaves l)) in *. set (b := total A (leaves r)) in *.
    set (nl := length (leaves l)) in *. set (nr := length (leaves r)) in *.
    destruct (pow_grow nl (nl + nr) ltac:(lia)) as [G1 G2]. destruct (pow_grow nr (nl + nr) ltac:(lia)) as [G3 G4].
    destruct IHl as (Fl & Sl & Dl); [intros; apply H, in_or_app; now left| |].
    { eapply Rle_trans; [|exact B]. apply Rmult_le_compat_l; [lra|]. apply Rmult_le_compat; lra. }
    destruct IHr as (Fr & Sr & Dr); [intros; apply H, in_or_app; now right| |].
    { eapply Rle_trans; [|exact B]. apply Rmult_le_compat_l; [lra|]. apply Rmult_le_compat; lra. }
    destruct (pow_grow (S (Nat.pred nl)) (Nat.pred (nl + nr)) ltac:(lia)) as [_ K1].
    destruct (pow_grow (S (Nat.pred nr)) (Nat.pred (nl + nr)) ltac:(lia)) as [_ K2].
    destruct (pow_grow (Nat.pred nl) (nl + nr) ltac:(lia)) as [K3 K4]. destruct (pow_grow (Nat.pred nr) (nl + nr) ltac:(lia)) as [K5 K6].
    cbn [pow] in K1, K2.
    set (gl := (1 + u32) ^ Nat.pred nl) in *. set (gr := (1 + u32) ^ Nat.pred nr) in *. set (g := (1 + u32) ^ Nat.pred (nl + nr)) in *.
    set (c := 1 + k * u32) in *.
    set (x := B2R (sum32 l p)) in *. set (y := B2R (sum32 r p)) in *.
    assert (Sx : Rabs x <= c * gl * a) by (apply Rabs_le_inv in Dl, Sl; apply Rabs_le; lra).
    assert (Sy : Rabs y <= c * gr * b) by (apply Rabs_le_inv in Dr, Sr; apply Rabs_le; lra).
    assert (Sxy : Rabs (x + y) <= c * gl * a + c * gr * b) by (eapply Rle_trans; [apply Rabs_triang|]; lra).
    destruct (add32_value (sum32 l p) (sum32 r p) 100 ltac:(lia) Fl Fr) as [E F].
    { fold x y. eapply Rle_trans; [exact Sxy|]. eapply Rle_trans; [|exact B].
      assert (gl * a <= (1 + u32) ^ (nl + nr) * a) by (apply Rmult_le_compat_r; lra).
      assert (gr * b <= (1 + u32) ^ (nl + nr) * b) by (apply Rmult_le_compat_r; lra).
      assert (0 <= gl * a) by (apply Rmult_le_pos; lra). assert (0 <= gr * b) by (apply Rmult_le_pos; lra).
      assert (c * (gl * a + gr * b) <= 2 * (gl * a + gr * b)) by (apply Rmult_le_compat_r; unfold c; lra). lra. }
    split; [exact F|]. split; [eapply Rle_trans; [apply Rabs_triang|]; lra|].
    rewrite E. fold x y. destruct (rnd32_add x y) as (d & Hd & ->); [apply fmtB|apply fmtB|].
    assert (Q : Rabs ((x + y) * d) <= (c * gl * a + c * gr * b) * u32).
    { rewrite Rabs_mult. apply Rmult_le_compat; try apply Rabs_pos; assumption. }
    assert (c0 : 1 <= c) by (unfold c; lra).
    assert (P1 : c * a * ((1 + u32) * gl) <= c * a * g) by (apply Rmult_le_compat_l; [apply Rmult_le_pos; lra|exact K1]).
    assert (P2 : c * b * ((1 + u32) * gr) <= c * b * g) by (apply Rmult_le_compat_l; [apply Rmult_le_pos; lra|exact K2]).
    apply Rabs_le_inv in Q, Dl, Dr. apply Rabs_le. lra.
Qed.
Lemma near_sum3 t (p : nat -> f32) (e A : nat -> R) k m : order_of 3 t -> 0 <= k <= 10000 ->
  (forall i, (i < 3)%nat -> near (p i) (e i) (A i) k) -> A 0%nat + A 1%nat + A 2%nat <= bpow radix2 98 ->
  k + 2.001 + 3 * u32 * k <= m ->
  near (sum32 t p) (e 0%nat + e 1%nat + e 2%nat) (A 0%nat + A 1%nat + A 2%nat) m.
Proof.
  intros O Hk H B Hm.
  assert (T : forall f, total f (leaves t) = f 0%nat + f 1%nat + f 2%nat).
  { intros f. rewrite (total_perm f _ _ O). cbn [seq total]. ring. }
  assert (L : length (leaves t) = 3%nat) by (rewrite (Permutation_length O); reflexivity).
  destruct (near_sum t p e A k Hk) as (F & S & D).
  - intros i Hi. apply (Permutation_in _ O) in Hi. apply in_seq in Hi. apply H. lia.
  - rewrite T, L. assert (A0 : forall i, (i < 3)%nat -> 0 <= A i) by (intros i Hi; apply (near_size _ _ _ _ (H i Hi))).
    pose proof (A0 0%nat ltac:(lia)). pose proof (A0 1%nat ltac:(lia)). pose proof (A0 2%nat ltac:(lia)).
    change 100%Z with (2 + 98)%Z. rewrite bpow_plus. change (bpow radix2 2) with 4.
    assert ((1 + u32) ^ 3 <= 2) by (unfold u32; cbn; lra).
    assert ((1 + u32) ^ 3 * (A 0%nat + A 1%nat + A 2%nat) <= 2 * (A 0%nat + A 1%nat + A 2%nat)) by (apply Rmult_le_compat_r; lra). lra.
  - rewrite !T in S, D. rewrite L in D. cbn [Nat.pred] in D. split; [exact F|]. split; [|exact S]. eapply Rle_trans; [exact D|].
    apply Rmult_le_compat_r; [pose proof (Rabs_pos (e 0%nat + e 1%nat + e 2%nat)); lra|].
    apply Rle_trans with ((k + 2.001 + 3 * u32 * k) * u32).
    + cbn [pow]. assert (0 <= k * u32) by (unfold u32; lra). unfold u32 in *. lra.
    + apply Rmult_le_compat_r; [unfold u32; lra|exact Hm].
Qed.

(** ** Ranges *)
Definition within (x : R) (a : Z) : Prop := bpow radix2 (- a) <= x <= bpow radix2 a.
Lemma within_mul x y a b : within x a -> within y b -> within (x * y) (a + b).
Proof.
  intros [X1 X2] [Y1 Y2]. pose proof (bpow_ge_0 radix2 (- a)). pose proof (bpow_ge_0 radix2 (- b)). split.
  - replace (- (a + b))%Z with (- a + - b)%Z by lia. rewrite bpow_plus. apply Rmult_le_compat; assumption.
  - rewrite bpow_plus. apply Rmult_le_compat; lra.
Qed.
Lemma within_inv x a : within x a -> within (/ x) a.
Proof.
  intros [X1 X2]. pose proof (bpow_gt_0 radix2 (- a)). split.
  - rewrite bpow_opp. apply Rinv_le_contravar; lra.
  - rewrite <- (Rinv_inv (bpow radix2 a)), <- bpow_opp. apply Rinv_le_contravar; lra.
Qed.
Lemma within_more x a b : (a <= b)%Z -> within x a -> within x b.
Proof.
  intros H [X1 X2]. split; [eapply Rle_trans; [|exact X1]|eapply Rle_trans; [exact X2|]]; apply bpow_le; lia.
Qed.
Lemma within_pos x a : within x a -> 0 < x.
Proof. intros [X _]. pose proof (bpow_gt_0 radix2 (- a)). lra. Qed.

(** ** The inverse of a 3 x 3 matrix *)
Section Pose.
Variables (M : nat -> nat -> f32) (s : nat -> R) (delta : R).
Notation m i j := (B2R (M i j)).
Hypothesis M_finite : forall i j, (i < 3)%nat -> (j < 3)%nat -> is_finite (M i j) = true.
Hypothesis M_size : forall i j, (i < 3)%nat -> (j < 3)%nat -> Rabs (m i j) <= s i * s j.
Hypothesis s_range : forall i, (i < 3)%nat -> within (s i) 10.
Definition co (i : nat) : R := s ((i + 1) mod 3) * s ((i + 2) mod 3).
Definition cof (i j : nat) : R :=
  m ((i + 1) mod 3) ((j + 1) mod 3) * m ((i + 2) mod 3) ((j + 2) mod 3) - m ((i + 1) mod 3) ((j + 2) mod 3) * m ((i + 2) mod 3) ((j + 1) mod 3).
Definition volume : R := s 0%nat * s 1%nat * s 2%nat.
Definition det : R := cof 0 0 * m 0 0 + cof 1 0 * m 1 0 + cof 2 0 * m 2 0.
Hypothesis delta_range : / 64 <= delta <= 1.
Hypothesis det_large : delta * (volume * volume) <= det.
Lemma mod3 i : (i mod 3 < 3)%nat. Proof. apply Nat.mod_upper_bound. discriminate. Qed.
Lemma co_s i : (i < 3)%nat -> co i * s i = volume.
Proof. intros H. unfold co, volume. destruct i as [|[|[|]]]; [| | |lia]; cbn; ring. Qed.
Lemma co_range i : within (co i) 20.
Proof. apply (within_mul _ _ 10 10); apply s_range, mod3. Qed.
Lemma volume_range : within volume 30.
Proof. apply (within_mul _ _ 20 10); [apply (within_mul _ _ 10 10)|]; apply s_range; lia. Qed.
Lemma s_pos i : (i < 3)%nat -> 0 < s i.
Proof. intros H. exact (within_pos _ _ (s_range i H)). Qed.
Lemma entry_near i j : (i < 3)%nat -> (j < 3)%nat -> near (M i j) (m i j) (s i * s j) 0.
Proof. intros Hi Hj. apply near_exact; [now apply M_finite|now apply M_size]. Qed.
Lemma cofactor_near i j : near (cofactor32 M i j) (cof i j) (2 * (co i * co j)) 2.01.
Proof.
  unfold cofactor32, cof, co. cbv zeta.
  set (i1 := ((i + 1) mod 3)%nat). set (i2 := ((i + 2) mod 3)%nat). set (j1 := ((j + 1) mod 3)%nat). set (j2 := ((j + 2) mod 3)%nat).
  assert (Hi1 : (i1 < 3)%nat) by apply mod3. assert (Hi2 : (i2 < 3)%nat) by apply mod3.
  assert (Hj1 : (j1 < 3)%nat) by apply mod3. assert (Hj2 : (j2 < 3)%nat) by apply mod3.
  assert (W : within (s i1 * s i2 * (s j1 * s j2)) 40).
  { apply (within_mul _ _ 20 20); apply (within_mul _ _ 10 10); now apply s_range. }
  set (P := s i1 * s i2 * (s j1 * s j2)) in *.
  assert (W2 : bpow radix2 (-100) <= P <= bpow radix2 100) by (apply (within_more P 40 100); [lia|exact W]).
  replace (2 * P) with (P + P) by ring.
  apply near_sub with (k := 1.002); [| |lra| |unfold u32; lra].
  - replace P with (s i1 * s j1 * (s i2 * s j2)) by (unfold P; ring).
    apply near_mul with (k := 0) (l := 0); [now apply entry_near|now apply entry_near|lra|lra| |unfold u32; lra].
    replace (s i1 * s j1 * (s i2 * s j2)) with P by (unfold P; ring). exact W2.
  - replace P with (s i1 * s j2 * (s i2 * s j1)) by (unfold P; ring).
    apply near_mul with (k := 0) (l := 0); [now apply entry_near|now apply entry_near|lra|lra| |unfold u32; lra].
    replace (s i1 * s j2 * (s i2 * s j1)) with P by (unfold P; ring). exact W2.
  - apply Rle_trans with (bpow radix2 41); [|apply bpow_le; lia]. destruct W as [_ W]. change 41%Z with (1 + 40)%Z. rewrite bpow_plus. change (bpow radix2 1) with 2. lra.
Qed.
Lemma square_range : within (volume * volume) 60.
Proof. apply (within_mul _ _ 30 30); apply volume_range. Qed.
Lemma det_near t : order_of 3 t -> near (det3_32 t M) det (6 * (volume * volume)) 5.02.
Proof.
  intros O. unfold det3_32, det. set (D := volume * volume). pose proof square_range as W. fold D in W. pose proof (within_pos _ _ W) as D0.
  replace (6 * D) with (2 * D + 2 * D + 2 * D) by ring.
  apply (near_sum3 t _ (fun k => cof k 0 * m k 0) (fun _ => 2 * D) 3.012); [exact O|lra| | |unfold u32; lra].
  - intros k Hk. replace (2 * D) with (2 * (co k * co 0) * (s k * s 0%nat)).
    2:{ unfold D. replace (2 * (co k * co 0) * (s k * s 0%nat)) with (2 * ((co k * s k) * (co 0 * s 0%nat))) by ring. rewrite !co_s by lia. reflexivity. }
    apply near_mul with (k := 2.01) (l := 0); [apply cofactor_near|apply entry_near; lia|lra|lra| |unfold u32; lra].
    replace (2 * (co k * co 0) * (s k * s 0%nat)) with (2 * ((co k * s k) * (co 0 * s 0%nat))) by ring. rewrite !co_s by lia. fold D.
    destruct W as [W1 W2]. split.
    + apply Rle_trans with (bpow radix2 (- (60))); [apply bpow_le; lia|]. lra.
    + apply Rle_trans with (bpow radix2 61); [|apply bpow_le; lia]. change 61%Z with (1 + 60)%Z. rewrite bpow_plus. change (bpow radix2 1) with 2. lra.
  - destruct W as [_ W]. apply Rle_trans with (bpow radix2 63); [|apply bpow_le; lia]. change 63%Z with (3 + 60)%Z. rewrite bpow_plus. change (bpow radix2 3) with 8. lra.
Qed.
Lemma det_pos : 0 < det.
Proof. pose proof (within_pos _ _ square_range). assert (0 < delta * (volume * volume)) by (apply Rmult_lt_0_compat; lra). lra. Qed.
Lemma kappa_range : 1 <= / delta <= 64.
Proof.
  split.
  - rewrite <- Rinv_1. apply Rinv_le_contravar; lra.
  - replace 64 with (/ / 64) by field. apply Rinv_le_contravar; lra.
Qed.
Lemma reciprocal_near t : order_of 3 t ->
  near (f32_div (f32_of_Z 1) (det3_32 t M)) (/ det) (/ delta * / (volume * volume)) (31.3 * / delta).
Proof.
  intros O. destruct (det_near t O) as (F & E & B). set (D := volume * volume) in *. pose proof square_range as W. fold D in W.
  pose proof (within_pos _ _ W) as D0. pose proof det_pos as P. pose proof kappa_range as K. set (k := / delta) in *.
  fold D in det_large. set (v := B2R (det3_32 t M)) in *.
  assert (KD : D <= k * det).
  { unfold k. apply Rmult_le_reg_l with delta; [lra|]. replace (delta * (/ delta * det)) with det by (field; lra). exact det_large. }
  set (eta := (v - det) / det). assert (Ev : v = det * (1 + eta)) by (unfold eta; field; lra).
  assert (He : Rabs eta <= 30.12 * u32 * k).
  { unfold eta, Rdiv. rewrite Rabs_mult, Rabs_inv, (Rabs_pos_eq det) by lra.
    apply Rmult_le_reg_r with det; [exact P|]. rewrite Rmult_assoc, Rinv_l, Rmult_1_r by lra.
    eapply Rle_trans; [exact E|]. assert (u32 * D <= u32 * (k * det)) by (apply Rmult_le_compat_l; [unfold u32; lra|exact KD]). lra. }
  assert (Hs : Rabs eta <= 0.00012) by (unfold u32 in He; lra). apply Rabs_le_inv in Hs.
  assert (V0 : 0 < v) by (rewrite Ev; apply Rmult_lt_0_compat; lra).
  assert (B' : det <= 6 * D) by (rewrite Rabs_pos_eq in B; lra).
  assert (Vb : v <= 7 * D) by (rewrite Ev; nra).
  assert (Vs : bpow radix2 (-67) <= v).
  { apply Rle_trans with (/ 128 * D).
    - change (-67)%Z with (-7 + - (60))%Z. rewrite bpow_plus. change (bpow radix2 (-7)) with (/ 128). apply Rmult_le_compat_l; [lra|]. apply W.
    - rewrite Ev. assert (/ 64 * D <= delta * D) by (apply Rmult_le_compat_r; lra). nra. }
  destruct (int32_value 1 ltac:(lia)) as [E1 F1].
  destruct (div32_value (f32_of_Z 1) (det3_32 t M) 67) as [Eq Fq]; [lia|exact F1|fold v; lra| |].
  { rewrite E1. fold v. unfold Rdiv. rewrite Rmult_1_l, Rabs_inv, Rabs_pos_eq by lra.
    change 67%Z with (- (-67))%Z. rewrite bpow_opp. apply Rinv_le_contravar; [apply bpow_gt_0|exact Vs]. }
  rewrite E1 in Eq. fold v in Eq. unfold Rdiv in Eq. rewrite Rmult_1_l in Eq.
  destruct (rnd32_big (/ v)) as (d & Hd & Er).
  { rewrite Rabs_pos_eq by (apply Rlt_le, Rinv_0_lt_compat, V0). change (-126)%Z with (- (126))%Z. rewrite bpow_opp.
    apply Rinv_le_contravar; [exact V0|]. apply Rle_trans with (bpow radix2 63); [|apply bpow_le; lia].
    destruct W as [_ W]. change 63%Z with (3 + 60)%Z. rewrite bpow_plus. change (bpow radix2 3) with 8. lra. }
  split; [exact Fq|]. split.
  - rewrite Eq, Er.
    assert (Id : 0 < / det) by now apply Rinv_0_lt_compat.
    set (w := / (1 + eta)).
    assert (w1 : w * (1 + eta) = 1) by (unfold w; apply Rinv_l; lra).
    assert (wb : 0 < w <= 1.0002) by (split; [unfold w; apply Rinv_0_lt_compat; lra|nra]).
    assert (Iv : / v = / det * w) by (rewrite Ev; unfold w; field; split; lra).
    rewrite Iv. replace (/ det * w * (1 + d) - / det) with (/ det * (w * d - w * eta)) by (replace (w * eta) with (1 - w) by lra; ring).
    assert (Hw : Rabs (w * d - w * eta) <= 31.3 * k * u32).
    { unfold Rminus. eapply Rle_trans; [apply Rabs_triang|]. rewrite Rabs_Ropp, !Rabs_mult, (Rabs_pos_eq w) by lra.
      assert (w * Rabs d <= 1.0002 * u32) by (apply Rmult_le_compat; try apply Rabs_pos; lra).
      assert (w * Rabs eta <= 1.0002 * (30.12 * u32 * k)) by (apply Rmult_le_compat; try apply Rabs_pos; lra).
      assert (u32 <= u32 * k) by (unfold u32; lra). assert (0 < u32) by (unfold u32; lra). lra. }
    rewrite Rabs_mult, (Rabs_pos_eq (/ det)) by lra. rewrite Rmult_comm. apply Rmult_le_compat; [apply Rabs_pos|lra|exact Hw|].
    replace (k * / D) with (/ (delta * D)) by (unfold k; field; split; lra). apply Rinv_le_contravar; [apply Rmult_lt_0_compat; lra|exact det_large].
  - rewrite Rabs_pos_eq by (apply Rlt_le, Rinv_0_lt_compat, P).
    replace (k * / D) with (/ (delta * D)) by (unfold k; field; split; lra). apply Rinv_le_contravar; [apply Rmult_lt_0_compat; lra|exact det_large].
Qed.
Definition inv (i j : nat) : R := cof j i * / det.
Lemma inverse_near t i j : order_of 3 t -> (i < 3)%nat -> (j < 3)%nat ->
  near (inverse3_32 t M i j) (inv i j) (2 * / delta * / (s i * s j)) (34.4 * / delta).
Proof.
  intros O Hi Hj. pose proof kappa_range as K. unfold inverse3_32, inv.
  pose proof (s_pos i Hi). pose proof (s_pos j Hj). pose proof (within_pos _ _ volume_range) as V.
  assert (Es : 2 * / delta * / (s i * s j) = 2 * (co j * co i) * (/ delta * / (volume * volume))).
  { rewrite <- (co_s i Hi) at 1. rewrite <- (co_s j Hj). pose proof (within_pos _ _ (co_range i)). pose proof (within_pos _ _ (co_range j)).
    field. repeat split; lra. }
  rewrite Es. apply near_mul with (k := 2.01) (l := 31.3 * / delta).
  - apply cofactor_near.
  - now apply reciprocal_near.
  - lra.
  - lra.
  - rewrite <- Es. assert (W : within (/ (s i * s j)) 20) by (apply within_inv, (within_mul _ _ 10 10); now apply s_range).
    pose proof (within_pos _ _ W). destruct W as [W1 W2]. split.
    + apply Rle_trans with (bpow radix2 (- (20))); [apply bpow_le; lia|]. nra.
    + apply Rle_trans with (bpow radix2 27); [|apply bpow_le; lia]. change 27%Z with (7 + 20)%Z. rewrite bpow_plus. change (bpow radix2 7) with 128.
      apply Rmult_le_compat; lra.
  - unfold u32. lra.
Qed.

(** ** The quadratic form *)
Variable d : nat -> f32.
Hypothesis d_finite : forall i, (i < 3)%nat -> is_finite (d i) = true /\ Rabs (B2R (d i)) <= bpow radix2 21.
Hypothesis d_large : exists i, (i < 3)%nat /\ bpow radix2 (-20) <= Rabs (B2R (d i)).
Definition a (i : nat) : R := Rabs (B2R (d i)) + bpow radix2 (-52).
Definition Z1 : R := a 0%nat * / s 0%nat + a 1%nat * / s 1%nat + a 2%nat * / s 2%nat.
Definition row (j : nat) : R := B2R (d 0%nat) * inv 0 j + B2R (d 1%nat) * inv 1 j + B2R (d 2%nat) * inv 2 j.
Definition form : R := row 0 * B2R (d 0%nat) + row 1 * B2R (d 1%nat) + row 2 * B2R (d 2%nat).
Lemma a_range i : (i < 3)%nat -> bpow radix2 (-52) <= a i <= bpow radix2 22.
Proof.
  intros Hi. unfold a. destruct (d_finite i Hi) as [_ B]. pose proof (Rabs_pos (B2R (d i))). split; [lra|].
  assert (bpow radix2 (-52) <= bpow radix2 21) by (apply bpow_le; lia). change 22%Z with (1 + 21)%Z. rewrite bpow_plus. change (bpow radix2 1) with 2. lra.
Qed.
Lemma d_near i : (i < 3)%nat -> near (d i) (B2R (d i)) (a i) 0.
Proof. intros Hi. apply near_exact; [now apply d_finite|]. unfold a. pose proof (bpow_ge_0 radix2 (-52)). lra. Qed.
Lemma ratio_range i : (i < 3)%nat -> bpow radix2 (-62) <= a i * / s i <= bpow radix2 32.
Proof.
  intros Hi. destruct (a_range i Hi) as [A1 A2]. destruct (within_inv _ _ (s_range i Hi)) as [S1 S2].
  pose proof (bpow_ge_0 radix2 (-52)). pose proof (bpow_ge_0 radix2 (- (10))). split.
  - change (-62)%Z with (-52 + - (10))%Z. rewrite bpow_plus. apply Rmult_le_compat; lra.
  - change 32%Z with (22 + 10)%Z. rewrite bpow_plus. apply Rmult_le_compat; lra.
Qed.
Lemma Z1_range : bpow radix2 (-30) <= Z1 <= bpow radix2 34.
Proof.
  pose proof (ratio_range 0 ltac:(lia)) as R0. pose proof (ratio_range 1 ltac:(lia)) as R1. pose proof (ratio_range 2 ltac:(lia)) as R2.
  pose proof (bpow_ge_0 radix2 (-62)). unfold Z1. split.
  - destruct d_large as (i & Hi & L).
    assert (G : bpow radix2 (-30) <= a i * / s i).
    { destruct (within_inv _ _ (s_range i Hi)) as [S1 S2]. change (-30)%Z with (-20 + - (10))%Z. rewrite bpow_plus.
      apply Rmult_le_compat; try apply bpow_ge_0; [|exact S1]. unfold a. pose proof (bpow_ge_0 radix2 (-52)). lra. }
    destruct i as [|[|[|]]]; [| | |lia]; lra.
  - change 34%Z with (2 + 32)%Z. rewrite bpow_plus. change (bpow radix2 2) with 4. lra.
Qed.
Lemma row_near t t' j : order_of 3 t -> order_of 3 t' -> (j < 3)%nat ->
  near (sum32 t' (fun i => f32_mul (d i) (inverse3_32 t M i j))) (row j) (2 * / delta * / s j * Z1) (37.6 * / delta).
Proof.
  intros O O' Hj. pose proof kappa_range as K. pose proof (s_pos 0 ltac:(lia)). pose proof (s_pos 1 ltac:(lia)). pose proof (s_pos 2 ltac:(lia)).
  pose proof (s_pos j Hj).
  replace (2 * / delta * / s j * Z1) with (a 0%nat * (2 * / delta * / (s 0%nat * s j)) + a 1%nat * (2 * / delta * / (s 1%nat * s j)) + a 2%nat * (2 * / delta * / (s 2%nat * s j)))
    by (unfold Z1; field; repeat split; lra).
  assert (R : forall i, (i < 3)%nat -> bpow radix2 (-72) <= a i * (2 * / delta * / (s i * s j)) <= bpow radix2 49).
  { intros i Hi. replace (a i * (2 * / delta * / (s i * s j))) with (a i * / s i * / s j * (2 * / delta)) by (pose proof (s_pos i Hi); field; repeat split; lra).
    destruct (ratio_range i Hi) as [R1 R2]. destruct (within_inv _ _ (s_range j Hj)) as [S1 S2].
    pose proof (bpow_gt_0 radix2 (-62)). pose proof (bpow_gt_0 radix2 (- (10))).
    assert (P1 : bpow radix2 (-72) <= a i * / s i * / s j).
    { change (-72)%Z with (-62 + - (10))%Z. rewrite bpow_plus. apply Rmult_le_compat; lra. }
    assert (P2 : a i * / s i * / s j <= bpow radix2 42).
    { change 42%Z with (32 + 10)%Z. rewrite bpow_plus. apply Rmult_le_compat; lra. }
    pose proof (bpow_gt_0 radix2 (-72)). split; [nra|]. change 49%Z with (42 + 7)%Z. rewrite bpow_plus. change (bpow radix2 7) with 128.
    apply Rmult_le_compat; lra. }
  apply (near_sum3 t' _ (fun i => B2R (d i) * inv i j) (fun i => a i * (2 * / delta * / (s i * s j))) (35.5 * / delta)); [exact O'|lra| | |unfold u32; lra].
  - intros i Hi. apply near_mul with (k := 0) (l := 34.4 * / delta); [now apply d_near|now apply inverse_near|lra|lra| |unfold u32; lra].
    destruct (R i Hi) as [R1 R2]. split; [eapply Rle_trans; [|exact R1]|eapply Rle_trans; [exact R2|]]; apply bpow_le; lia.
  - pose proof (R 0%nat ltac:(lia)). pose proof (R 1%nat ltac:(lia)). pose proof (R 2%nat ltac:(lia)).
    cbv beta. pose proof (bpow_ge_0 radix2 49).
    apply Rle_trans with (bpow radix2 51); [|apply bpow_le; lia]. change 51%Z with (2 + 49)%Z. rewrite bpow_plus. change (bpow radix2 2) with 4. lra.
Qed.
Lemma form_near t t' t'' : order_of 3 t -> (forall j, (j < 3)%nat -> order_of 3 (t' j)) -> order_of 3 t'' ->
  near (sum32 t'' (fun j => f32_mul (sum32 (t' j) (fun i => f32_mul (d i) (inverse3_32 t M i j))) (d j))) form (2 * / delta * (Z1 * Z1)) (40.8 * / delta).
Proof.
  intros O O' O''. pose proof kappa_range as K. pose proof Z1_range as [Y1 Y2].
  pose proof (s_pos 0 ltac:(lia)). pose proof (s_pos 1 ltac:(lia)). pose proof (s_pos 2 ltac:(lia)).
  replace (2 * / delta * (Z1 * Z1)) with (2 * / delta * / s 0%nat * Z1 * a 0%nat + 2 * / delta * / s 1%nat * Z1 * a 1%nat + 2 * / delta * / s 2%nat * Z1 * a 2%nat)
    by (unfold Z1; field; repeat split; lra).
  assert (R : forall j, (j < 3)%nat -> bpow radix2 (-92) <= 2 * / delta * / s j * Z1 * a j <= bpow radix2 73).
  { intros j Hj. replace (2 * / delta * / s j * Z1 * a j) with (Z1 * (a j * / s j) * (2 * / delta)) by ring.
    destruct (ratio_range j Hj) as [R1 R2]. pose proof (bpow_gt_0 radix2 (-62)). pose proof (bpow_gt_0 radix2 (-30)).
    assert (P1 : bpow radix2 (-92) <= Z1 * (a j * / s j)).
    { change (-92)%Z with (-30 + -62)%Z. rewrite bpow_plus. apply Rmult_le_compat; lra. }
    assert (P2 : Z1 * (a j * / s j) <= bpow radix2 66).
    { change 66%Z with (34 + 32)%Z. rewrite bpow_plus. apply Rmult_le_compat; lra. }
    pose proof (bpow_gt_0 radix2 (-92)). split; [nra|]. change 73%Z with (66 + 7)%Z. rewrite bpow_plus. change (bpow radix2 7) with 128.
    apply Rmult_le_compat; lra. }
  apply (near_sum3 t'' _ (fun j => row j * B2R (d j)) (fun j => 2 * / delta * / s j * Z1 * a j) (38.7 * / delta)); [exact O''|lra| | |unfold u32; lra].
  - intros j Hj. apply near_mul with (k := 37.6 * / delta) (l := 0); [now apply row_near; [| apply O'|]|now apply d_near|lra|lra| |unfold u32; lra].
    destruct (R j Hj) as [R1 R2]. split; [eapply Rle_trans; [|exact R1]|eapply Rle_trans; [exact R2|]]; apply bpow_le; lia.
  - pose proof (R 0%nat ltac:(lia)). pose proof (R 1%nat ltac:(lia)). pose proof (R 2%nat ltac:(lia)).
    cbv beta. pose proof (bpow_ge_0 radix2 73).
    apply Rle_trans with (bpow radix2 75); [|apply bpow_le; lia]. change 75%Z with (2 + 73)%Z. rewrite bpow_plus. change (bpow radix2 2) with 4. lra.
Qed.
End Pose.
