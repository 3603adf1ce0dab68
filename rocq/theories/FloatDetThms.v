(** What determinant() computes in single precision. *)
From Coq Require Import ZArith Reals Lra Lia List Arith Bool Permutation.
From Flocq Require Import Core IEEE754.BinarySingleNaN.
From Verif Require Import Float FloatProofs FloatDistance FloatDistanceThms FloatWeight FloatWeightThms FloatUnscented FloatUnscentedThms
  FloatLltThms FloatLu FloatLuThms FloatFusion InverseSpec FloatInverse FloatPivots NormThms.
Import ListNotations.
Open Scope R_scope.

Lemma determinant_parts n e M a t : (5 <= n <= 6)%nat -> (-9 <= e <= 11)%Z ->
  (forall i j, (i < n)%nat -> (j < n)%nat -> is_finite (M i j) = true /\ Rabs (real M i j) <= bpow radix2 e) ->
  at_least a n (real M) -> INR n * bpow radix2 (e + Z.of_nat n - 17) <= a -> order_of n t ->
  is_finite (determinant32 n t M) = true /\
  bpow radix2 ((e + Z.of_nat n - 17) * Z.of_nat n) <= Rabs (B2R (determinant32 n t M)) <= bpow radix2 ((e + Z.of_nat n) * Z.of_nat n) /\
  exists (A : nat -> nat -> R) lu ts eps,
    (forall i j, (i < n)%nat -> (j < n)%nat -> Rabs (A i j - real M i j) <= bpow radix2 (e + Z.of_nat n - 22)) /\
    (forall i j, (i < n)%nat -> (j < n)%nat -> permute_rows ts A i j = total (fun l => lower lu i l * upper lu l j) (seq 0 n)) /\
    (forall a b, In (a, b) ts -> (a < n)%nat /\ (b < n)%nat) /\
    Rabs eps <= 5.1 * u32 /\
    B2R (determinant32 n t M) = signs ts * rprod (map (fun l => upper lu l l) (seq 0 n)) * (1 + eps).
Proof.
  intros Hn He FM Hd Hc O.
  destruct (decomposition n e M ltac:(lia) ltac:(lia)) as (sigma & D).
  { intros i j Hi Hj. rewrite Z.add_0_r. now apply FM. }
  cbv zeta in D. destruct D as ((R1 & R2) & Pm & Df & Dl & Du & De).
  set (lu := fst (partial_lu32 n M)) in *. set (ts := snd (partial_lu32 n M)) in *.
  assert (Piv : forall r, (r < n)%nat -> bpow radix2 (e + Z.of_nat n - 17) <= Rabs (upper lu r r)).
  { intros r Hr. apply (pivots n e M a) with (sigma := sigma); try assumption; lia. }
  assert (Up : forall l, upper lu l l = B2R (lu l l)) by (intros l; unfold upper; now rewrite Nat.leb_refl).
  destruct (prod_signed t (fun i => lu i i) (e + Z.of_nat n - 17) (e + Z.of_nat n)) as (Fp & Bp & eps & Hp & Ep).
  { lia. } { lia. } { rewrite (Permutation_length O), seq_length. lia. }
  { intros i Hi. assert (Hi' : (i < n)%nat) by (apply (Permutation_in _ O), in_seq in Hi; lia).
    split; [now apply Df|]. rewrite <- Up. split; [now apply Piv|]. eapply Rle_trans; [now apply Du|]. apply bpow_le. lia. }
  rewrite (Permutation_length O), seq_length in Bp, Hp.
  assert (Ed : determinant32 n t M = f32_mul (f32_of_Z (exchange_sign ts)) (prod32 t (fun i => lu i i))).
  { unfold determinant32, lu, ts. destruct (partial_lu32 n M). reflexivity. }
  destruct (int32_value (exchange_sign ts)) as [Es Fs]; [destruct (exchange_sign_unit ts) as [-> | ->]; reflexivity|].
  assert (As : Rabs (IZR (exchange_sign ts)) = 1) by (destruct (exchange_sign_unit ts) as [-> | ->]; [now rewrite Rabs_R1|rewrite Rabs_left; lra]).
  destruct (mul32_value (f32_of_Z (exchange_sign ts)) (prod32 t (fun i => lu i i)) 126 ltac:(lia) Fs Fp) as [Em Fm].
  { rewrite Es, Rabs_mult, As, Rmult_1_l. eapply Rle_trans; [apply Bp|]. apply bpow_le. nia. }
  assert (Id : rnd32 (IZR (exchange_sign ts) * B2R (prod32 t (fun i => lu i i))) = IZR (exchange_sign ts) * B2R (prod32 t (fun i => lu i i))).
  { apply rnd32_id. destruct (exchange_sign_unit ts) as [-> | ->]; [rewrite Rmult_1_l; apply fmtB|].
    replace (-1 * B2R (prod32 t (fun i => lu i i))) with (- B2R (prod32 t (fun i => lu i i))) by ring. apply generic_format_opp, fmtB. }
  rewrite Es, Id in Em.
  rewrite Ed. split; [exact Fm|]. split; [rewrite Em, Rabs_mult, As, Rmult_1_l; exact Bp|].
  exists (fun i j => permute_rows (rev ts) (fun i j => total (fun l => lower lu i l * upper lu l j) (seq 0 n)) i j), lu, ts, eps.
  assert (PB : forall i j, permute_rows ts (fun i j => permute_rows (rev ts) (fun i j => total (fun l => lower lu i l * upper lu l j) (seq 0 n)) i j) i j =
    total (fun l => lower lu i l * upper lu l j) (seq 0 n)) by (intros i j; exact (permute_back ts _ i j)).
  split; [|split; [|split; [|split]]].
  - intros i j Hi Hj. destruct (R2 i Hi) as (r & Hr & <-).
    rewrite <- (Pm _ (fun i j => permute_rows (rev ts) (fun i j => total (fun l => lower lu i l * upper lu l j) (seq 0 n)) i j) r j), PB.
    rewrite Rabs_minus_sym. eapply Rle_trans; [now apply De|].
    apply Rle_trans with (4.02 * u32 * bpow radix2 (e + Z.of_nat n - 1)); [apply Rmult_le_compat_l; [unfold u32; lra|apply bpow_le; lia]|].
    replace (e + Z.of_nat n - 22)%Z with (-21 + (e + Z.of_nat n - 1))%Z by lia. rewrite (bpow_plus radix2 (-21)). apply Rmult_le_compat_r; [apply bpow_ge_0|].
    change (bpow radix2 (-21)) with (/ 2097152). unfold u32. lra.
  - intros i j _ _. apply PB.
  - intros b c Hbc. exact (exchanged_rows n M b c Hbc).
  - eapply Rle_trans; [exact Hp|]. apply Rle_trans with ((1 + u32) ^ 5 - 1); [|unfold u32; lra].
    assert ((1 + u32) ^ (n - 1) <= (1 + u32) ^ 5) by (apply pow_grow; lia). lra.
  - rewrite Em, Ep, exchange_sign_value, (rprod_perm _ _ (Permutation_map _ O)).
    replace (map (fun l => upper lu l l) (seq 0 n)) with (map (fun i => B2R (lu i i)) (seq 0 n)) by (apply map_ext; intros; now rewrite Up). ring.
Qed.

Lemma sub_exact (x y : f32) : is_finite (f32_sub x y) = true ->
  is_finite x = true /\ is_finite y = true /\ B2R (f32_sub x y) = rnd32 (B2R x - B2R y).
Proof.
  intros F.
  assert (Fxy : is_finite x = true /\ is_finite y = true).
  { revert F. unfold f32_sub. destruct x as [s|s| |s m e Hb], y as [s'|s'| |s' m' e' Hb']; cbn; try discriminate; auto.
    destruct (Bool.eqb s (negb s')); discriminate. }
  destruct Fxy as [Fx Fy]. split; [exact Fx|]. split; [exact Fy|].
  pose proof (Bminus_correct 24 128 _ _ mode_NE x y Fx Fy) as C.
  destruct (Rlt_bool _ _); [apply C|].
  exfalso. unfold f32_sub in F. rewrite <- is_finite_SF_B2SF in F. destruct C as [C _]. rewrite C in F.
  destruct (Bsign x); discriminate.
Qed.

(** The weight from determinants with relative errors *)
Lemma weight_of_determinants (d1 d2 s : f32) D1 D2 S e1 e2 e3 :
  let w := f32_div (f32_add (f32_sub s d2) d1) (f32_mul (f32_of_Z 2) s) in
  is_finite s = true -> is_finite (f32_mul (f32_of_Z 2) s) = true -> is_finite w = true -> S <> 0 ->
  Rabs e1 <= 5.1 * u32 -> Rabs e2 <= 5.1 * u32 -> Rabs e3 <= 5.1 * u32 ->
  B2R d1 = D1 * (1 + e1) -> B2R d2 = D2 * (1 + e2) -> B2R s = S * (1 + e3) ->
  Rabs (B2R w - (S - D2 + D1) / (2 * S)) <= 7 * u32 * ((Rabs S + Rabs D1 + Rabs D2) / Rabs S).
Proof.
  intros w Fs Fden Fw S0 H1 H2 H3 E1 E2 E3. assert (U : 0 < u32 < / 10000000) by (unfold u32; lra).
  destruct (mul_exact _ _ Fden) as (_ & _ & Ed). destruct f32_2 as [E22 _].
  assert (Id : rnd32 (2 * B2R s) = 2 * B2R s) by (apply rnd32_id, double_fmt, fmtB).
  rewrite E22, Id in Ed.
  apply Rabs_le_inv in H1, H2, H3.
  assert (s0 : B2R (f32_mul (f32_of_Z 2) s) <> 0).
  { rewrite Ed, E3. apply Rmult_integral_contrapositive. split; [lra|]. apply Rmult_integral_contrapositive. split; [exact S0|lra]. }
  destruct (div_exact _ _ Fden s0 Fw) as [Ft2 Ew]. fold w in Ew.
  destruct (add_exact _ _ Ft2) as (Ft1 & _ & Et2). destruct (sub_exact _ _ Ft1) as (_ & _ & Et1).
  set (t2 := B2R (f32_add (f32_sub s d2) d1)) in *. set (t1 := B2R (f32_sub s d2)) in *.
  destruct (rnd32_add (B2R s) (- B2R d2)) as (g1 & G1 & R1); [apply fmtB|apply generic_format_opp, fmtB|].
  change (B2R s - B2R d2) with (B2R s + - B2R d2) in Et1. rewrite R1 in Et1.
  destruct (rnd32_add t1 (B2R d1)) as (g2 & G2 & R2); [apply fmtB|apply fmtB|]. rewrite R2 in Et2.
  destruct (rnd32_rel (t2 / B2R (f32_mul (f32_of_Z 2) s))) as (g3 & eta & G3 & Ht & R3). rewrite R3 in Ew. rewrite Ew, Ed, E3. clear Ew R1 R2 R3 Ed s0 Id.
  pose proof (Rabs_pos_lt _ S0) as SP. pose proof (Rabs_pos D1) as P1. pose proof (Rabs_pos D2) as P2.
  apply Rabs_le_inv in G1, G2.
  set (A := Rabs S) in *. set (B := Rabs D1) in *. set (C := Rabs D2) in *. set (T := A + B + C).
  assert (Prod : forall x z c X, Rabs x <= X -> - c <= z <= c -> - (X * c) <= x * z <= X * c).
  { intros x z c X Hx Hz. apply Rabs_le_inv. rewrite Rabs_mult. apply Rmult_le_compat; try apply Rabs_pos; [exact Hx|]. apply Rabs_le. lra. }
  pose proof (Prod S e3 _ A (Rle_refl _) H3) as K3. pose proof (Prod D2 e2 _ C (Rle_refl _) H2) as K2. pose proof (Prod D1 e1 _ B (Rle_refl _) H1) as K1.
  assert (AU : 0 <= A * u32 <= A * / 10000000) by (split; [apply Rmult_le_pos; lra|apply Rmult_le_compat_l; lra]).
  assert (BU : 0 <= B * u32 <= B * / 10000000) by (split; [apply Rmult_le_pos; lra|apply Rmult_le_compat_l; lra]).
  assert (CU : 0 <= C * u32 <= C * / 10000000) by (split; [apply Rmult_le_pos; lra|apply Rmult_le_compat_l; lra]).
  assert (AS : - A <= S <= A) by (apply Rabs_le_inv; apply Rle_refl).
  assert (BS : - B <= D1 <= B) by (apply Rabs_le_inv; apply Rle_refl).
  assert (CS : - C <= D2 <= C) by (apply Rabs_le_inv; apply Rle_refl).
  assert (L1 : - ((1.001 * (A + C)) * u32) <= (B2R s + - B2R d2) * g1 <= (1.001 * (A + C)) * u32).
  { apply Prod; [|exact G1]. apply Rabs_le. rewrite E3, E2. lra. }
  assert (M1 : - (6.11 * (A * u32 + C * u32)) <= t1 - (S - D2) <= 6.11 * (A * u32 + C * u32)).
  { rewrite Et1. rewrite E3, E2 in *. lra. }
  assert (L2 : - ((1.001 * T) * u32) <= (t1 + B2R d1) * g2 <= (1.001 * T) * u32).
  { apply Prod; [|exact G2]. apply Rabs_le. rewrite E1. unfold T. lra. }
  assert (M2 : - (7.2 * (T * u32)) <= t2 - (S - D2 + D1) <= 7.2 * (T * u32)).
  { rewrite Et2. rewrite E1 in *. unfold T in *. lra. }
  set (N := S - D2 + D1) in *. assert (T0 : A <= T) by (unfold T; lra). assert (TU : 0 <= T * u32) by (apply Rmult_le_pos; lra).
  assert (NT : Rabs N <= T) by (unfold N, T; apply Rabs_le; lra).
  set (f := 1 + e3) in *. assert (f0 : 0.999 <= f <= 1.001) by (unfold f; lra).
  set (q := t2 / (2 * (S * f))).
  assert (Q1 : q - N / (2 * S) = ((t2 - N) - N * e3) / f * / (2 * S)).
  { unfold q, f. field. split; lra. }
  pose proof (Prod N e3 _ T NT H3) as KN.
  assert (Q2 : Rabs (((t2 - N) - N * e3) / f) <= 12.4 * (T * u32)).
  { unfold Rdiv. rewrite Rabs_mult, (Rabs_pos_eq (/ f)) by (apply Rlt_le, Rinv_0_lt_compat; lra).
    apply Rmult_le_reg_r with f; [lra|]. rewrite Rmult_assoc, Rinv_l, Rmult_1_r by lra.
    apply Rle_trans with (12.3 * (T * u32)); [apply Rabs_le; lra|].
    assert (12.4 * (T * u32) * 0.999 <= 12.4 * (T * u32) * f) by (apply Rmult_le_compat_l; lra). lra. }
  assert (IS : Rabs (/ (2 * S)) = / 2 * / A).
  { rewrite Rabs_inv, Rabs_mult, (Rabs_pos_eq 2) by lra. fold A. now rewrite Rinv_mult. }
  assert (IA : 0 < / A) by now apply Rinv_0_lt_compat.
  set (Z := T / A). assert (Z1 : 1 <= Z). { unfold Z, Rdiv. rewrite <- (Rinv_r A) by lra. apply Rmult_le_compat_r; lra. }
  assert (ZU : 0 <= Z * u32) by (apply Rmult_le_pos; lra).
  assert (Q3 : Rabs (q - N / (2 * S)) <= 6.2 * (Z * u32)).
  { rewrite Q1, Rabs_mult, IS. apply Rle_trans with (12.4 * (T * u32) * (/ 2 * / A)); [apply Rmult_le_compat_r; lra|].
    unfold Z, Rdiv. apply Req_le. lra. }
  assert (Q4 : Rabs (N / (2 * S)) <= Z / 2).
  { unfold Rdiv at 1. rewrite Rabs_mult, IS. apply Rle_trans with (T * (/ 2 * / A)); [apply Rmult_le_compat_r; lra|]. unfold Z, Rdiv. apply Req_le. ring. }
  assert (Q5 : Rabs q <= 0.6 * Z).
  { pose proof (Rabs_triang_inv q (N / (2 * S))). assert (Z * u32 <= Z * / 10000000) by (apply Rmult_le_compat_l; lra). lra. }
  assert (Q6 : Rabs (q * g3) <= 0.6 * Z * u32) by (rewrite Rabs_mult; apply Rmult_le_compat; try apply Rabs_pos; assumption).
  assert (Tn : Rabs eta <= 0.1 * (Z * u32)).
  { eapply Rle_trans; [exact Ht|]. apply Rle_trans with (0.1 * (1 * u32)).
    - apply Rle_trans with (bpow radix2 (-30)); [apply bpow_le; lia|]. change (bpow radix2 (-30)) with (/ 1073741824). unfold u32. lra.
    - apply Rmult_le_compat_l; [lra|]. apply Rmult_le_compat_r; lra. }
  change (t2 / (2 * (S * f))) with q. change ((A + B + C) / A) with Z.
  replace (q * (1 + g3) + eta - N / (2 * S)) with ((q - N / (2 * S)) + q * g3 + eta) by ring.
  eapply Rle_trans; [apply Rabs_triang|]. pose proof (Rabs_triang (q - N / (2 * S)) (q * g3)). lra.
Qed.

(** The determinants of two matrices and of their sum stay within the range of floats. *)
Lemma weight_finite (d1 d2 s : f32) lo hi : (-126 <= lo <= 0)%Z -> (lo <= hi <= 120)%Z -> (hi - lo <= 120)%Z ->
  is_finite d1 = true -> is_finite d2 = true -> is_finite s = true ->
  Rabs (B2R d1) <= bpow radix2 hi -> Rabs (B2R d2) <= bpow radix2 hi -> bpow radix2 lo <= Rabs (B2R s) <= bpow radix2 hi ->
  is_finite (f32_mul (f32_of_Z 2) s) = true /\
  is_finite (f32_div (f32_add (f32_sub s d2) d1) (f32_mul (f32_of_Z 2) s)) = true.
Proof.
  intros Hl Hh Hr F1 F2 Fs B1 B2 Bs. destruct f32_2 as [E22 F22].
  assert (D : forall k, bpow radix2 (k + 1) = 2 * bpow radix2 k) by (intros k; rewrite bpow_plus; change (bpow radix2 1) with 2; ring).
  assert (P := bpow_gt_0 radix2 hi).
  destruct (mul32_value (f32_of_Z 2) s (hi + 1) ltac:(lia) F22 Fs) as [Em Fm].
  { rewrite E22, Rabs_mult, (Rabs_pos_eq 2), D by lra. lra. }
  split; [exact Fm|]. rewrite E22 in Em.
  assert (Id : rnd32 (2 * B2R s) = 2 * B2R s) by (apply rnd32_id, double_fmt, fmtB). rewrite Id in Em.
  pose proof (bpow_gt_0 radix2 lo) as P0.
  assert (A1 : Rabs (B2R s - B2R d2) <= bpow radix2 (hi + 1)).
  { unfold Rminus. eapply Rle_trans; [apply Rabs_triang|]. rewrite Rabs_Ropp, D. lra. }
  destruct (sub32_value s d2 (hi + 1) ltac:(lia) Fs F2 A1) as [E1 G1].
  assert (A2 : Rabs (B2R (f32_sub s d2) + B2R d1) <= bpow radix2 (hi + 2)).
  { eapply Rle_trans; [apply Rabs_triang|]. rewrite E1. pose proof (rnd32_bound _ (hi + 1) ltac:(lia) A1) as R1.
    replace (hi + 2)%Z with (hi + 1 + 1)%Z by lia. rewrite !D in *. lra. }
  destruct (add32_value (f32_sub s d2) d1 (hi + 2) ltac:(lia) G1 F1 A2) as [E2 G2].
  pose proof (rnd32_bound _ (hi + 2) ltac:(lia) A2) as R2. rewrite <- E2 in R2.
  assert (N0 : B2R s <> 0) by (intros N; rewrite N, Rabs_R0 in Bs; lra).
  destruct (div32_value (f32_add (f32_sub s d2) d1) (f32_mul (f32_of_Z 2) s) (hi + 2 - (lo + 1)) ltac:(lia) G2) as [_ G3]; [rewrite Em; lra| |exact G3].
  rewrite Em. unfold Rdiv. rewrite Rabs_mult, Rabs_inv, Rabs_mult, (Rabs_pos_eq 2) by lra.
  unfold Z.sub. rewrite bpow_plus, bpow_opp. apply Rmult_le_compat; [apply Rabs_pos| |exact R2|].
  - left. apply Rinv_0_lt_compat. lra.
  - apply Rinv_le; [apply bpow_gt_0|]. rewrite D. lra.
Qed.

Lemma total_minus f g l : total (fun i => f i - g i) l = total f l - total g l.
Proof. induction l as [|i l IH]; cbn [total]; [ring|rewrite IH; ring]. Qed.

(** A matrix close to a positive definite one is positive definite. *)
Lemma at_least_near n a (A B : nat -> nat -> R) eps : at_least a n A -> 0 <= eps ->
  (forall i j, (i < n)%nat -> (j < n)%nat -> Rabs (B i j - A i j) <= eps) -> at_least (a - INR n * eps) n B.
Proof.
  intros HA He HB z. specialize (HA z).
  set (N := total (fun i => z i * z i) (seq 0 n)) in *. set (s := total (fun i => Rabs (z i)) (seq 0 n)).
  assert (SN : s * s <= INR n * N).
  { pose proof (norm_sum n z) as S. fold s in S. assert (s0 : 0 <= s) by (apply total_nonneg; intros; apply Rabs_pos).
    apply Rle_trans with ((sqrt (INR n) * norm n z) * (sqrt (INR n) * norm n z)); [apply Rmult_le_compat; assumption|].
    replace (sqrt (INR n) * norm n z * (sqrt (INR n) * norm n z)) with ((sqrt (INR n) * sqrt (INR n)) * (norm n z * norm n z)) by ring.
    rewrite norm_square, sqrt_sqrt by apply pos_INR. apply Rle_refl. }
  assert (D : total (fun i => z i * apply n A z i) (seq 0 n) - total (fun i => z i * apply n B z i) (seq 0 n) <= eps * (s * s)).
  { assert (K : total (fun i => z i * apply n A z i) (seq 0 n) <= total (fun i => z i * apply n B z i) (seq 0 n) + eps * (s * s)); [|lra].
    rewrite <- Rmult_assoc. replace (eps * s * s) with (total (fun i => (eps * s) * Rabs (z i)) (seq 0 n)) by apply total_scale.
    rewrite <- total_plus. apply total_le. intros i Hi. apply in_seq in Hi.
    assert (L : Rabs (apply n B z i - apply n A z i) <= eps * s).
    { unfold apply. rewrite <- total_minus. eapply Rle_trans; [apply total_abs|]. unfold s. rewrite <- total_scale. apply total_le. intros j Hj. apply in_seq in Hj.
      replace (B i j * z j - A i j * z j) with ((B i j - A i j) * z j) by ring. rewrite Rabs_mult. apply Rmult_le_compat_r; [apply Rabs_pos|]. apply HB; lia. }
    assert (Q : Rabs (z i * (apply n B z i - apply n A z i)) <= Rabs (z i) * (eps * s)) by (rewrite Rabs_mult; apply Rmult_le_compat_l; [apply Rabs_pos|exact L]).
    apply Rabs_le_inv in Q. lra. }
  assert (eps * (s * s) <= eps * (INR n * N)) by (apply Rmult_le_compat_l; assumption). lra.
Qed.

(** The sum of two matrices *)
Lemma sum_entries n e (Y1 Y2 : nat -> nat -> f32) a : (1 <= n <= 6)%nat -> (-60 <= e <= 60)%Z ->
  (forall i j, (i < n)%nat -> (j < n)%nat -> is_finite (Y1 i j) = true /\ Rabs (real Y1 i j) <= bpow radix2 e) ->
  (forall i j, (i < n)%nat -> (j < n)%nat -> is_finite (Y2 i j) = true /\ Rabs (real Y2 i j) <= bpow radix2 e) ->
  at_least a n (real Y1) -> at_least a n (real Y2) ->
  let Y := fun i j => f32_add (Y1 i j) (Y2 i j) in
  (forall i j, (i < n)%nat -> (j < n)%nat -> is_finite (Y i j) = true /\ Rabs (real Y i j) <= bpow radix2 (e + 1) /\
    Rabs (real Y i j - (real Y1 i j + real Y2 i j)) <= bpow radix2 (e - 23)) /\
  at_least (2 * a - INR n * bpow radix2 (e - 23)) n (real Y).
Proof.
  intros Hn He F1 F2 A1 A2 Y.
  assert (D : bpow radix2 (e + 1) = 2 * bpow radix2 e) by (rewrite bpow_plus; change (bpow radix2 1) with 2; ring).
  assert (K : forall i j, (i < n)%nat -> (j < n)%nat -> is_finite (Y i j) = true /\ Rabs (real Y i j) <= bpow radix2 (e + 1) /\
    Rabs (real Y i j - (real Y1 i j + real Y2 i j)) <= bpow radix2 (e - 23)).
  { intros i j Hi Hj. destruct (F1 i j Hi Hj) as [G1 B1]. destruct (F2 i j Hi Hj) as [G2 B2]. unfold real in *.
    assert (B : Rabs (B2R (Y1 i j) + B2R (Y2 i j)) <= bpow radix2 (e + 1)) by (eapply Rle_trans; [apply Rabs_triang|]; lra).
    destruct (add32_value (Y1 i j) (Y2 i j) (e + 1) ltac:(lia) G1 G2 B) as [E F]. split; [exact F|].
    change (B2R (Y i j)) with (B2R (f32_add (Y1 i j) (Y2 i j))). rewrite E. split; [apply rnd32_bound; [lia|exact B]|].
    destruct (rnd32_add (B2R (Y1 i j)) (B2R (Y2 i j))) as (g & G & ->); [apply fmtB|apply fmtB|].
    replace ((B2R (Y1 i j) + B2R (Y2 i j)) * (1 + g) - (B2R (Y1 i j) + B2R (Y2 i j))) with ((B2R (Y1 i j) + B2R (Y2 i j)) * g) by ring.
    rewrite Rabs_mult. replace (e - 23)%Z with (e + 1 + -24)%Z by lia. rewrite (bpow_plus radix2 (e + 1)).
    apply Rmult_le_compat; try apply Rabs_pos; [exact B|]. eapply Rle_trans; [exact G|]. change (bpow radix2 (-24)) with (/ 16777216). unfold u32. lra. }
  split; [exact K|].
  apply (at_least_near n (2 * a) (fun i j => real Y1 i j + real Y2 i j)).
  - intros z. specialize (A1 z). specialize (A2 z). rewrite (total_ext (fun i => z i * apply n (fun i j => real Y1 i j + real Y2 i j) z i) (fun i => z i * apply n (real Y1) z i + z i * apply n (real Y2) z i)).
    + rewrite total_plus. lra.
    + intros i _. unfold apply. rewrite <- Rmult_plus_distr_l, <- total_plus. f_equal. apply total_ext. intros. ring.
  - apply bpow_ge_0.
  - intros i j Hi Hj. now apply K.
Qed.
