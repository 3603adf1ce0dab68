(** One CTRA prediction in double precision against exact arithmetic. *)
From Coq Require Import ZArith Reals Lra Lia Bool Psatz.
From Flocq Require Import Core IEEE754.BinarySingleNaN.
From Verif Require Import Float FloatProofs Motion RealArith DoubleArith DoubleThms SumSquares64 PiDouble TrigSpec AngleAccuracy MotionAccuracy
  MotionMany Approx64.
Local Open Scope R_scope.

(** Steps with the tiny part a power of two *)
Lemma pow_sum_le e m : (-1075 <= e <= 0)%Z -> (0 <= m)%Z ->
  2 * (bpow radix2 e * bpow radix2 m + bpow radix2 e * bpow radix2 m + bpow radix2 e * bpow radix2 e) + h1075 <= bpow radix2 (e + m + 4).
Proof.
  intros He Hm. rewrite <- !bpow_plus. rewrite (bpow_plus radix2 (e + m) 4). change (bpow radix2 4) with 16.
  assert (bpow radix2 (e + e) <= bpow radix2 (e + m)) by (apply bpow_le; lia).
  assert (h1075 <= bpow radix2 (e + m)) by (unfold h1075; apply bpow_le; lia). pose proof (bpow_ge_0 radix2 (e + m)). lra.
Qed.
Lemma mul_near c d e m B C X Y (x y : f64) : near c (bpow radix2 e) B X x -> near d (bpow radix2 e) C Y y ->
  0 <= c <= 100 -> 0 <= d <= 100 -> c + d <= 100 ->
  (-1075 <= e <= -300)%Z -> (0 <= m <= 290)%Z -> B <= bpow radix2 m -> C <= bpow radix2 m ->
  near (c + d + 1) (bpow radix2 (e + m + 4)) (B * C) (X * Y) (Bmult mode_NE x y).
Proof.
  intros Nx Ny Hc Hd Hcd He Hm HB HC. pose proof (bpow_gt_0 radix2 e) as E0. pose proof (bpow_gt_0 radix2 m) as M0.
  assert (B0 : 0 <= B) by (destruct Nx as (_ & H & _); pose proof (Rabs_pos X); lra).
  assert (C0 : 0 <= C) by (destruct Ny as (_ & H & _); pose proof (Rabs_pos Y); lra).
  assert (BC : B * C <= bpow radix2 (m + m)) by (rewrite bpow_plus; apply Rmult_le_compat; lra).
  apply (near_mul c d (bpow radix2 e) (bpow radix2 e) B C X Y x y _ (m + m + 3)); try assumption; try lra; try lia.
  - rewrite (bpow_plus radix2 (m + m) 3). change (bpow radix2 3) with 8.
    assert (bpow radix2 (e + m + 4) <= bpow radix2 (m + m)) by (apply bpow_le; lia). pose proof (bpow_ge_0 radix2 (m + m)). lra.
  - eapply Rle_trans; [|apply (pow_sum_le e m); lia]. apply Rplus_le_compat_r.
    assert (bpow radix2 e * C <= bpow radix2 e * bpow radix2 m) by (apply Rmult_le_compat_l; lra).
    assert (bpow radix2 e * B <= bpow radix2 e * bpow radix2 m) by (apply Rmult_le_compat_l; lra). lra.
Qed.
Lemma add_small e B C m : (-1075 <= e <= -300)%Z -> (0 <= m <= 1000)%Z -> B <= bpow radix2 m -> C <= bpow radix2 m ->
  2 * (B + C) + bpow radix2 (e + 3) <= bpow radix2 (m + 3) /\ 2 * (bpow radix2 e + bpow radix2 e) + h1075 <= bpow radix2 (e + 3).
Proof.
  intros He Hm HB HC. rewrite (bpow_plus radix2 m 3), (bpow_plus radix2 e 3). change (bpow radix2 3) with 8.
  assert (h1075 <= bpow radix2 e) by (unfold h1075; apply bpow_le; lia).
  assert (bpow radix2 e <= / 8 * bpow radix2 m).
  { change (/ 8) with (bpow radix2 (-3)). rewrite <- bpow_plus. apply bpow_le. lia. }
  pose proof (bpow_gt_0 radix2 m). pose proof (bpow_gt_0 radix2 e). split; lra.
Qed.
Lemma add_near c e m B C X Y (x y : f64) : near c (bpow radix2 e) B X x -> near c (bpow radix2 e) C Y y ->
  0 <= c <= 100 -> (-1075 <= e <= -300)%Z -> (0 <= m <= 1000)%Z -> B <= bpow radix2 m -> C <= bpow radix2 m ->
  near (c + 1) (bpow radix2 (e + 3)) (B + C) (X + Y) (Bplus mode_NE x y).
Proof.
  intros Nx Ny Hc He Hm HB HC. destruct (add_small e B C m He Hm HB HC) as [A1 A2]. pose proof (bpow_ge_0 radix2 e).
  apply (near_add c _ _ B C X Y x y _ (m + 3) Nx Ny Hc); try assumption; lia.
Qed.
Lemma sub_near c e m B C X Y (x y : f64) : near c (bpow radix2 e) B X x -> near c (bpow radix2 e) C Y y ->
  0 <= c <= 100 -> (-1075 <= e <= -300)%Z -> (0 <= m <= 1000)%Z -> B <= bpow radix2 m -> C <= bpow radix2 m ->
  near (c + 1) (bpow radix2 (e + 3)) (B + C) (X - Y) (Bminus mode_NE x y).
Proof.
  intros Nx Ny Hc He Hm HB HC. destruct (add_small e B C m He Hm HB HC) as [A1 A2]. pose proof (bpow_ge_0 radix2 e).
  apply (near_sub c _ _ B C X Y x y _ (m + 3) Nx Ny Hc); try assumption; lia.
Qed.
(** A double itself, at any level *)
Lemma self_near c e (x : f64) : is_finite x = true -> 0 <= c -> near c (bpow radix2 e) (Rabs (B2R x)) (B2R x) x.
Proof.
  intros F Hc. pose proof (bpow_ge_0 radix2 e). refine (near_le 0 c 0 _ _ _ _ _ _ _ _ _ (near_exact x F)); lra.
Qed.
Lemma raise c d e f B C X x : near c (bpow radix2 e) B X x -> 0 <= c <= d -> (e <= f)%Z -> B <= C -> near d (bpow radix2 f) C X x.
Proof.
  intros N Hc He HB. refine (near_le _ _ _ _ _ _ _ _ _ _ _ _ N); try lra. now apply bpow_le.
Qed.

(** 1 / w^2 *)
Lemma inverse_square (w : f64) e : is_finite w = true -> bpow radix2 (-100) <= Rabs (B2R w) <= bpow radix2 60 -> (-1075 <= e)%Z ->
  near 1.5 (bpow radix2 e) (/ (B2R w * B2R w)) (/ (B2R w * B2R w)) (Bdiv mode_NE (f64_of_Z 1) (Bmult mode_NE w w)).
Proof.
  intros F [W1 W2] He. set (r := B2R w) in *. pose proof u52_small as U. pose proof h1075_small as H0.
  assert (Q : r * r = Rabs r * Rabs r) by (rewrite <- Rabs_mult; symmetry; apply Rabs_pos_eq, Rle_0_sqr).
  assert (L : bpow radix2 (-200) <= r * r).
  { rewrite Q. change (-200)%Z with (-100 + -100)%Z. rewrite bpow_plus. apply Rmult_le_compat; try assumption; apply bpow_ge_0. }
  assert (G : r * r <= bpow radix2 120).
  { rewrite Q. change 120%Z with (60 + 60)%Z. rewrite bpow_plus. apply Rmult_le_compat; try assumption; apply Rabs_pos. }
  pose proof (bpow_gt_0 radix2 (-200)) as L0.
  assert (G' : Rabs (r * r) <= bpow radix2 120) by (rewrite Rabs_pos_eq; lra).
  destruct (mult64_value w w 120 ltac:(lia) F F G') as [E Fm]. fold r in E.
  destruct (rnd64_rel (r * r)) as (d & h & Hd & Hh & R). fold h1075 in Hh. rewrite u64_52 in Hd. rewrite R in E.
  set (y := B2R (Bmult mode_NE w w)) in *.
  assert (HH : h1075 <= u52 / 100 * (r * r)).
  { apply Rle_trans with (bpow radix2 (-60) * bpow radix2 (-200)).
    - unfold h1075. rewrite <- bpow_plus. apply bpow_le. lia.
    - apply Rmult_le_compat; try apply bpow_ge_0; [|exact L]. rewrite u52_value.
      change (bpow radix2 (-60)) with (/ 1152921504606846976). lra. }
  assert (Y : Rabs (y - r * r) <= 0.52 * u52 * (r * r)).
  { rewrite E. replace (r * r * (1 + d) + h - r * r) with (r * r * d + h) by ring. eapply Rle_trans; [apply Rabs_triang|].
    rewrite Rabs_mult, (Rabs_pos_eq (r * r)) by lra.
    assert (r * r * Rabs d <= r * r * (u52 / 2)) by (apply Rmult_le_compat_l; lra). nra. }
  apply Rabs_le_inv in Y.
  assert (US : u52 * (r * r) <= / 1000 * (r * r)) by (apply Rmult_le_compat_r; lra).
  assert (Y0 : 0.99 * (r * r) <= y) by lra.
  assert (Yp : 0 < y) by lra.
  assert (Ip : 0 < / (r * r)) by (apply Rinv_0_lt_compat; lra).
  assert (D : Rabs (/ y - / (r * r)) <= 0.6 * u52 * / (r * r)).
  { replace (/ y - / (r * r)) with ((r * r - y) * (/ y * / (r * r))) by (field; split; [intros Z; rewrite Z, Rmult_0_l in L; lra|lra]).
    rewrite Rabs_mult, (Rabs_pos_eq (/ y * / (r * r))).
    2:{ apply Rmult_le_pos; [apply Rlt_le, Rinv_0_lt_compat; lra|lra]. }
    rewrite <- Rmult_assoc. apply Rmult_le_compat_r; [lra|].
    assert (A : Rabs (r * r - y) <= 0.52 * u52 * (r * r)) by (apply Rabs_le; lra).
    apply (Rmult_le_reg_r y); [exact Yp|]. rewrite Rmult_assoc, Rinv_l, Rmult_1_r by lra.
    eapply Rle_trans; [exact A|]. assert (u52 * (0.99 * (r * r)) <= u52 * y) by (apply Rmult_le_compat_l; lra). lra. }
  destruct (int64_value 1 ltac:(lia)) as [E1 F1].
  assert (IB : / (r * r) <= bpow radix2 200).
  { change 200%Z with (- (-200))%Z. rewrite bpow_opp. apply Rinv_le; lra. }
  assert (UI : u52 * / (r * r) <= / 1000 * / (r * r)) by (apply Rmult_le_compat_r; lra).
  destruct (div64_value (f64_of_Z 1) (Bmult mode_NE w w) 201 ltac:(lia) F1 (Rgt_not_eq _ _ Yp)) as [E2 F2].
  { fold y. rewrite E1. unfold Rdiv. rewrite Rmult_1_l. change 201%Z with (200 + 1)%Z. rewrite double_bpow.
    replace (/ y) with (/ y - / (r * r) + / (r * r)) by ring. eapply Rle_trans; [apply Rabs_triang|].
    rewrite (Rabs_pos_eq (/ (r * r))) by lra. lra. }
  fold y in E2. rewrite E1 in E2. unfold Rdiv in E2. rewrite Rmult_1_l in E2.
  assert (N : near (0.6 + 0.9) (1.1 * 0 + h1075) (/ (r * r)) (/ (r * r)) (Bdiv mode_NE (f64_of_Z 1) (Bmult mode_NE w w))).
  { apply (near_round 0.6 0 (/ (r * r)) (/ (r * r)) (/ y)); try lra; try assumption. rewrite Rabs_pos_eq; lra. }
  refine (near_le _ _ _ _ _ _ _ _ _ _ _ _ N); try lra.
  assert (h1075 <= bpow radix2 e) by (unfold h1075; apply bpow_le; lia). lra.
Qed.

Lemma le_bpow a k m : a <= bpow radix2 k -> (k <= m)%Z -> a <= bpow radix2 m.
Proof. intros H K. eapply Rle_trans; [exact H|]. now apply bpow_le. Qed.

(** (v w) s, with v already near its value *)
Lemma turn_term (v w s : f64) (V M S c d : R) : near c (bpow radix2 (-1007)) M V v -> M <= bpow radix2 92 ->
  is_finite w = true -> Rabs (B2R w) <= bpow radix2 60 -> near d (bpow radix2 (-911)) 1 S s ->
  0 <= c <= 10 -> 0 <= d <= 50 ->
  near (c + d + 2) (bpow radix2 (-755)) (M * Rabs (B2R w)) (V * B2R w * S) (Bmult mode_NE (Bmult mode_NE v w) s).
Proof.
  intros Nv HM Fw Hw Ns Hc Hd.
  pose proof (mul_near c 0 (-1007) 92 M _ V _ v w Nv (self_near 0 (-1007) w Fw ltac:(lra)) ltac:(lra) ltac:(lra) ltac:(lra)
     ltac:(lia) ltac:(lia) HM (le_bpow _ 60 92 Hw ltac:(lia))) as N1.
  replace (-1007 + 92 + 4)%Z with (-911)%Z in N1 by lia.
  assert (M0 : 0 <= M) by (destruct Nv as (_ & H & _); pose proof (Rabs_pos V); lra).
  assert (B1 : M * Rabs (B2R w) <= bpow radix2 152).
  { change 152%Z with (92 + 60)%Z. rewrite bpow_plus. apply Rmult_le_compat; auto using Rabs_pos. }
  assert (B2 : 1 <= bpow radix2 152) by (change 1 with (bpow radix2 0); apply bpow_le; lia).
  pose proof (mul_near _ d (-911) 152 _ 1 _ S _ s N1 Ns ltac:(lra) ltac:(lra) ltac:(lra) ltac:(lia) ltac:(lia) B1 B2) as N2.
  replace (-911 + 152 + 4)%Z with (-755)%Z in N2 by lia.
  refine (raise _ _ _ _ _ _ _ _ N2 _ _ _); [lra|lia|lra].
Qed.
(** (a s) 1 *)
Lemma turn_term_acc (a s : f64) (S d : R) : is_finite a = true -> Rabs (B2R a) <= bpow radix2 60 -> near d (bpow radix2 (-911)) 1 S s ->
  0 <= d <= 50 ->
  near (d + 2) (bpow radix2 (-755)) (Rabs (B2R a)) (B2R a * S * 1) (Bmult mode_NE (Bmult mode_NE a s) (f64_of_Z 1)).
Proof.
  intros Fa Ha Ns Hd. destruct (int64_value 1 ltac:(lia)) as [E1 F1].
  assert (L1 : 1 <= bpow radix2 60) by (change 1 with (bpow radix2 0); apply bpow_le; lia).
  pose proof (mul_near 0 d (-911) 60 _ 1 _ S a s (self_near 0 (-911) a Fa ltac:(lra)) Ns ltac:(lra) ltac:(lra) ltac:(lra)
     ltac:(lia) ltac:(lia) Ha L1) as N1.
  pose proof (self_near 0 (-911 + 60 + 4) (f64_of_Z 1) F1 ltac:(lra)) as N0. rewrite E1, Rabs_R1 in N0.
  assert (H1 : Rabs (B2R a) * 1 <= bpow radix2 60) by lra.
  pose proof (mul_near _ 0 (-911 + 60 + 4) 60 _ 1 _ 1 _ _ N1 N0 ltac:(lra) ltac:(lra) ltac:(lra) ltac:(lia) ltac:(lia) H1 L1) as N2.
  refine (raise _ _ _ _ _ _ _ _ N2 _ _ _); [lra|lia|lra].
Qed.

Section Ctra.
Variables (sine cosine : f64 -> f64) (phase : f64 -> f64 -> f64).
Hypothesis ACC : accurate sine cosine phase.
Notation D := (doubles sine cosine phase).
Notation val x := (B2R (x : f64)).
Notation exact := (exact_ctra sine cosine phase).
Local Opaque Bplus Bminus Bmult Bdiv Bopp get_angle f64_of_Z.

Lemma sine_near (t : f64) (T d : R) : is_finite t = true -> 0 <= d -> turn_close (d * u52) (B2R t) T ->
  near (d + 1) (bpow radix2 (-911)) 1 (sin T) (sine t) /\ near (d + 1) (bpow radix2 (-911)) 1 (cos T) (cosine t).
Proof.
  intros F Hd H. pose proof (turn_close_sin _ _ _ H) as S. pose proof (turn_close_cos _ _ _ H) as C.
  destruct (acc_sin _ _ _ ACC t F) as (Fs & _ & Hs). destruct (acc_cos _ _ _ ACC t F) as (Fc & _ & Hc).
  change (bpow radix2 (-52)) with u52 in Hs, Hc. pose proof (bpow_ge_0 radix2 (-911)).
  pose proof (SIN_bound T). pose proof (COS_bound T).
  split; (split; [assumption|]; split; [apply Rabs_le; lra|]).
  - replace (B2R (sine t) - sin T) with ((B2R (sine t) - sin (B2R t)) + (sin (B2R t) - sin T)) by ring.
    eapply Rle_trans; [apply Rabs_triang|]. lra.
  - replace (B2R (cosine t) - cos T) with ((B2R (cosine t) - cos (B2R t)) + (cos (B2R t) - cos T)) by ring.
    eapply Rle_trans; [apply Rabs_triang|]. lra.
Qed.

Lemma velocity_near (v a dt : f64) : is_finite v = true -> is_finite a = true -> is_finite dt = true ->
  Rabs (B2R v) <= bpow radix2 60 -> Rabs (B2R a) <= bpow radix2 60 -> Rabs (B2R dt) <= bpow radix2 30 ->
  near 2 (bpow radix2 (-1008)) (Rabs (B2R v) + Rabs (B2R a) * Rabs (B2R dt)) (B2R v + B2R a * B2R dt)
    (Bplus mode_NE v (Bmult mode_NE a dt)).
Proof.
  intros Fv Fa Fd Bv Ba Bd.
  pose proof (mul_near 0 0 (-1075) 60 _ _ _ _ a dt (self_near 0 _ a Fa ltac:(lra)) (self_near 0 _ dt Fd ltac:(lra)) ltac:(lra) ltac:(lra) ltac:(lra)
    ltac:(lia) ltac:(lia) Ba (le_bpow _ 30 60 Bd ltac:(lia))) as N1.
  assert (B1 : Rabs (B2R a) * Rabs (B2R dt) <= bpow radix2 90).
  { change 90%Z with (60 + 30)%Z. rewrite bpow_plus. apply Rmult_le_compat; auto using Rabs_pos. }
  pose proof (add_near (0 + 0 + 1) (-1075 + 60 + 4) 90 _ _ _ _ v _ (self_near (0 + 0 + 1) _ v Fv ltac:(lra)) N1 ltac:(lra) ltac:(lia) ltac:(lia)
    (le_bpow _ 60 90 Bv ltac:(lia)) B1) as N2.
  refine (raise _ _ _ _ _ _ _ _ N2 _ _ _); [lra|lia|lra].
Qed.

Definition reach_turn (s : ctra_state D) (dt : f64) : R :=
  (Rabs (val (a_vel s)) + Rabs (val (a_acc s)) * Rabs (B2R dt)) / Rabs (val (a_rate s)) +
  Rabs (val (a_acc s)) / (val (a_rate s) * val (a_rate s)).
Definition reach_straight (s : ctra_state D) (dt : f64) : R :=
  Rabs (val (a_vel s)) * Rabs (B2R dt) + Rabs (val (a_acc s)) * Rabs (B2R dt) * Rabs (B2R dt) / 2.

(** The last two operations: times 1 / w^2, and adding to the position *)
Lemma turn_last (x w b : f64) (X Q : R) : is_finite x = true -> Rabs (B2R x) <= bpow radix2 60 ->
  is_finite w = true -> bpow radix2 (-100) <= Rabs (B2R w) <= bpow radix2 60 ->
  near 31 (bpow radix2 (-746)) Q X b -> Q <= bpow radix2 154 ->
  let r := Bplus mode_NE x (Bmult mode_NE (Bdiv mode_NE (f64_of_Z 1) (Bmult mode_NE w w)) b) in
  is_finite r = true /\
  Rabs (B2R r - (B2R x + / (B2R w * B2R w) * X)) <= 36 * u52 * (Rabs (B2R x) + / (B2R w * B2R w) * Q) + bpow radix2 (-500).
Proof.
  intros Fx Bx Fw Bw Nb HQ r.
  pose proof (inverse_square w (-746) Fw Bw ltac:(lia)) as Nk.
  assert (L : bpow radix2 (-200) <= B2R w * B2R w).
  { replace (B2R w * B2R w) with (Rabs (B2R w) * Rabs (B2R w)) by (rewrite <- Rabs_mult; apply Rabs_pos_eq, Rle_0_sqr).
    change (-200)%Z with (-100 + -100)%Z. rewrite bpow_plus. apply Rmult_le_compat; try apply Bw; apply bpow_ge_0. }
  pose proof (bpow_gt_0 radix2 (-200)) as L0.
  assert (IB : / (B2R w * B2R w) <= bpow radix2 200).
  { change 200%Z with (- (-200))%Z. rewrite bpow_opp. apply Rinv_le; lra. }
  assert (I0 : 0 < / (B2R w * B2R w)) by (apply Rinv_0_lt_compat; lra).
  assert (Q0 : 0 <= Q) by (destruct Nb as (_ & H & _); pose proof (Rabs_pos X); lra).
  pose proof (mul_near _ _ (-746) 200 _ _ _ _ _ _ Nk Nb ltac:(lra) ltac:(lra) ltac:(lra) ltac:(lia) ltac:(lia) IB (le_bpow _ 154 200 HQ ltac:(lia))) as N1.
  assert (B1 : / (B2R w * B2R w) * Q <= bpow radix2 354).
  { change 354%Z with (200 + 154)%Z. rewrite bpow_plus. apply Rmult_le_compat; lra. }
  pose proof (add_near _ _ 354 _ _ _ _ x _ (self_near (1.5 + 31 + 1) _ x Fx ltac:(lra)) N1 ltac:(lra) ltac:(lia) ltac:(lia)
    (le_bpow _ 60 354 Bx ltac:(lia)) B1) as N2.
  assert (N3 : near 36 (bpow radix2 (-500)) (Rabs (B2R x) + / (B2R w * B2R w) * Q) (B2R x + / (B2R w * B2R w) * X) r).
  { refine (raise _ _ _ _ _ _ _ _ N2 _ _ _); [lra|lia|lra]. }
  destruct N3 as (F & _ & E). split; assumption.
Qed.

Lemma ctra_turn_accurate (s : ctra_state D) (dt : f64) : ordinary_ctra _ _ _ s -> is_finite dt = true ->
  Rabs (B2R dt) <= bpow radix2 30 -> bpow radix2 (-100) <= Rabs (val (a_rate s)) -> Rabs (val (a_rate s) * B2R dt) < 8 ->
  let s' := ctra_next s dt in let e := ctra_next (exact s) (B2R dt) in
  is_finite (a_x s' : f64) = true /\ is_finite (a_y s' : f64) = true /\
  Rabs (val (a_x s') - a_x e) <= bpow radix2 (-45) * (Rabs (val (a_x s)) + reach_turn s dt) + bpow radix2 (-500) /\
  Rabs (val (a_y s') - a_y e) <= bpow radix2 (-45) * (Rabs (val (a_y s)) + reach_turn s dt) + bpow radix2 (-500).
Proof.
  intros [Fx Bx Fy By Fv Bv Fw Bw Fa Ba P] Fd Bd W B8 s' e.
  assert (Nw : ~ Rabs (val (a_rate s)) < dbl_min).
  { rewrite dbl_min_bpow. assert (bpow radix2 (-1022) <= bpow radix2 (-100)) by (apply bpow_le; lia). lra. }
  assert (N0 : nnear0 D (a_rate s) = false).
  { rewrite (near0_double _ _ _ _ Fw). destruct (Rlt_dec _ _); [contradiction|reflexivity]. }
  destruct (turn_step_accurate _ _ _ ACC (a_rate s) dt (a_yaw s) P Fw Fd B8) as [P' TC].
  set (z := turn_step sine cosine phase (a_rate s) dt (a_yaw s)) in *.
  set (psi := get_angle (a_yaw s) : f64) in *. set (psi' := get_angle z : f64) in *.
  set (w := a_rate s : f64) in *. set (v := a_vel s : f64) in *. set (a := a_acc s : f64) in *.
  destruct (sine_near psi' _ 22.2 (proj1 P') ltac:(lra) TC) as [S' C'].
  destruct (sine_near psi (B2R psi) 0 (proj1 P) ltac:(lra)) as [S C].
  { rewrite Rmult_0_l. apply turn_close_refl. }
  set (T := B2R psi + B2R w * B2R dt) in *.
  pose proof (velocity_near v a dt Fv Fa Fd Bv Ba Bd) as Nv. set (v' := Bplus mode_NE v (Bmult mode_NE a dt)) in *.
  set (M := Rabs (B2R v) + Rabs (B2R a) * Rabs (B2R dt)) in *. set (V' := B2R v + B2R a * B2R dt) in *.
  pose proof (Rabs_pos (B2R v)) as Pv. pose proof (Rabs_pos (B2R a)) as Pa. pose proof (Rabs_pos (B2R dt)) as Pd. pose proof (Rabs_pos (B2R w)) as Pw.
  assert (PM : 0 <= Rabs (B2R a) * Rabs (B2R dt)) by (apply Rmult_le_pos; assumption).
  assert (HM : M <= bpow radix2 92).
  { assert (Rabs (B2R a) * Rabs (B2R dt) <= bpow radix2 90).
    { change 90%Z with (60 + 30)%Z. rewrite bpow_plus. apply Rmult_le_compat; auto. }
    assert (Rabs (B2R v) <= bpow radix2 90) by exact (le_bpow _ 60 90 Bv ltac:(lia)).
    change 92%Z with (90 + 1 + 1)%Z. rewrite !double_bpow. unfold M. pose proof (bpow_ge_0 radix2 90). lra. }
  assert (Nv7 : near 2 (bpow radix2 (-1007)) M V' v') by (refine (raise _ _ _ _ _ _ _ _ Nv _ _ _); [lra|lia|lra]).
  assert (Nu7 : near 2 (bpow radix2 (-1007)) M (- V') (Bopp v')) by (apply near_opp; exact Nv7).
  assert (Nself : near 0 (bpow radix2 (-1007)) M (B2R v) v).
  { refine (raise _ _ _ _ _ _ _ _ (self_near 0 (-1007) v Fv ltac:(lra)) _ _ _); [lra|lia|unfold M; lra]. }
  set (Q1 := M * Rabs (B2R w)). set (A := Rabs (B2R a)) in *.
  assert (HQ1 : 0 <= Q1 <= bpow radix2 152).
  { unfold Q1. split; [apply Rmult_le_pos; unfold M; lra|]. change 152%Z with (92 + 60)%Z. rewrite bpow_plus. apply Rmult_le_compat; try lra. unfold M; lra. }
  assert (HA : A <= bpow radix2 152) by exact (le_bpow _ 60 152 Ba ltac:(lia)).
  assert (L152 : Q1 + A <= bpow radix2 153) by (change 153%Z with (152 + 1)%Z; rewrite double_bpow; lra).
  assert (H153 : bpow radix2 154 = 2 * bpow radix2 153) by (change 154%Z with (153 + 1)%Z; apply double_bpow).
  assert (L153 : Q1 + A + Q1 <= bpow radix2 154) by (pose proof (bpow_le radix2 152 153 ltac:(lia)); lra).
  assert (L154 : Q1 + A + Q1 + A <= bpow radix2 154) by lra.
  pose proof (turn_term v' w _ V' M _ 2 _ Nv7 HM Fw Bw S' ltac:(lra) ltac:(lra)) as X1.
  pose proof (turn_term_acc a _ _ _ Fa Ba C' ltac:(lra)) as X2.
  pose proof (turn_term v w _ _ M _ 0 _ Nself HM Fw Bw S ltac:(lra) ltac:(lra)) as X3.
  pose proof (turn_term_acc a _ _ _ Fa Ba C ltac:(lra)) as X4.
  pose proof (turn_term (Bopp v') w _ (- V') M _ 2 _ Nu7 HM Fw Bw C' ltac:(lra) ltac:(lra)) as Y1.
  pose proof (turn_term_acc a _ _ _ Fa Ba S' ltac:(lra)) as Y2.
  pose proof (turn_term v w _ _ M _ 0 _ Nself HM Fw Bw C ltac:(lra) ltac:(lra)) as Y3.
  pose proof (turn_term_acc a _ _ _ Fa Ba S ltac:(lra)) as Y4.
  fold Q1 in X1, X3, Y1, Y3. fold A in X2, X4, Y2, Y4.
  assert (RX : forall c d e B X x, near c (bpow radix2 e) B X x -> 0 <= c <= d -> forall f, (e <= f)%Z -> near d (bpow radix2 f) B X x).
  { intros c d e' B X x N Hc f Hf. refine (raise _ _ _ _ _ _ _ _ N Hc Hf _). lra. }
  (* x *)
  pose proof (add_near 28 (-755) 152 _ _ _ _ _ _ (RX _ 28 _ _ _ _ X1 ltac:(lra) (-755)%Z ltac:(lia)) (RX _ 28 _ _ _ _ X2 ltac:(lra) (-755)%Z ltac:(lia))
    ltac:(lra) ltac:(lia) ltac:(lia) (proj2 HQ1) HA) as X5.
  pose proof (sub_near (28 + 1) (-755 + 3) 153 _ _ _ _ _ _ X5 (RX _ (28 + 1) _ _ _ _ X3 ltac:(lra) (-755 + 3)%Z ltac:(lia))
    ltac:(lra) ltac:(lia) ltac:(lia) L152 (le_bpow _ 152 153 (proj2 HQ1) ltac:(lia))) as X6.
  pose proof (sub_near (28 + 1 + 1) (-755 + 3 + 3) 154 _ _ _ _ _ _ X6 (RX _ (28 + 1 + 1) _ _ _ _ X4 ltac:(lra) (-755 + 3 + 3)%Z ltac:(lia))
    ltac:(lra) ltac:(lia) ltac:(lia) L153 (le_bpow _ 152 154 HA ltac:(lia))) as X7.
  (* y *)
  pose proof (add_near 28 (-755) 152 _ _ _ _ _ _ (RX _ 28 _ _ _ _ Y1 ltac:(lra) (-755)%Z ltac:(lia)) (RX _ 28 _ _ _ _ Y2 ltac:(lra) (-755)%Z ltac:(lia))
    ltac:(lra) ltac:(lia) ltac:(lia) (proj2 HQ1) HA) as Y5.
  pose proof (add_near (28 + 1) (-755 + 3) 153 _ _ _ _ _ _ Y5 (RX _ (28 + 1) _ _ _ _ Y3 ltac:(lra) (-755 + 3)%Z ltac:(lia))
    ltac:(lra) ltac:(lia) ltac:(lia) L152 (le_bpow _ 152 153 (proj2 HQ1) ltac:(lia))) as Y6.
  pose proof (sub_near (28 + 1 + 1) (-755 + 3 + 3) 154 _ _ _ _ _ _ Y6 (RX _ (28 + 1 + 1) _ _ _ _ Y4 ltac:(lra) (-755 + 3 + 3)%Z ltac:(lia))
    ltac:(lra) ltac:(lia) ltac:(lia) L153 (le_bpow _ 152 154 HA ltac:(lia))) as Y7.
  assert (X8 : near 31 (bpow radix2 (-746)) (Q1 + A + Q1 + A) _ _) by (refine (RX _ 31 _ _ _ _ X7 _ (-746)%Z _); [lra|lia]).
  assert (Y8 : near 31 (bpow radix2 (-746)) (Q1 + A + Q1 + A) _ _) by (refine (RX _ 31 _ _ _ _ Y7 _ (-746)%Z _); [lra|lia]).
  destruct (turn_last (a_x s) w _ _ _ Fx Bx Fw (conj W Bw) X8 L154) as [FX EX].
  destruct (turn_last (a_y s) w _ _ _ Fy By Fw (conj W Bw) Y8 L154) as [FY EY].
  assert (Es : ctra_next s dt = CtraState (A := D)
      (Bplus mode_NE (a_x s : f64) (Bmult mode_NE (Bdiv mode_NE (f64_of_Z 1) (Bmult mode_NE w w))
         (Bminus mode_NE (Bminus mode_NE (Bplus mode_NE (Bmult mode_NE (Bmult mode_NE v' w) (sine psi'))
             (Bmult mode_NE (Bmult mode_NE a (cosine psi')) (f64_of_Z 1)))
             (Bmult mode_NE (Bmult mode_NE v w) (sine psi))) (Bmult mode_NE (Bmult mode_NE a (cosine psi)) (f64_of_Z 1)))))
      (Bplus mode_NE (a_y s : f64) (Bmult mode_NE (Bdiv mode_NE (f64_of_Z 1) (Bmult mode_NE w w))
         (Bminus mode_NE (Bplus mode_NE (Bplus mode_NE (Bmult mode_NE (Bmult mode_NE (Bopp v') w) (cosine psi'))
             (Bmult mode_NE (Bmult mode_NE a (sine psi')) (f64_of_Z 1)))
             (Bmult mode_NE (Bmult mode_NE v w) (cosine psi))) (Bmult mode_NE (Bmult mode_NE a (sine psi)) (f64_of_Z 1)))))
      v' z (a_rate s) (a_acc s)).
  { unfold ctra_next. change (nnear0 D (a_rate s) = false) in N0. rewrite N0. reflexivity. }
  assert (Ee : a_x e = val (a_x s) + / (B2R w * B2R w) * (V' * B2R w * sin T + B2R a * cos T * 1 - B2R v * B2R w * sin (B2R psi) - B2R a * cos (B2R psi) * 1) /\
               a_y e = val (a_y s) + / (B2R w * B2R w) * (- V' * B2R w * cos T + B2R a * sin T * 1 + B2R v * B2R w * cos (B2R psi) - B2R a * sin (B2R psi) * 1)).
  { unfold e, ctra_next. cbn [exact_ctra a_rate a_x a_y a_vel a_yaw a_acc nnear0 reals].
    destruct (Rlt_dec (Rabs (val (a_rate s))) dbl_min); [contradiction|].
    fold w psi v a. cbn [a_x a_y nadd nsub nmul ndiv nneg nsin ncos n1 reals]. fold V'.
    pose proof (exact_heading (B2R psi) 0) as E2. rewrite !Rplus_0_r in E2.
    assert (E1 : same_turn (get_angle (angle_add (angleR (B2R psi)) (angleR (B2R w * B2R dt)))) T).
    { destruct (angle_add_spec (angleR (B2R psi)) (angleR (B2R w * B2R dt))) as [k Ek]. destruct (get_angle_spec (B2R psi)) as [_ [k1 H1]].
      destruct (get_angle_spec (B2R w * B2R dt)) as [_ [k2 H2]]. exists (k + k1 + k2)%Z. rewrite Ek, H1, H2, !plus_IZR. unfold T. ring. }
    change (angle_of (B2R w * B2R dt : num reals)) with (angleR (B2R w * B2R dt)).
    rewrite (same_turn_sin _ _ E1), (same_turn_sin _ _ E2), (same_turn_cos _ _ E1), (same_turn_cos _ _ E2). cbn [num reals].
    unfold Rdiv. rewrite !Rmult_1_l. split; reflexivity. }
  assert (W0 : 0 < Rabs (B2R w)) by (pose proof (bpow_gt_0 radix2 (-100)); lra).
  assert (W2 : B2R w * B2R w = Rabs (B2R w) * Rabs (B2R w)) by (rewrite <- Rabs_mult; symmetry; apply Rabs_pos_eq, Rle_0_sqr).
  assert (Eq : / (B2R w * B2R w) * (Q1 + A + Q1 + A) = 2 * reach_turn s dt).
  { unfold reach_turn. fold w v a. fold A. unfold Q1, M. rewrite W2. field. lra. }
  rewrite Eq in EX, EY.
  destruct Ee as [Ee1 Ee2]. unfold s'. rewrite Es. cbn [a_x a_y]. rewrite Ee1, Ee2.
  assert (R0 : 0 <= reach_turn s dt).
  { assert (0 < / (B2R w * B2R w)) by (rewrite W2; apply Rinv_0_lt_compat, Rmult_lt_0_compat; lra).
    assert (0 <= / (B2R w * B2R w) * (Q1 + A + Q1 + A)) by (apply Rmult_le_pos; lra). lra. }
  assert (G : forall X, 36 * u52 * (Rabs X + 2 * reach_turn s dt) + bpow radix2 (-500) <=
     bpow radix2 (-45) * (Rabs X + reach_turn s dt) + bpow radix2 (-500)).
  { intros X. rewrite u52_value. change (bpow radix2 (-45)) with (/ 35184372088832). pose proof (Rabs_pos X). lra. }
  split; [exact FX|]. split; [exact FY|]. split; (eapply Rle_trans; [|apply G]); assumption.
Qed.

Lemma near_half c e B X (x : f64) : near c (bpow radix2 e) B X x -> 0 <= c <= 90 -> (-1075 <= e <= -300)%Z -> B <= bpow radix2 290 ->
  near (c + 1) (bpow radix2 (e + 3)) (B / 2) (X / 2) (Bdiv mode_NE x (f64_of_Z 2)).
Proof.
  intros N Hc He HB. assert (Hc' : 0 <= c <= 100) by lra. pose proof (near_size _ _ _ _ _ Hc' N) as S. destruct N as (F & BX & E).
  destruct (int64_value 2 ltac:(lia)) as [E2 F2]. pose proof (bpow_gt_0 radix2 e) as P0. pose proof (bpow_gt_0 radix2 290) as P1.
  assert (L : Rabs (B2R x / B2R (f64_of_Z 2)) <= bpow radix2 291).
  { rewrite E2. unfold Rdiv. rewrite Rabs_mult, (Rabs_pos_eq (/ 2)) by lra. change 291%Z with (290 + 1)%Z. rewrite double_bpow.
    assert (bpow radix2 e <= bpow radix2 290) by (apply bpow_le; lia). lra. }
  assert (N2 : B2R (f64_of_Z 2) <> 0) by (rewrite E2; lra).
  destruct (div64_value x (f64_of_Z 2) 291 ltac:(lia) F N2 L) as [Ed Fd]. rewrite E2 in Ed.
  assert (A : Rabs (B2R x / 2 - X / 2) <= c * u52 * (B / 2) + bpow radix2 e / 2).
  { replace (B2R x / 2 - X / 2) with ((B2R x - X) * / 2) by field. rewrite Rabs_mult, (Rabs_pos_eq (/ 2)) by lra. lra. }
  assert (BX2 : Rabs (X / 2) <= B / 2) by (unfold Rdiv; rewrite Rabs_mult, (Rabs_pos_eq (/ 2)); lra).
  pose proof (near_round c (bpow radix2 e / 2) (B / 2) (X / 2) _ _ Hc' ltac:(lra) BX2 A Ed Fd) as R.
  refine (near_le _ _ _ _ _ _ _ _ _ _ _ _ R); try lra.
  rewrite (bpow_plus radix2 e 3). change (bpow radix2 3) with 8.
  assert (h1075 <= bpow radix2 e) by (unfold h1075; apply bpow_le; lia). lra.
Qed.

Lemma ctra_straight_accurate (s : ctra_state D) (dt : f64) : ordinary_ctra _ _ _ s -> is_finite dt = true ->
  Rabs (B2R dt) <= bpow radix2 30 -> Rabs (val (a_rate s)) < bpow radix2 (-1022) ->
  let s' := ctra_next s dt in let e := ctra_next (exact s) (B2R dt) in
  is_finite (a_x s' : f64) = true /\ is_finite (a_y s' : f64) = true /\
  Rabs (val (a_x s') - a_x e) <= bpow radix2 (-45) * (Rabs (val (a_x s)) + reach_straight s dt) + bpow radix2 (-500) /\
  Rabs (val (a_y s') - a_y e) <= bpow radix2 (-45) * (Rabs (val (a_y s)) + reach_straight s dt) + bpow radix2 (-500).
Proof.
  intros [Fx Bx Fy By Fv Bv Fw Bw Fa Ba P] Fd Bd W s' e. rewrite <- dbl_min_bpow in W.
  assert (N0 : nnear0 D (a_rate s) = true).
  { rewrite (near0_double _ _ _ _ Fw). destruct (Rlt_dec _ _); [reflexivity|contradiction]. }
  set (psi := get_angle (a_yaw s) : f64) in *.
  set (v := a_vel s : f64) in *. set (a := a_acc s : f64) in *.
  destruct (sine_near psi (B2R psi) 0 (proj1 P) ltac:(lra)) as [S C].
  { rewrite Rmult_0_l. apply turn_close_refl. }
  pose proof (Rabs_pos (B2R v)) as Pv. pose proof (Rabs_pos (B2R a)) as Pa. pose proof (Rabs_pos (B2R dt)) as Pd.
  assert (L1 : Rabs (B2R v) * Rabs (B2R dt) <= bpow radix2 90).
  { change 90%Z with (60 + 30)%Z. rewrite bpow_plus. apply Rmult_le_compat; auto. }
  assert (L2 : Rabs (B2R a) * Rabs (B2R dt) <= bpow radix2 90).
  { change 90%Z with (60 + 30)%Z. rewrite bpow_plus. apply Rmult_le_compat; auto. }
  assert (P2 : 0 <= Rabs (B2R a) * Rabs (B2R dt)) by (apply Rmult_le_pos; assumption).
  assert (L3 : Rabs (B2R a) * Rabs (B2R dt) * Rabs (B2R dt) <= bpow radix2 120).
  { change 120%Z with (90 + 30)%Z. rewrite bpow_plus. apply Rmult_le_compat; auto. }
  assert (P3 : 0 <= Rabs (B2R a) * Rabs (B2R dt) * Rabs (B2R dt)) by (apply Rmult_le_pos; assumption).
  pose proof (mul_near 0 0 (-1075) 60 _ _ _ _ v dt (self_near 0 _ v Fv ltac:(lra)) (self_near 0 _ dt Fd ltac:(lra)) ltac:(lra) ltac:(lra) ltac:(lra)
    ltac:(lia) ltac:(lia) Bv (le_bpow _ 30 60 Bd ltac:(lia))) as N1.
  pose proof (mul_near 0 0 (-1075) 60 _ _ _ _ a dt (self_near 0 _ a Fa ltac:(lra)) (self_near 0 _ dt Fd ltac:(lra)) ltac:(lra) ltac:(lra) ltac:(lra)
    ltac:(lia) ltac:(lia) Ba (le_bpow _ 30 60 Bd ltac:(lia))) as N2.
  pose proof (mul_near _ 0 (-1075 + 60 + 4) 90 _ _ _ _ _ dt N2 (self_near 0 _ dt Fd ltac:(lra)) ltac:(lra) ltac:(lra) ltac:(lra)
    ltac:(lia) ltac:(lia) L2 (le_bpow _ 30 90 Bd ltac:(lia))) as N3.
  pose proof (near_half _ _ _ _ _ N3 ltac:(lra) ltac:(lia) (le_bpow _ 120 290 L3 ltac:(lia))) as N4.
  assert (N1' : near (0 + 0 + 1 + 0 + 1 + 1) (bpow radix2 (-1075 + 60 + 4 + 90 + 4 + 3)) (Rabs (B2R v) * Rabs (B2R dt)) (B2R v * B2R dt) (Bmult mode_NE v dt)).
  { refine (raise _ _ _ _ _ _ _ _ N1 _ _ _); [lra|lia|lra]. }
  assert (L4 : Rabs (B2R a) * Rabs (B2R dt) * Rabs (B2R dt) / 2 <= bpow radix2 120) by lra.
  pose proof (add_near _ _ 120 _ _ _ _ _ _ N1' N4 ltac:(lra) ltac:(lia) ltac:(lia) (le_bpow _ 90 120 L1 ltac:(lia)) L4) as N5.
  fold (reach_straight s dt) in N5. unfold reach_straight in *. fold v a in N5 |- *.
  set (q := Rabs (B2R v) * Rabs (B2R dt) + Rabs (B2R a) * Rabs (B2R dt) * Rabs (B2R dt) / 2) in *.
  assert (Q0 : 0 <= q) by (unfold q; assert (0 <= Rabs (B2R v) * Rabs (B2R dt)) by (apply Rmult_le_pos; assumption); lra).
  assert (Q1 : q <= bpow radix2 121).
  { change 121%Z with (120 + 1)%Z. rewrite double_bpow. pose proof (le_bpow _ 90 120 L1 ltac:(lia)). unfold q. lra. }
  set (d := Bplus mode_NE (Bmult mode_NE v dt) (Bdiv mode_NE (Bmult mode_NE (Bmult mode_NE a dt) dt) (f64_of_Z 2))) in *.
  set (X := B2R v * B2R dt + B2R a * B2R dt * B2R dt / 2) in *.
  assert (N6 : near 5 (bpow radix2 (-900)) q X d) by (refine (raise _ _ _ _ _ _ _ _ N5 _ _ _); [lra|lia|lra]).
  assert (L5 : 1 <= bpow radix2 121) by (change 1 with (bpow radix2 0); apply bpow_le; lia).
  assert (S' : near (0 + 1) (bpow radix2 (-900)) 1 (sin (B2R psi)) (sine psi)) by (refine (raise _ _ _ _ _ _ _ _ S _ _ _); [lra|lia|lra]).
  assert (C' : near (0 + 1) (bpow radix2 (-900)) 1 (cos (B2R psi)) (cosine psi)) by (refine (raise _ _ _ _ _ _ _ _ C _ _ _); [lra|lia|lra]).
  pose proof (mul_near _ _ (-900) 121 _ _ _ _ _ _ N6 C' ltac:(lra) ltac:(lra) ltac:(lra) ltac:(lia) ltac:(lia) Q1 L5) as Mx.
  pose proof (mul_near _ _ (-900) 121 _ _ _ _ _ _ N6 S' ltac:(lra) ltac:(lra) ltac:(lra) ltac:(lia) ltac:(lia) Q1 L5) as My.
  assert (Q1' : q * 1 <= bpow radix2 121) by lra.
  pose proof (add_near _ _ 121 _ _ _ _ (a_x s) _ (self_near (5 + (0 + 1) + 1) _ (a_x s) Fx ltac:(lra)) Mx ltac:(lra) ltac:(lia) ltac:(lia)
    (le_bpow _ 60 121 Bx ltac:(lia)) Q1') as Rx.
  pose proof (add_near _ _ 121 _ _ _ _ (a_y s) _ (self_near (5 + (0 + 1) + 1) _ (a_y s) Fy ltac:(lra)) My ltac:(lra) ltac:(lia) ltac:(lia)
    (le_bpow _ 60 121 By ltac:(lia)) Q1') as Ry.
  destruct Rx as (FX & _ & EX). destruct Ry as (FY & _ & EY).
  assert (Es : a_x s' = Bplus mode_NE (a_x s : f64) (Bmult mode_NE d (cosine psi)) /\
               a_y s' = Bplus mode_NE (a_y s : f64) (Bmult mode_NE d (sine psi))).
  { unfold s', ctra_next. rewrite N0. split; reflexivity. }
  assert (Ee : a_x e = val (a_x s) + X * cos (B2R psi) /\ a_y e = val (a_y s) + X * sin (B2R psi)).
  { unfold e, ctra_next. cbn [exact_ctra a_rate a_x a_y a_vel a_yaw a_acc nnear0 reals].
    destruct (Rlt_dec (Rabs (val (a_rate s))) dbl_min); [|contradiction].
    fold psi v a. cbn [a_x a_y nadd nsub nmul ndiv nneg nsin ncos n1 n2 reals].
    pose proof (exact_heading (B2R psi) 0) as E2. rewrite !Rplus_0_r in E2.
    rewrite (same_turn_sin _ _ E2), (same_turn_cos _ _ E2). split; reflexivity. }
  destruct Es as [Es1 Es2]. destruct Ee as [-> ->]. rewrite Es1, Es2.
  assert (G : forall Z, (5 + (0 + 1) + 1 + 1) * u52 * (Rabs Z + q * 1) + bpow radix2 (-900 + 121 + 4 + 3) <=
     bpow radix2 (-45) * (Rabs Z + q) + bpow radix2 (-500)).
  { intros Z. rewrite u52_value. change (bpow radix2 (-45)) with (/ 35184372088832). pose proof (Rabs_pos Z).
    assert (bpow radix2 (-900 + 121 + 4 + 3) <= bpow radix2 (-500)) by (apply bpow_le; lia). lra. }
  split; [exact FX|]. split; [exact FY|]. split; (eapply Rle_trans; [|apply G]); assumption.
Qed.

(** Velocity, heading, rate and acceleration *)
Lemma ctra_rest_accurate (s : ctra_state D) (dt : f64) : ordinary_ctra _ _ _ s -> is_finite dt = true ->
  Rabs (B2R dt) <= bpow radix2 30 -> Rabs (val (a_rate s) * B2R dt) < 8 ->
  let s' := ctra_next s dt in let e := ctra_next (exact s) (B2R dt) in
  is_finite (a_vel s' : f64) = true /\
  Rabs (val (a_vel s') - a_vel e) <= bpow radix2 (-51) * (Rabs (val (a_vel s)) + Rabs (val (a_acc s)) * Rabs (B2R dt)) + bpow radix2 (-1000) /\
  proper _ _ _ (a_yaw s') /\ turn_close (bpow radix2 (-47)) (val (get_angle (a_yaw s'))) (get_angle (a_yaw e)) /\
  a_rate s' = a_rate s /\ a_acc s' = a_acc s.
Proof.
  intros [Fx Bx Fy By Fv Bv Fw Bw Fa Ba P] Fd Bd B8 s' e.
  assert (E1 : a_vel s' = Bplus mode_NE (a_vel s : f64) (Bmult mode_NE (a_acc s : f64) dt) /\ a_rate s' = a_rate s /\ a_acc s' = a_acc s /\
     a_yaw s' = turn_step sine cosine phase (a_rate s) dt (a_yaw s)).
  { unfold s', ctra_next. destruct (nnear0 D (a_rate s)); repeat split. }
  assert (E2 : a_vel e = val (a_vel s) + val (a_acc s) * B2R dt /\
    a_yaw e = angle_add (angleR (val (get_angle (a_yaw s)))) (angleR (val (a_rate s) * B2R dt))).
  { unfold e, ctra_next. cbn [exact_ctra a_rate a_x a_y a_vel a_yaw a_acc nnear0 reals]. destruct (Rlt_dec _ _); split; reflexivity. }
  destruct E1 as (-> & -> & -> & ->). destruct E2 as [-> ->].
  destruct (velocity_near (a_vel s) (a_acc s) dt Fv Fa Fd Bv Ba Bd) as (F & _ & E). split; [exact F|]. split.
  { eapply Rle_trans; [exact E|]. rewrite u52_value. change (bpow radix2 (-51)) with (/ 2251799813685248).
    assert (bpow radix2 (-1008) <= bpow radix2 (-1000)) by (apply bpow_le; lia). lra. }
  destruct (turn_step_accurate _ _ _ ACC (a_rate s) dt (a_yaw s) P Fw Fd B8) as [P' H].
  split; [exact P'|]. split; [|split; reflexivity].
  set (a := val (get_angle (a_yaw s))) in *. set (b := val (a_rate s) * B2R dt) in *.
  assert (H2 : turn_close 0 (a + b) (get_angle (angle_add (angleR a) (angleR b)))).
  { destruct (angle_add_spec (angleR a) (angleR b)) as [k Ek]. destruct (get_angle_spec a) as [_ [k1 E1]].
    destruct (get_angle_spec b) as [_ [k2 E2']]. rewrite Ek, E1, E2'. exists (- k - k1 - k2)%Z.
    rewrite !minus_IZR, opp_IZR. apply Req_le. rewrite <- Rabs_R0. f_equal. ring. }
  apply turn_close_le with (22.2 * u52 + 0).
  { rewrite u52_value. change (bpow radix2 (-47)) with (/ 140737488355328). lra. }
  eapply turn_close_trans2; [exact H|exact H2].
Qed.
End Ctra.
