(** Bounding rounding errors step by step: a double that is near a real number,
    relative to a bound on the size of that number. *)
From Coq Require Import ZArith Reals Lra Lia Bool Psatz.
From Flocq Require Import Core IEEE754.BinarySingleNaN.
From Verif Require Import Float FloatProofs Motion RealArith DoubleArith DoubleThms SumSquares64 PiDouble TrigSpec AngleAccuracy MotionAccuracy.
Local Open Scope R_scope.

(** [x] is [X] up to [c] units 2^-52 of the bound [B] of [X], and [t] *)
Definition near (c t B X : R) (x : f64) : Prop :=
  is_finite x = true /\ Rabs X <= B /\ Rabs (B2R x - X) <= c * u52 * B + t.

Lemma near_exact (x : f64) : is_finite x = true -> near 0 0 (Rabs (B2R x)) (B2R x) x.
Proof. intros F. split; [exact F|]. split; [lra|]. replace (B2R x - B2R x) with 0 by ring. rewrite Rabs_R0. lra. Qed.

Lemma near_le c d t s B C X x : c <= d -> t <= s -> B <= C -> 0 <= c -> near c t B X x -> near d s C X x.
Proof.
  intros Hc Ht HB C0 (F & H & E). split; [exact F|]. split; [lra|]. eapply Rle_trans; [exact E|].
  assert (U : 0 < u52) by (rewrite u52_value; lra). pose proof (Rabs_pos X).
  apply Rplus_le_compat; [|exact Ht]. apply Rmult_le_compat; try lra; apply Rmult_le_pos || apply Rmult_le_compat_r; lra.
Qed.

Lemma u52_small : 0 < u52 < / 1000000000000000.
Proof. rewrite u52_value. lra. Qed.

Lemma near_size c t B X x : 0 <= c <= 100 -> near c t B X x -> Rabs (B2R x) <= 1.1 * B + t.
Proof.
  intros Hc (_ & H & E). pose proof u52_small as U. pose proof (Rabs_pos X).
  replace (B2R x) with (B2R x - X + X) by ring. eapply Rle_trans; [apply Rabs_triang|].
  assert (c * u52 * B <= 0.1 * B) by (apply Rmult_le_compat_r; [lra|nra]). lra.
Qed.

Lemma near_opp c t B X x : near c t B X x -> near c t B (- X) (Bopp x).
Proof.
  intros (F & H & E). split; [now rewrite is_finite_Bopp|]. split; [now rewrite Rabs_Ropp|].
  rewrite B2R_Bopp. replace (- B2R x - - X) with (- (B2R x - X)) by ring. now rewrite Rabs_Ropp.
Qed.

(** Rounding to the nearest double *)
Lemma near_round c t B X (r : R) (z : f64) : 0 <= c <= 100 -> 0 <= t -> Rabs X <= B -> Rabs (r - X) <= c * u52 * B + t ->
  B2R z = rnd64 r -> is_finite z = true -> near (c + 0.9) (1.1 * t + h1075) B X z.
Proof.
  intros Hc Ht HB Hr E F. pose proof u52_small as U. pose proof (Rabs_pos X) as PX. split; [exact F|]. split; [exact HB|].
  destruct (rnd64_rel r) as (e & h & He & Hh & R). fold h1075 in Hh. rewrite u64_52 in He. rewrite E, R.
  replace (r * (1 + e) + h - X) with ((r - X) + (r * e + h)) by ring.
  eapply Rle_trans; [apply Rabs_triang|].
  assert (S : Rabs r <= 1.1 * B + t).
  { replace r with (r - X + X) by ring. eapply Rle_trans; [apply Rabs_triang|].
    assert (c * u52 * B <= 0.1 * B) by (apply Rmult_le_compat_r; [lra|nra]). lra. }
  assert (Q : Rabs (r * e + h) <= u52 / 2 * (1.1 * B + t) + h1075).
  { eapply Rle_trans; [apply Rabs_triang|]. apply Rplus_le_compat; [|exact Hh]. rewrite Rabs_mult, Rmult_comm.
    apply Rmult_le_compat; auto using Rabs_pos. }
  assert (0 <= u52 * B) by (apply Rmult_le_pos; lra). assert (u52 * t <= 0.1 * t) by (apply Rmult_le_compat_r; lra). lra.
Qed.

Lemma near_mul c d t s B C X Y (x y : f64) (T : R) k : near c t B X x -> near d s C Y y ->
  0 <= c <= 100 -> 0 <= d <= 100 -> 0 <= t -> 0 <= s -> c + d <= 100 ->
  (-1074 <= k <= 1022)%Z -> 2 * B * C + T <= bpow radix2 k -> 2 * (t * C + s * B + t * s) + h1075 <= T ->
  near (c + d + 1) T (B * C) (X * Y) (Bmult mode_NE x y).
Proof.
  intros Nx Ny Hc Hd Ht Hs Hcd Hk L HT. pose proof (near_size _ _ _ _ _ Hc Nx) as Sx. pose proof (near_size _ _ _ _ _ Hd Ny) as Sy.
  destruct Nx as (Fx & BX & Ex). destruct Ny as (Fy & BY & Ey). pose proof u52_small as U. pose proof h1075_small as H0.
  pose proof (Rabs_pos X) as PX. pose proof (Rabs_pos Y) as PY.
  assert (P0 : 0 <= B * C) by (apply Rmult_le_pos; lra).
  assert (P1 : 0 <= t * C) by (apply Rmult_le_pos; lra). assert (P2 : 0 <= s * B) by (apply Rmult_le_pos; lra).
  assert (P3 : 0 <= t * s) by (apply Rmult_le_pos; lra).
  assert (A : Rabs (B2R x * B2R y) <= 2 * B * C + T).
  { rewrite Rabs_mult. apply Rle_trans with ((1.1 * B + t) * (1.1 * C + s)).
    - apply Rmult_le_compat; auto using Rabs_pos.
    - replace ((1.1 * B + t) * (1.1 * C + s)) with (1.21 * (B * C) + 1.1 * (s * B) + 1.1 * (t * C) + t * s) by lra. lra. }
  assert (A' : Rabs (B2R x * B2R y) <= bpow radix2 k) by lra.
  destruct (mult64_value x y k ltac:(lia) Fx Fy A') as [E F].
  assert (G : Rabs (B2R x * B2R y - X * Y) <= (c + d + 0.05) * u52 * (B * C) + 1.1 * (t * C + s * B + t * s)).
  { replace (B2R x * B2R y - X * Y) with ((B2R x - X) * Y + X * (B2R y - Y) + (B2R x - X) * (B2R y - Y)) by ring.
    eapply Rle_trans; [apply Rabs_triang|]. eapply Rle_trans; [apply Rplus_le_compat_r, Rabs_triang|]. rewrite !Rabs_mult.
    assert (Q1 : Rabs (B2R x - X) * Rabs Y <= (c * u52 * B + t) * C) by (apply Rmult_le_compat; auto using Rabs_pos).
    assert (Q2 : Rabs X * Rabs (B2R y - Y) <= B * (d * u52 * C + s)) by (apply Rmult_le_compat; auto using Rabs_pos).
    assert (Q3 : Rabs (B2R x - X) * Rabs (B2R y - Y) <= (c * u52 * B + t) * (d * u52 * C + s)) by (apply Rmult_le_compat; auto using Rabs_pos).
    assert (cd : 0 <= c * d <= 10000) by nra.
    assert (W1 : c * u52 * B * (d * u52 * C) <= 0.05 * u52 * (B * C)).
    { replace (c * u52 * B * (d * u52 * C)) with ((c * d * u52) * (u52 * (B * C))) by ring.
      assert (0 <= u52 * (B * C)) by (apply Rmult_le_pos; lra). assert (c * d * u52 <= 0.05) by nra. nra. }
    assert (W2 : c * u52 * B * s <= 0.1 * (s * B)).
    { replace (c * u52 * B * s) with (c * u52 * (s * B)) by ring. apply Rmult_le_compat_r; [exact P2|nra]. }
    assert (W3 : t * (d * u52 * C) <= 0.1 * (t * C)).
    { replace (t * (d * u52 * C)) with (d * u52 * (t * C)) by ring. apply Rmult_le_compat_r; [exact P1|nra]. }
    replace ((c * u52 * B + t) * (d * u52 * C + s)) with (c * u52 * B * (d * u52 * C) + c * u52 * B * s + t * (d * u52 * C) + t * s) in Q3 by ring.
    nra. }
  assert (BC : Rabs (X * Y) <= B * C) by (rewrite Rabs_mult; apply Rmult_le_compat; auto).
  assert (UP : 0 <= u52 * (B * C)) by (apply Rmult_le_pos; lra).
  destruct (rnd64_rel (B2R x * B2R y)) as (e & h & He & Hh & R). fold h1075 in Hh. rewrite u64_52 in He.
  split; [exact F|]. split; [exact BC|]. rewrite E, R.
  replace (B2R x * B2R y * (1 + e) + h - X * Y) with ((B2R x * B2R y - X * Y) + (B2R x * B2R y * e + h)) by ring.
  eapply Rle_trans; [apply Rabs_triang|].
  assert (A2 : Rabs (B2R x * B2R y) <= 1.3 * (B * C) + 1.1 * (t * C + s * B + t * s)).
  { rewrite Rabs_mult. apply Rle_trans with ((1.1 * B + t) * (1.1 * C + s)).
    - apply Rmult_le_compat; auto using Rabs_pos.
    - replace ((1.1 * B + t) * (1.1 * C + s)) with (1.21 * (B * C) + 1.1 * (s * B) + 1.1 * (t * C) + t * s) by lra. lra. }
  assert (Q : Rabs (B2R x * B2R y * e + h) <= u52 / 2 * (1.3 * (B * C) + 1.1 * (t * C + s * B + t * s)) + h1075).
  { eapply Rle_trans; [apply Rabs_triang|]. apply Rplus_le_compat; [|exact Hh]. rewrite Rabs_mult, (Rmult_comm _ (Rabs e)).
    apply Rmult_le_compat; auto using Rabs_pos. }
  assert (V : u52 * (t * C + s * B + t * s) <= 0.1 * (t * C + s * B + t * s)) by (apply Rmult_le_compat_r; lra).
  nra.
Qed.

Lemma near_add c t s B C X Y (x y : f64) (T : R) k : near c t B X x -> near c s C Y y ->
  0 <= c <= 100 -> 0 <= t -> 0 <= s ->
  (-1074 <= k <= 1022)%Z -> 2 * (B + C) + T <= bpow radix2 k -> 2 * (t + s) + h1075 <= T ->
  near (c + 1) T (B + C) (X + Y) (Bplus mode_NE x y).
Proof.
  intros Nx Ny Hc Ht Hs Hk L HT. pose proof (near_size _ _ _ _ _ Hc Nx) as Sx. pose proof (near_size _ _ _ _ _ Hc Ny) as Sy.
  destruct Nx as (Fx & BX & Ex). destruct Ny as (Fy & BY & Ey). pose proof u52_small as U. pose proof h1075_small as H0.
  pose proof (Rabs_pos X) as PX. pose proof (Rabs_pos Y) as PY.
  assert (A : Rabs (B2R x + B2R y) <= bpow radix2 k).
  { eapply Rle_trans; [apply Rabs_triang|]. lra. }
  destruct (plus64_value x y k ltac:(lia) Fx Fy A) as [E F].
  assert (BC : Rabs (X + Y) <= B + C) by (eapply Rle_trans; [apply Rabs_triang|lra]).
  assert (G : Rabs (B2R x + B2R y - (X + Y)) <= c * u52 * (B + C) + (t + s)).
  { replace (B2R x + B2R y - (X + Y)) with ((B2R x - X) + (B2R y - Y)) by ring.
    eapply Rle_trans; [apply Rabs_triang|]. lra. }
  pose proof (near_round c (t + s) (B + C) (X + Y) _ _ Hc ltac:(lra) BC G E F) as N.
  refine (near_le _ _ _ _ _ _ _ _ _ _ _ _ N); lra.
Qed.

Lemma near_sub c t s B C X Y (x y : f64) (T : R) k : near c t B X x -> near c s C Y y ->
  0 <= c <= 100 -> 0 <= t -> 0 <= s ->
  (-1074 <= k <= 1022)%Z -> 2 * (B + C) + T <= bpow radix2 k -> 2 * (t + s) + h1075 <= T ->
  near (c + 1) T (B + C) (X - Y) (Bminus mode_NE x y).
Proof.
  intros Nx Ny Hc Ht Hs Hk L HT. pose proof (near_size _ _ _ _ _ Hc Nx) as Sx. pose proof (near_size _ _ _ _ _ Hc Ny) as Sy.
  destruct Nx as (Fx & BX & Ex). destruct Ny as (Fy & BY & Ey). pose proof u52_small as U. pose proof h1075_small as H0.
  pose proof (Rabs_pos X) as PX. pose proof (Rabs_pos Y) as PY.
  assert (A : Rabs (B2R x - B2R y) <= bpow radix2 k).
  { unfold Rminus. eapply Rle_trans; [apply Rabs_triang|]. rewrite Rabs_Ropp. lra. }
  destruct (minus64_value x y k ltac:(lia) Fx Fy A) as [E F].
  assert (BC : Rabs (X - Y) <= B + C) by (unfold Rminus; eapply Rle_trans; [apply Rabs_triang|rewrite Rabs_Ropp; lra]).
  assert (G : Rabs (B2R x - B2R y - (X - Y)) <= c * u52 * (B + C) + (t + s)).
  { replace (B2R x - B2R y - (X - Y)) with ((B2R x - X) - (B2R y - Y)) by ring.
    unfold Rminus at 1. eapply Rle_trans; [apply Rabs_triang|]. rewrite Rabs_Ropp. lra. }
  pose proof (near_round c (t + s) (B + C) (X - Y) _ _ Hc ltac:(lra) BC G E F) as N.
  refine (near_le _ _ _ _ _ _ _ _ _ _ _ _ N); lra.
Qed.
