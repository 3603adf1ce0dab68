(** Angles in double precision with accurate trigonometric functions. *)
From Coq Require Import ZArith Reals Lra Lia Bool Psatz.
From Flocq Require Import Core IEEE754.BinarySingleNaN.
From Verif Require Import Float FloatProofs Motion RealArith DoubleArith DoubleThms SumSquares64 PiDouble TrigSpec.
Local Open Scope R_scope.

(** ** Real analysis *)
Lemma x_cos_sin x : 0 <= x <= PI -> x * cos x <= sin x.
Proof.
  intros [H0 H1]. destruct (Rle_lt_or_eq_dec 0 x H0) as [H|<-]; [|rewrite sin_0; lra].
  destruct (MVT_cor2 (fun x => sin x - x * cos x) (fun x => x * sin x) 0 x H) as (c & E & Hc).
  - intros c Hc. replace (c * sin c) with (cos c - (1 * cos c + c * - sin c)) by ring.
    apply derivable_pt_lim_minus; [apply derivable_pt_lim_sin|].
    apply (derivable_pt_lim_mult (fun x => x) cos); [apply derivable_pt_lim_id|apply derivable_pt_lim_cos].
  - cbv beta in E. rewrite sin_0 in E. assert (0 <= sin c) by (apply sin_ge_0; lra).
    assert (0 <= c * sin c * (x - 0)) by (apply Rmult_le_pos; [apply Rmult_le_pos|]; lra). lra.
Qed.
Lemma angle_from_sin d : - PI <= d <= PI -> 0 < cos d -> Rabs d * cos d <= Rabs (sin d).
Proof.
  intros H C. destruct (Rle_dec 0 d) as [P|N].
  - rewrite (Rabs_pos_eq d P), (Rabs_pos_eq (sin d)) by (apply sin_ge_0; lra). apply x_cos_sin; lra.
  - rewrite (Rabs_left d) by lra. rewrite <- (cos_neg d), <- Rabs_Ropp, <- sin_neg.
    rewrite (Rabs_pos_eq (sin (- d))) by (apply sin_ge_0; lra). apply x_cos_sin; lra.
Qed.

Lemma half_turn (a : R) : exists x, - PI < x <= PI /\ same_turn x a.
Proof.
  destruct (wrap_exists a) as (x & H & E). destruct (Rle_dec x PI).
  - exists x. split; [lra|exact E].
  - exists (x - 2 * PI). split; [lra|]. destruct E as [k ->]. exists (k - 1)%Z. rewrite minus_IZR. lra.
Qed.

(** Polar coordinates *)
Lemma polar x y : 0 < x * x + y * y -> exists r a, 0 < r /\ - PI < a <= PI /\ x = r * cos a /\ y = r * sin a.
Proof.
  intros H. set (r := sqrt (x * x + y * y)). assert (R0 : 0 < r) by now apply sqrt_lt_R0.
  assert (E : r * r = x * x + y * y) by (apply sqrt_sqrt; lra).
  destruct (circle_is_angle (MkAngle (A := reals) (x / r) (y / r))) as (b & _ & Eb).
  { unfold on_circle. cbn. transitivity ((x * x + y * y) / (r * r)); [field; lra|]. rewrite <- E. field. lra. }
  destruct (half_turn b) as (a & Ha & Ea). exists r, a. split; [exact R0|]. split; [exact Ha|].
  unfold angle_of in Eb. cbn in Eb. injection Eb as E1 E2.
  rewrite (same_turn_cos _ _ Ea), (same_turn_sin _ _ Ea), <- E1, <- E2. split; field; lra.
Qed.

(** A point close to the unit circle has an angle close to that of the point of the circle. *)
Lemma angle_close a e1 e2 r b d : 0 < r -> cos a + e1 = r * cos b -> sin a + e2 = r * sin b ->
  Rabs e1 <= d -> Rabs e2 <= d -> d <= / 1000 -> exists k : Z, Rabs (b - (a + IZR k * (2 * PI))) <= 2.1 * d.
Proof.
  intros R0 H1 H2 D1 D2 Hd. destruct (half_turn (b - a)) as (t & Ht & [k E]).
  exists (- k)%Z. replace (b - (a + IZR (- k) * (2 * PI))) with t by (rewrite E, opp_IZR; ring).
  assert (Et : same_turn t (b - a)) by (exists k; exact E).
  assert (C : r * cos t = 1 + e1 * cos a + e2 * sin a).
  { rewrite (same_turn_cos _ _ Et), cos_minus. pose proof (sin2_cos2 a) as P. unfold Rsqr in P.
    transitivity ((r * cos b) * cos a + (r * sin b) * sin a); [ring|]. rewrite <- H1, <- H2. lra. }
  assert (S : r * sin t = e2 * cos a - e1 * sin a).
  { rewrite (same_turn_sin _ _ Et), sin_minus.
    transitivity ((r * sin b) * cos a - (r * cos b) * sin a); [ring|]. rewrite <- H1, <- H2. ring. }
  pose proof (COS_bound a) as [A1 A2]. pose proof (SIN_bound a) as [A3 A4].
  assert (D0 : 0 <= d) by (eapply Rle_trans; [apply Rabs_pos|exact D1]).
  apply Rabs_le_inv in D1, D2.
  assert (P : forall e z, - d <= e <= d -> -1 <= z <= 1 -> - d <= e * z <= d) by (intros; nra).
  pose proof (P e1 (cos a) D1 (conj A1 A2)). pose proof (P e2 (sin a) D2 (conj A3 A4)).
  pose proof (P e2 (cos a) D2 (conj A1 A2)). pose proof (P e1 (sin a) D1 (conj A3 A4)).
  assert (Ct : 0 < cos t) by (apply Rmult_lt_reg_l with r; [exact R0|]; lra).
  pose proof (angle_from_sin t ltac:(lra) Ct) as Q.
  apply (Rmult_le_compat_l r) in Q; [|lra].
  replace (r * Rabs (sin t)) with (Rabs (r * sin t)) in Q by (rewrite Rabs_mult, (Rabs_pos_eq r); lra).
  replace (r * (Rabs t * cos t)) with (Rabs t * (r * cos t)) in Q by ring. rewrite C, S in Q.
  assert (Rabs (e2 * cos a - e1 * sin a) <= 2 * d) by (apply Rabs_le; lra).
  pose proof (Rabs_pos t). assert (Rabs t * (1 - 2 * d) <= 2 * d) by nra. nra.
Qed.

(** ** get_angle *)
Section Accurate.
Variables (sine cosine : f64 -> f64) (phase : f64 -> f64 -> f64).
Hypothesis ACC : accurate sine cosine phase.
Notation D := (doubles sine cosine phase).

Definition u52 := bpow radix2 (-52).
Lemma u52_value : u52 = / 4503599627370496. Proof. reflexivity. Qed.

Lemma rnd64_near x e : Rabs x < bpow radix2 e -> (-1000 <= e)%Z -> Rabs (rnd64 x - x) <= bpow radix2 (e - 54).
Proof.
  intros H He. eapply Rle_trans; [apply (err64 e), H|].
  replace (fexp64 e) with (e - 54 + 1)%Z by (unfold fexp64, SpecFloat.fexp, SpecFloat.emin; lia).
  rewrite bpow_plus. change (bpow radix2 1) with 2. lra.
Qed.

Lemma get_angle_accurate (z : angle D) r a : is_finite (re z : f64) = true -> is_finite (im z : f64) = true ->
  0 < r -> B2R (re z : f64) = r * cos a -> B2R (im z : f64) = r * sin a ->
  is_finite (get_angle z : f64) = true /\ 0 <= B2R (get_angle z : f64) <= 2 * B2R pi64 /\
  turn_close (6 * u52) (B2R (get_angle z : f64)) a.
Proof.
  intros Fr Fi R0 Er Ei. destruct (half_turn a) as (b & Hb & Eb).
  destruct (acc_phase _ _ _ ACC (re z) (im z) r b Fr Fi R0) as (Fp & Bp & k & Hk); try lra.
  { rewrite Er. now rewrite (same_turn_cos _ _ Eb). } { rewrite Ei. now rewrite (same_turn_sin _ _ Eb). }
  destruct (get_angle_closed sine cosine phase z Fp Bp) as [Fg Bg]. split; [exact Fg|]. split; [exact Bg|].
  revert Fg Bg. unfold get_angle. cbn [narg doubles nlt n0 nadd n2 npi nmul].
  set (p := phase (re z) (im z)) in *. destruct pi64_value as [Ep _]. rewrite Ep in *.
  pose proof pi_real_bounds as PB. pose proof pi_real_close as PC. change (bpow radix2 (-52)) with u52 in PC.
  change (bpow radix2 (-51)) with (/ 2251799813685248) in Hk. rewrite u52_value in *.
  destruct Eb as [j Ej].
  destruct (int64_value 0) as [E0 F0]; [cbn; lia|]. rewrite (ltb64 p (f64_of_Z 0) Fp F0), E0.
  destruct (Rlt_bool_spec (B2R p) 0) as [H|H]; intros Fg Bg.
  - destruct two_pi64 as [E2 F2]. exists (k + j + 1)%Z.
    apply Rabs_le_inv in Bp.
    assert (S : Rabs (B2R p + 2 * pi_real) < bpow radix2 3) by (change (bpow radix2 3) with 8; rewrite Rabs_pos_eq; lra).
    destruct (plus64_value p (Bmult mode_NE (f64_of_Z 2) pi64) 3 ltac:(lia) Fp F2) as [Ea _]; [rewrite E2; lra|].
    rewrite Ea, E2. pose proof (rnd64_near _ 3 S ltac:(lia)) as N. change (bpow radix2 (3 - 54)) with (/ 2251799813685248) in N.
    apply Rabs_le_inv in Hk, N. apply Rabs_le. rewrite !plus_IZR. lra.
  - exists (k + j)%Z. apply Rabs_le_inv in Hk. apply Rabs_le. rewrite plus_IZR. lra.
Qed.

(** The angle of an object made from an angle *)
Lemma angle_roundtrip (a : f64) : is_finite a = true ->
  is_finite (get_angle (angle_of (A := D) a) : f64) = true /\
  0 <= B2R (get_angle (angle_of (A := D) a) : f64) <= 2 * B2R pi64 /\
  turn_close (8.1 * u52) (B2R (get_angle (angle_of (A := D) a) : f64)) (B2R a).
Proof.
  intros F. destruct (acc_cos _ _ _ ACC a F) as (Fc & _ & Hc). destruct (acc_sin _ _ _ ACC a F) as (Fs & _ & Hs).
  set (e1 := B2R (cosine a) - cos (B2R a)) in *. set (e2 := B2R (sine a) - sin (B2R a)) in *.
  change (bpow radix2 (-52)) with u52 in Hc, Hs.
  destruct (polar (B2R (cosine a)) (B2R (sine a))) as (r & b & R0 & Hb & Ex & Ey).
  { pose proof (sin2_cos2 (B2R a)) as P. unfold Rsqr in P.
    replace (B2R (cosine a)) with (cos (B2R a) + e1) by (unfold e1; ring).
    replace (B2R (sine a)) with (sin (B2R a) + e2) by (unfold e2; ring).
    pose proof (COS_bound (B2R a)). pose proof (SIN_bound (B2R a)). apply Rabs_le_inv in Hc, Hs. rewrite u52_value in *.
    set (c := cos (B2R a)) in *. set (s := sin (B2R a)) in *. clearbody c s e1 e2. nra. }
  destruct (get_angle_accurate (angle_of (A := D) a) r b Fc Fs R0 Ex Ey) as (Fg & Bg & k & Hk).
  split; [exact Fg|]. split; [exact Bg|].
  destruct (angle_close (B2R a) e1 e2 r b u52 R0) as [j Hj]; try assumption.
  { unfold e1. lra. } { unfold e2. lra. } { rewrite u52_value. lra. }
  exists (k + j)%Z. rewrite plus_IZR. apply Rabs_le_inv in Hk, Hj. apply Rabs_le. lra.
Qed.
End Accurate.

(** ** Sums, differences and multiples *)
Section Operations.
Variables (sine cosine : f64 -> f64) (phase : f64 -> f64 -> f64).
Hypothesis ACC : accurate sine cosine phase.
Notation D := (doubles sine cosine phase).
Notation ang z := (B2R (get_angle (z : angle D) : f64)).

Notation proper := (proper sine cosine phase).

Lemma turn_close_trans d e x y z : turn_close d x y -> Rabs (y - z) <= e -> turn_close (d + e) x z.
Proof.
  intros [k H] He. exists k. apply Rabs_le_inv in H, He. apply Rabs_le. lra.
Qed.
Lemma turn_close_trans2 d e x y z : turn_close d x y -> turn_close e y z -> turn_close (d + e) x z.
Proof.
  intros [k H] [j He]. exists (k + j)%Z. apply Rabs_le_inv in H, He. apply Rabs_le. rewrite plus_IZR. lra.
Qed.
Lemma turn_close_refl x : turn_close 0 x x.
Proof. exists 0%Z. replace (x - (x + 0 * (2 * PI))) with 0 by ring. rewrite Rabs_R0. lra. Qed.
Lemma turn_close_le d e x y : d <= e -> turn_close d x y -> turn_close e x y.
Proof. intros H [k K]. exists k. lra. Qed.
Lemma turn_close_add d e x y x' y' : turn_close d x y -> turn_close e x' y' -> turn_close (d + e) (x + x') (y + y').
Proof.
  intros [k H] [j He]. exists (k + j)%Z. apply Rabs_le_inv in H, He. apply Rabs_le. rewrite plus_IZR. lra.
Qed.

Lemma angle_of_proper (a : f64) : is_finite a = true -> proper (angle_of (A := D) a).
Proof. intros F. destruct (angle_roundtrip _ _ _ ACC a F) as (A & B & _). split; assumption. Qed.

Lemma angle_add_accurate (x y : angle D) : proper x -> proper y ->
  proper (angle_add x y) /\ turn_close (12.1 * u52) (ang (angle_add x y)) (ang x + ang y).
Proof.
  intros [Fx Bx] [Fy By]. destruct pi64_value as [Ep _]. pose proof pi_real_bounds as PB. rewrite Ep in Bx, By.
  pose proof pi_eighteen as P18. pose proof pi_real_close as PC. change (bpow radix2 (-52)) with (/ 4503599627370496) in PC.
  assert (S : Rabs (ang x + ang y) < bpow radix2 4) by (change (bpow radix2 4) with 16; rewrite Rabs_pos_eq; lra).
  destruct (plus64_value (get_angle x) (get_angle y) 4 ltac:(lia) Fx Fy ltac:(lra)) as [E F].
  split; [now apply angle_of_proper|].
  destruct (angle_roundtrip _ _ _ ACC _ F) as (_ & _ & H). rewrite E in H.
  pose proof (rnd64_near _ 4 S ltac:(lia)) as N. change (bpow radix2 (4 - 54)) with (/ 1125899906842624) in N.
  replace (12.1 * u52) with (8.1 * u52 + / 1125899906842624) by (rewrite u52_value; lra).
  eapply turn_close_trans; [exact H|exact N].
Qed.
Lemma angle_sub_accurate (x y : angle D) : proper x -> proper y ->
  proper (angle_sub x y) /\ turn_close (10.1 * u52) (ang (angle_sub x y)) (ang x - ang y).
Proof.
  intros [Fx Bx] [Fy By]. destruct pi64_value as [Ep _]. pose proof pi_real_bounds as PB. rewrite Ep in Bx, By.
  pose proof pi_eighteen as P18. pose proof pi_real_close as PC. change (bpow radix2 (-52)) with (/ 4503599627370496) in PC.
  assert (S : Rabs (ang x - ang y) < bpow radix2 3) by (change (bpow radix2 3) with 8; apply Rabs_lt; lra).
  destruct (minus64_value (get_angle x) (get_angle y) 3 ltac:(lia) Fx Fy ltac:(lra)) as [E F].
  split; [now apply angle_of_proper|].
  destruct (angle_roundtrip _ _ _ ACC _ F) as (_ & _ & H). rewrite E in H.
  pose proof (rnd64_near _ 3 S ltac:(lia)) as N. change (bpow radix2 (3 - 54)) with (/ 2251799813685248) in N.
  replace (10.1 * u52) with (8.1 * u52 + / 2251799813685248) by (rewrite u52_value; lra).
  eapply turn_close_trans; [exact H|exact N].
Qed.

(** ** Turning at a constant rate *)
Definition turn_step (w dt : f64) (z : angle D) : angle D := angle_add z (angle_of (A := D) (Bmult mode_NE w dt)).
Lemma turn_step_accurate (w dt : f64) (z : angle D) : proper z -> is_finite w = true -> is_finite dt = true ->
  Rabs (B2R w * B2R dt) < 8 ->
  proper (turn_step w dt z) /\ turn_close (22.2 * u52) (ang (turn_step w dt z)) (ang z + B2R w * B2R dt).
Proof.
  intros Pz Fw Fd B. change 8 with (bpow radix2 3) in B.
  destruct (mult64_value w dt 3 ltac:(lia) Fw Fd ltac:(lra)) as [E F].
  destruct (angle_add_accurate z (angle_of (A := D) (Bmult mode_NE w dt)) Pz (angle_of_proper _ F)) as [P H].
  split; [exact P|]. destruct (angle_roundtrip _ _ _ ACC _ F) as (_ & _ & K). rewrite E in K.
  pose proof (rnd64_near _ 3 B ltac:(lia)) as N. change (bpow radix2 (3 - 54)) with (/ 2251799813685248) in N.
  replace (22.2 * u52) with (12.1 * u52 + (0 + (8.1 * u52 + / 2251799813685248))) by (rewrite u52_value; lra).
  eapply turn_close_trans2; [exact H|]. apply turn_close_add; [apply turn_close_refl|].
  eapply turn_close_trans; [exact K|exact N].
Qed.
Lemma turn_many (w dt : f64) (z : angle D) n : proper z -> is_finite w = true -> is_finite dt = true ->
  Rabs (B2R w * B2R dt) < 8 ->
  proper (Nat.iter n (turn_step w dt) z) /\
  turn_close (INR n * bpow radix2 (-47)) (ang (Nat.iter n (turn_step w dt) z)) (ang z + INR n * (B2R w * B2R dt)).
Proof.
  intros Pz Fw Fd B. induction n as [|n [Pn IH]].
  - split; [exact Pz|]. exists 0%Z. cbn. rewrite Rabs_right; lra.
  - destruct (turn_step_accurate w dt _ Pn Fw Fd B) as [P H]. split; [exact P|].
    rewrite S_INR. cbn [Nat.iter nat_rect]. change (nat_rect _ z (fun _ => turn_step w dt) n) with (Nat.iter n (turn_step w dt) z).
    replace (ang z + (INR n + 1) * (B2R w * B2R dt)) with (ang z + INR n * (B2R w * B2R dt) + B2R w * B2R dt) by ring.
    apply turn_close_le with (22.2 * u52 + (INR n * bpow radix2 (-47) + 0)).
    { rewrite u52_value. change (bpow radix2 (-47)) with (/ 140737488355328). lra. }
    eapply turn_close_trans2; [exact H|]. apply turn_close_add; [exact IH|].
    apply turn_close_refl.
Qed.
End Operations.
