(** One CTRV prediction in double precision against exact arithmetic. *)
From Coq Require Import ZArith Reals Lra Lia Bool Psatz.
From Flocq Require Import Core IEEE754.BinarySingleNaN.
From Verif Require Import Float FloatProofs Motion RealArith DoubleArith DoubleThms SumSquares64 PiDouble TrigSpec AngleAccuracy.
Local Open Scope R_scope.

Definition h1075 : R := bpow radix2 (-1075).
Lemma h1075_small : 0 < h1075 <= / 1000000000.
Proof.
  split; [apply bpow_gt_0|]. apply Rle_trans with (bpow radix2 (-53)); [apply bpow_le; lia|].
  pose proof u64_small as U. unfold u64 in U. lra.
Qed.
Lemma u64_52 : u64 = u52 / 2.
Proof. unfold u64. rewrite u52_value. change (bpow radix2 (-53)) with (/ 9007199254740992). lra. Qed.

Lemma lipschitz (f f' : R -> R) : (forall x, derivable_pt_lim f x (f' x)) -> (forall x, Rabs (f' x) <= 1) ->
  forall x y, Rabs (f x - f y) <= Rabs (x - y).
Proof.
  intros H B.
  assert (L : forall x y, x < y -> Rabs (f y - f x) <= Rabs (y - x)).
  { intros x y L. destruct (MVT_cor2 f f' x y L) as (c & E & _); [intros c _; apply H|].
    rewrite E, Rabs_mult. pose proof (B c). pose proof (Rabs_pos (y - x)). nra. }
  intros x y. destruct (Rtotal_order x y) as [C|[->|C]].
  - rewrite Rabs_minus_sym, (Rabs_minus_sym x). now apply L.
  - rewrite !Rminus_eq_0, !Rabs_R0. lra.
  - now apply L.
Qed.
Lemma sin_lipschitz x y : Rabs (sin x - sin y) <= Rabs (x - y).
Proof. apply (lipschitz sin cos); [apply derivable_pt_lim_sin|]. intros z. apply Rabs_le, COS_bound. Qed.
Lemma cos_lipschitz x y : Rabs (cos x - cos y) <= Rabs (x - y).
Proof.
  apply (lipschitz cos (fun x => - sin x)); [apply derivable_pt_lim_cos|].
  intros z. rewrite Rabs_Ropp. apply Rabs_le, SIN_bound.
Qed.

Lemma div64_value (x y : f64) k : (-1074 <= k <= 1023)%Z -> is_finite x = true -> B2R y <> 0 ->
  Rabs (B2R x / B2R y) <= bpow radix2 k ->
  B2R (Bdiv mode_NE x y) = rnd64 (B2R x / B2R y) /\ is_finite (Bdiv mode_NE x y) = true.
Proof.
  intros Hk Fx Hy H. pose proof (Bdiv_correct 53 1024 _ _ mode_NE x y Hy) as C.
  rewrite (no_overflow64 _ k Hk H) in C. destruct C as (C1 & C2 & _). rewrite C2. split; assumption.
Qed.

(** The difference of two accurate values at close points *)
Lemma difference_accurate (f : R -> R) (f64' : f64 -> f64) (psi theta : f64) (t : R) :
  (forall x y, Rabs (f x - f y) <= Rabs (x - y)) ->
  (forall x, is_finite x = true -> is_finite (f64' x) = true /\
    Rabs (B2R (f64' x)) <= 1 /\ Rabs (B2R (f64' x) - f (B2R x)) <= bpow radix2 (-52)) ->
  is_finite psi = true -> is_finite theta = true -> Rabs (B2R theta - t) <= 6 * u52 ->
  let d := Bminus mode_NE (f64' theta) (f64' psi) in
  is_finite d = true /\ Rabs (B2R d) <= 2 /\ Rabs (B2R d - (f t - f (B2R psi))) <= 9 * u52.
Proof.
  intros Lf A Fp Ft Ht d. destruct (A psi Fp) as (F1 & B1 & E1). destruct (A theta Ft) as (F2 & B2 & E2).
  change (bpow radix2 (-52)) with u52 in *.
  assert (B : Rabs (B2R (f64' theta) - B2R (f64' psi)) <= 2).
  { eapply Rle_trans; [apply Rabs_triang|]. rewrite Rabs_Ropp. lra. }
  destruct (minus64_value (f64' theta) (f64' psi) 1 ltac:(lia) F2 F1 B) as [E F].
  split; [exact F|]. unfold d. rewrite E. split; [exact (rnd64_bound _ 1 ltac:(lia) B)|].
  assert (S : Rabs (B2R (f64' theta) - B2R (f64' psi)) < bpow radix2 2) by (change (bpow radix2 2) with 4; lra).
  pose proof (rnd64_near _ 2 S ltac:(lia)) as N. change (bpow radix2 (2 - 54)) with u52 in N.
  pose proof (Lf (B2R theta) t) as L.
  apply Rabs_le_inv in N, E1, E2. pose proof (Rle_trans _ _ _ L Ht) as L'. apply Rabs_le_inv in L'. apply Rabs_le. lra.
Qed.

(** ratio times difference *)
Lemma product_accurate (v w d : f64) (ds : R) :
  is_finite v = true -> B2R w <> 0 -> Rabs (B2R v / B2R w) <= bpow radix2 60 ->
  is_finite d = true -> Rabs (B2R d) <= 2 -> Rabs (B2R d - ds) <= 9 * u52 ->
  let p := Bmult mode_NE (Bdiv mode_NE v w) d in
  is_finite p = true /\ Rabs (B2R p) <= 3 * Rabs (B2R v / B2R w) + 4 * h1075 /\
  Rabs (B2R p - B2R v / B2R w * ds) <= 11.5 * u52 * Rabs (B2R v / B2R w) + 4 * h1075.
Proof.
  intros Fv Hw HR Fd Bd Hd p. set (q := B2R v / B2R w) in *.
  destruct (div64_value v w 60 ltac:(lia) Fv Hw HR) as [Er Fr]. fold q in Er.
  destruct (rnd64_rel q) as (e & h & He & Hh & Eq). fold h1075 in Hh.
  set (rho := Bdiv mode_NE v w) in *. rewrite Eq in Er.
  pose proof u52_value as UV. pose proof u64_52 as U64. pose proof h1075_small as HS.
  assert (U : 0 < u52 < / 1000000000) by (rewrite UV; lra).
  rewrite U64 in He.
  assert (Brho : Rabs (B2R rho - q) <= u52 / 2 * Rabs q + h1075).
  { rewrite Er. replace (q * (1 + e) + h - q) with (q * e + h) by ring.
    eapply Rle_trans; [apply Rabs_triang|]. rewrite Rabs_mult. pose proof (Rabs_pos q). nra. }
  pose proof (Rabs_pos q) as Q0.
  assert (Brho' : Rabs (B2R rho) <= (1 + u52 / 2) * Rabs q + h1075).
  { replace (B2R rho) with (B2R rho - q + q) by ring. eapply Rle_trans; [apply Rabs_triang|]. lra. }
  assert (Bp : Rabs (B2R rho * B2R d) <= 2.1 * Rabs q + 2 * h1075).
  { rewrite Rabs_mult. pose proof (Rabs_pos (B2R rho)). pose proof (Rabs_pos (B2R d)). nra. }
  assert (Bp' : Rabs (B2R rho * B2R d) <= bpow radix2 62).
  { eapply Rle_trans; [exact Bp|]. change 62%Z with (60 + 1 + 1)%Z. rewrite !double_bpow.
    assert (1 <= bpow radix2 60) by (change 1 with (bpow radix2 0); apply bpow_le; lia). lra. }
  destruct (mult64_value rho d 62 ltac:(lia) Fr Fd Bp') as [Em Fm]. fold p in Em, Fm.
  split; [exact Fm|].
  destruct (rnd64_rel (B2R rho * B2R d)) as (e' & h' & He' & Hh' & Em'). fold h1075 in Hh'. rewrite Em' in Em.
  rewrite U64 in He'.
  assert (B1 : Rabs (B2R p - B2R rho * B2R d) <= u52 / 2 * (2.1 * Rabs q + 2 * h1075) + h1075).
  { rewrite Em. replace (B2R rho * B2R d * (1 + e') + h' - B2R rho * B2R d) with (B2R rho * B2R d * e' + h') by ring.
    eapply Rle_trans; [apply Rabs_triang|]. rewrite Rabs_mult. pose proof (Rabs_pos (B2R rho * B2R d)). pose proof (Rabs_pos e'). nra. }
  split.
  - replace (B2R p) with (B2R p - B2R rho * B2R d + B2R rho * B2R d) by ring.
    eapply Rle_trans; [apply Rabs_triang|]. nra.
  - assert (B2 : Rabs (B2R rho * B2R d - q * ds) <= 2 * (u52 / 2 * Rabs q + h1075) + Rabs q * (9 * u52)).
    { replace (B2R rho * B2R d - q * ds) with ((B2R rho - q) * B2R d + q * (B2R d - ds)) by ring.
      eapply Rle_trans; [apply Rabs_triang|]. rewrite !Rabs_mult.
      pose proof (Rabs_pos (B2R rho - q)). pose proof (Rabs_pos (B2R d)). pose proof (Rabs_pos (B2R d - ds)). nra. }
    replace (B2R p - q * ds) with (B2R p - B2R rho * B2R d + (B2R rho * B2R d - q * ds)) by ring.
    eapply Rle_trans; [apply Rabs_triang|]. nra.
Qed.
Lemma times_one (p : f64) : is_finite p = true -> Rabs (B2R p) <= bpow radix2 1000 ->
  B2R (Bmult mode_NE p (f64_of_Z 1)) = B2R p /\ is_finite (Bmult mode_NE p (f64_of_Z 1)) = true.
Proof.
  intros F B. destruct f64_one as [E1 F1].
  destruct (mult64_value p (f64_of_Z 1) 1000 ltac:(lia) F F1) as [E F']; rewrite E1, Rmult_1_r in *; [exact B|].
  split; [|exact F']. rewrite E. apply rnd64_id, fmt_B2R.
Qed.

Lemma add_accurate (x p : f64) (P Q c h : R) : 0 < h <= / 1000000000 -> is_finite x = true -> is_finite p = true ->
  Rabs (B2R x) <= bpow radix2 60 -> Rabs (B2R p) <= 3 * Q + h -> 0 <= Q <= bpow radix2 60 ->
  0 <= c -> Rabs (B2R p - P) <= c * u52 * Q + h ->
  (is_finite (Bplus mode_NE x p) = true /\
   Rabs (B2R (Bplus mode_NE x p) - (B2R x + P)) <= u52 / 2 * Rabs (B2R x) + (c + 1.5) * u52 * Q + 2 * h) /\
  (is_finite (Bminus mode_NE x p) = true /\
   Rabs (B2R (Bminus mode_NE x p) - (B2R x - P)) <= u52 / 2 * Rabs (B2R x) + (c + 1.5) * u52 * Q + 2 * h).
Proof.
  intros HS Fx Fp Bx Bp HQ C0 HP.
  assert (U : 0 < u52 < / 1000000000) by (rewrite u52_value; lra).
  assert (L1 : 1 <= bpow radix2 60) by (change 1 with (bpow radix2 0); apply bpow_le; lia).
  assert (K : bpow radix2 63 = 8 * bpow radix2 60).
  { change 63%Z with (60 + 1 + 1 + 1)%Z. rewrite !double_bpow. lra. }
  split.
  - assert (B : Rabs (B2R x + B2R p) <= bpow radix2 63).
    { eapply Rle_trans; [apply Rabs_triang|]. rewrite K. lra. }
    destruct (plus64_value x p 63 ltac:(lia) Fx Fp B) as [E F]. split; [exact F|].
    destruct (rnd64_add (B2R x) (B2R p) (fmt_B2R x) (fmt_B2R p)) as (e & He & Ee). rewrite E, Ee.
    rewrite u64_52 in He.
    replace ((B2R x + B2R p) * (1 + e) - (B2R x + P)) with (B2R x * e + B2R p * e + (B2R p - P)) by ring.
    eapply Rle_trans; [apply Rabs_triang|]. eapply Rle_trans; [apply Rplus_le_compat_r, Rabs_triang|].
    rewrite !Rabs_mult. pose proof (Rabs_pos (B2R x)). pose proof (Rabs_pos (B2R p)). pose proof (Rabs_pos e).
    assert (Rabs (B2R x) * Rabs e <= Rabs (B2R x) * (u52 / 2)) by (apply Rmult_le_compat_l; lra).
    assert (Rabs (B2R p) * Rabs e <= (3 * Q + h) * (u52 / 2)) by (apply Rmult_le_compat; lra).
    nra.
  - assert (B : Rabs (B2R x - B2R p) <= bpow radix2 63).
    { eapply Rle_trans; [apply Rabs_triang|]. rewrite Rabs_Ropp, K. lra. }
    destruct (minus64_value x p 63 ltac:(lia) Fx Fp B) as [E F]. split; [exact F|].
    destruct (rnd64_add (B2R x) (- B2R p) (fmt_B2R x)) as (e & He & Ee); [apply generic_format_opp, fmt_B2R|].
    change (B2R x + - B2R p) with (B2R x - B2R p) in Ee. rewrite E, Ee.
    rewrite u64_52 in He.
    replace ((B2R x - B2R p) * (1 + e) - (B2R x - P)) with (B2R x * e + - (B2R p * e) + - (B2R p - P)) by ring.
    eapply Rle_trans; [apply Rabs_triang|]. eapply Rle_trans; [apply Rplus_le_compat_r, Rabs_triang|].
    rewrite !Rabs_Ropp, !Rabs_mult. pose proof (Rabs_pos (B2R x)). pose proof (Rabs_pos (B2R p)). pose proof (Rabs_pos e).
    assert (Rabs (B2R x) * Rabs e <= Rabs (B2R x) * (u52 / 2)) by (apply Rmult_le_compat_l; lra).
    assert (Rabs (B2R p) * Rabs e <= (3 * Q + h) * (u52 / 2)) by (apply Rmult_le_compat; lra).
    nra.
Qed.

(** (v c) dt for an accurate cosine [c] *)
Lemma straight_accurate (v c dt : f64) (cs : R) : is_finite v = true -> is_finite c = true -> is_finite dt = true ->
  Rabs (B2R v) <= bpow radix2 60 -> Rabs (B2R dt) <= bpow radix2 30 -> Rabs (B2R v * B2R dt) <= bpow radix2 60 ->
  Rabs (B2R c) <= 1 -> Rabs (B2R c - cs) <= u52 ->
  let p := Bmult mode_NE (Bmult mode_NE v c) dt in let q := Rabs (B2R v * B2R dt) in
  is_finite p = true /\ Rabs (B2R p) <= 3 * q + bpow radix2 (-1040) /\
  Rabs (B2R p - B2R v * cs * B2R dt) <= 3 * u52 * q + bpow radix2 (-1040).
Proof.
  intros Fv Fc Fd Bv Bd Bvd Bc Hc p q. pose proof h1075_small as HS.
  assert (U : 0 < u52 < / 1000000000) by (rewrite u52_value; lra).
  assert (HT : bpow radix2 (-1045) = bpow radix2 30 * h1075) by (unfold h1075; rewrite <- bpow_plus; reflexivity).
  assert (HT2 : 32 * bpow radix2 (-1045) = bpow radix2 (-1040)).
  { change 32 with (bpow radix2 5). rewrite <- bpow_plus. reflexivity. }
  assert (T30 : 1 <= bpow radix2 30) by (change 1 with (bpow radix2 0); apply bpow_le; lia).
  assert (Q0 : 0 <= q) by apply Rabs_pos.
  assert (B1 : Rabs (B2R v * B2R c) <= bpow radix2 60).
  { rewrite Rabs_mult. pose proof (Rabs_pos (B2R v)). pose proof (Rabs_pos (B2R c)). nra. }
  destruct (mult64_value v c 60 ltac:(lia) Fv Fc B1) as [E1 F1].
  destruct (rnd64_rel (B2R v * B2R c)) as (e1 & h1 & He1 & Hh1 & R1). fold h1075 in Hh1. rewrite u64_52 in He1. rewrite R1 in E1.
  set (m := Bmult mode_NE v c) in *.
  assert (M : Rabs (B2R m * B2R dt - B2R v * B2R c * B2R dt) <= u52 / 2 * q + bpow radix2 (-1045)).
  { rewrite E1. replace ((B2R v * B2R c * (1 + e1) + h1) * B2R dt - B2R v * B2R c * B2R dt) with (B2R v * B2R dt * (B2R c * e1) + B2R dt * h1) by ring.
    eapply Rle_trans; [apply Rabs_triang|]. rewrite (Rabs_mult (B2R v * B2R dt)), (Rabs_mult (B2R dt)), (Rabs_mult (B2R c)). fold q.
    rewrite HT. apply Rplus_le_compat.
    - rewrite Rmult_comm. apply Rmult_le_compat_r; [exact Q0|]. pose proof (Rabs_pos e1). pose proof (Rabs_pos (B2R c)). nra.
    - apply Rmult_le_compat; auto using Rabs_pos. }
  assert (N : Rabs (B2R v * B2R c * B2R dt) <= q).
  { replace (B2R v * B2R c * B2R dt) with (B2R v * B2R dt * B2R c) by ring. rewrite Rabs_mult. fold q. nra. }
  assert (N' : Rabs (B2R m * B2R dt) <= 1.1 * q + bpow radix2 (-1045)).
  { replace (B2R m * B2R dt) with (B2R m * B2R dt - B2R v * B2R c * B2R dt + B2R v * B2R c * B2R dt) by ring.
    eapply Rle_trans; [apply Rabs_triang|]. nra. }
  assert (HS2 : 0 < bpow radix2 (-1045) <= 1).
  { split; [apply bpow_gt_0|]. change 1 with (bpow radix2 0). apply bpow_le. lia. }
  assert (L1 : 1 <= bpow radix2 60) by (change 1 with (bpow radix2 0); apply bpow_le; lia).
  assert (B2 : Rabs (B2R m * B2R dt) <= bpow radix2 62).
  { change 62%Z with (60 + 1 + 1)%Z. rewrite !double_bpow. eapply Rle_trans; [exact N'|]. unfold q. lra. }
  destruct (mult64_value m dt 62 ltac:(lia) F1 Fd B2) as [E2 F2]. fold p in E2, F2.
  destruct (rnd64_rel (B2R m * B2R dt)) as (e2 & h2 & He2 & Hh2 & R2). fold h1075 in Hh2. rewrite u64_52 in He2. rewrite R2 in E2.
  assert (HH : h1075 <= bpow radix2 (-1045)) by (unfold h1075; apply bpow_le; lia).
  assert (P : Rabs (B2R p - B2R m * B2R dt) <= u52 / 2 * (1.1 * q + bpow radix2 (-1045)) + h1075).
  { rewrite E2. replace (B2R m * B2R dt * (1 + e2) + h2 - B2R m * B2R dt) with (B2R m * B2R dt * e2 + h2) by ring.
    eapply Rle_trans; [apply Rabs_triang|]. rewrite Rabs_mult. pose proof (Rabs_pos (B2R m * B2R dt)). pose proof (Rabs_pos e2). nra. }
  split; [exact F2|]. split.
  - replace (B2R p) with (B2R p - B2R m * B2R dt + B2R m * B2R dt) by ring.
    eapply Rle_trans; [apply Rabs_triang|]. nra.
  - assert (C : Rabs (B2R v * B2R c * B2R dt - B2R v * cs * B2R dt) <= q * u52).
    { replace (B2R v * B2R c * B2R dt - B2R v * cs * B2R dt) with (B2R v * B2R dt * (B2R c - cs)) by ring.
      rewrite Rabs_mult. fold q. apply Rmult_le_compat_l; assumption. }
    replace (B2R p - B2R v * cs * B2R dt) with (B2R p - B2R m * B2R dt +
      (B2R m * B2R dt - B2R v * B2R c * B2R dt) + (B2R v * B2R c * B2R dt - B2R v * cs * B2R dt)) by ring.
    eapply Rle_trans; [apply Rabs_triang|]. eapply Rle_trans; [apply Rplus_le_compat_r, Rabs_triang|]. nra.
Qed.

Lemma dbl_min_bpow : dbl_min = bpow radix2 (-1022).
Proof.
  unfold dbl_min. change (-1022)%Z with (Z.opp 1022). rewrite bpow_opp. f_equal. rewrite pow_IZR.
  change (Z.of_nat 1022) with 1022%Z. apply (IZR_Zpower radix2 1022). lia.
Qed.

Section Ctrv.
Variables (sine cosine : f64 -> f64) (phase : f64 -> f64 -> f64).
Hypothesis ACC : accurate sine cosine phase.
Notation D := (doubles sine cosine phase).
Notation val x := (B2R (x : f64)).

Notation exact_ctrv := (exact_ctrv sine cosine phase).
Notation ordinary_ctrv := (ordinary_ctrv sine cosine phase).

Lemma near0_double (w : f64) : is_finite w = true ->
  nnear0 D w = if Rlt_dec (Rabs (B2R w)) dbl_min then true else false.
Proof.
  intros F. cbn [nnear0 doubles]. destruct dbl_min64_value as [Ed Fd].
  assert (Fa : is_finite (Babs w) = true) by now rewrite is_finite_Babs.
  rewrite (ltb64 _ _ Fa Fd), B2R_Babs, Ed.
  assert (Em : dbl_min = bpow radix2 (-1022)).
  { unfold dbl_min. change (-1022)%Z with (Z.opp 1022). rewrite bpow_opp. f_equal. rewrite pow_IZR.
    change (Z.of_nat 1022) with 1022%Z. apply (IZR_Zpower radix2 1022). lia. }
  rewrite Em. destruct (Rlt_dec (Rabs (B2R w)) (bpow radix2 (-1022))); [now apply Rlt_bool_true|apply Rlt_bool_false; lra].
Qed.

Lemma exact_heading (psi t : R) : same_turn (get_angle (angleR psi) + t) (psi + t).
Proof. destruct (get_angle_spec psi) as [_ H]. apply same_turn_add; [exact H|apply same_turn_refl]. Qed.

Local Opaque Bplus Bminus Bmult Bdiv get_angle f64_of_Z.
Lemma ctrv_turn_accurate (s : ctrv_state D) (dt : f64) : ordinary_ctrv s -> is_finite dt = true ->
  nnear0 D (v_rate s) = false -> let q := Rabs (val (v_vel s) / val (v_rate s)) in
  q <= bpow radix2 60 -> Rabs (val (v_rate s) * B2R dt) < 8 ->
  let s' := ctrv_next s dt in let e := ctrv_next (exact_ctrv s) (B2R dt) in
  is_finite (v_x s' : f64) = true /\ is_finite (v_y s' : f64) = true /\
  Rabs (val (v_x s') - v_x e) <= bpow radix2 (-48) * (Rabs (val (v_x s)) + q) + bpow radix2 (-1000) /\
  Rabs (val (v_y s') - v_y e) <= bpow radix2 (-48) * (Rabs (val (v_y s)) + q) + bpow radix2 (-1000).
Proof.
  intros [Fx Bx Fy By Fv Fw [Fp Bp]] Fd N q Hq B s' e. pose proof N as N0. rewrite (near0_double _ Fw) in N.
  destruct (Rlt_dec (Rabs (val (v_rate s))) dbl_min) as [?|Nw]; [discriminate|]. clear N.
  assert (Hw : val (v_rate s) <> 0).
  { intros E. rewrite E, Rabs_R0 in Nw. apply Nw. unfold dbl_min. apply Rinv_0_lt_compat, pow_lt. lra. }
  destruct pi64_value as [Ep _]. pose proof pi_real_bounds as PB. rewrite Ep in Bp.
  pose proof pi_eighteen as P18. pose proof pi_real_close as PC. change (bpow radix2 (-52)) with (/ 4503599627370496) in PC.
  set (psi := get_angle (v_yaw s) : f64) in *. set (w := v_rate s : f64) in *. set (v := v_vel s : f64) in *.
  change 8 with (bpow radix2 3) in B.
  destruct (mult64_value w dt 3 ltac:(lia) Fw Fd ltac:(lra)) as [Ed Fdd].
  set (dy := Bmult mode_NE w dt) in *.
  pose proof (rnd64_near _ 3 B ltac:(lia)) as N1. change (bpow radix2 (3 - 54)) with (/ 2251799813685248) in N1.
  assert (S : Rabs (B2R psi + B2R dy) < bpow radix2 4).
  { rewrite Ed. change (bpow radix2 3) with 8 in B. apply Rabs_le_inv in N1. apply Rabs_lt_inv in B.
    change (bpow radix2 4) with 16. apply Rabs_lt. lra. }
  destruct (plus64_value psi dy 4 ltac:(lia) Fp Fdd ltac:(lra)) as [Et Ft].
  pose proof (rnd64_near _ 4 S ltac:(lia)) as N2. change (bpow radix2 (4 - 54)) with (/ 1125899906842624) in N2.
  set (theta := Bplus mode_NE psi dy) in *. set (t := B2R psi + B2R w * B2R dt) in *.
  assert (Ht : Rabs (B2R theta - t) <= 6 * u52).
  { rewrite Et. rewrite Ed in *. apply Rabs_le_inv in N1, N2. rewrite u52_value. apply Rabs_le. unfold t. lra. }
  destruct (difference_accurate sin sine psi theta t sin_lipschitz (acc_sin _ _ _ ACC) Fp Ft Ht) as (Fs & Bs & Hs).
  destruct (difference_accurate cos cosine psi theta t cos_lipschitz (acc_cos _ _ _ ACC) Fp Ft Ht) as (Fc & Bc & Hc).
  destruct (product_accurate v w _ _ Fv Hw Hq Fs Bs Hs) as (F1 & B1 & H1).
  destruct (product_accurate v w _ _ Fv Hw Hq Fc Bc Hc) as (F2 & B2 & H2).
  fold q in B1, H1, B2, H2.
  assert (L1 : 1 <= bpow radix2 60) by (change 1 with (bpow radix2 0); apply bpow_le; lia).
  pose proof h1075_small as HS.
  assert (K : 3 * q + 4 * h1075 <= bpow radix2 1000).
  { apply Rle_trans with (bpow radix2 (60 + 1 + 1)); [rewrite !double_bpow; lra|apply bpow_le; lia]. }
  destruct (times_one _ F1 (Rle_trans _ _ _ B1 K)) as [O1 G1]. destruct (times_one _ F2 (Rle_trans _ _ _ B2 K)) as [O2 G2].
  rewrite <- O1 in B1, H1. rewrite <- O2 in B2, H2.
  assert (HS4 : 0 < 4 * h1075 <= / 1000000000).
  { split; [lra|]. apply Rle_trans with (bpow radix2 (-1073)); [change (-1073)%Z with (2 + -1075)%Z; rewrite bpow_plus; apply Rle_refl|].
    apply Rle_trans with (bpow radix2 (-53)); [apply bpow_le; lia|]. pose proof u64_small as U. unfold u64 in U. lra. }
  assert (Q0 : 0 <= q <= bpow radix2 60) by (split; [apply Rabs_pos|exact Hq]).
  destruct (add_accurate (v_x s) _ _ q 11.5 (4 * h1075) HS4 Fx G1 Bx B1 Q0 ltac:(lra) H1) as [[Fx' Hx] _].
  destruct (add_accurate (v_y s) _ _ q 11.5 (4 * h1075) HS4 Fy G2 By B2 Q0 ltac:(lra) H2) as [_ [Fy' Hy]].
  assert (T : forall X, Rabs X <= bpow radix2 60 -> u52 / 2 * Rabs X + (11.5 + 1.5) * u52 * q + 2 * (4 * h1075) <=
     bpow radix2 (-48) * (Rabs X + q) + bpow radix2 (-1000)).
  { intros X _. change (bpow radix2 (-48)) with (/ 281474976710656). rewrite u52_value. pose proof (Rabs_pos X).
    assert (2 * (4 * h1075) <= bpow radix2 (-1000)).
    { apply Rle_trans with (8 * h1075); [lra|]. change 8 with (bpow radix2 3). unfold h1075. rewrite <- bpow_plus. apply bpow_le. lia. }
    lra. }
  assert (Es : ctrv_next s dt = CtrvState (A := D)
      (Bplus mode_NE (v_x s : f64) (Bmult mode_NE (Bmult mode_NE (Bdiv mode_NE v w) (Bminus mode_NE (sine theta) (sine psi))) (f64_of_Z 1)))
      (Bminus mode_NE (v_y s : f64) (Bmult mode_NE (Bmult mode_NE (Bdiv mode_NE v w) (Bminus mode_NE (cosine theta) (cosine psi))) (f64_of_Z 1)))
      (v_vel s) (v_yaw (ctrv_next s dt)) (v_rate s)).
  { unfold ctrv_next. change (nnear0 D (v_rate s) = false) in N0. rewrite N0. reflexivity. }
  assert (Ee : v_x e = val (v_x s) + B2R v / B2R w * (sin t - sin (B2R psi)) /\
               v_y e = val (v_y s) - B2R v / B2R w * (cos t - cos (B2R psi))).
  { unfold e, ctrv_next. cbn [exact_ctrv v_rate v_x v_y v_vel v_yaw nnear0 reals].
    fold w psi v. destruct (Rlt_dec (Rabs (B2R w)) dbl_min); [lra|]. cbn [v_x v_y nadd nsub nmul ndiv nsin ncos n1 reals].
    pose proof (exact_heading (B2R psi) (B2R w * B2R dt)) as E1. pose proof (exact_heading (B2R psi) 0) as E2.
    rewrite !Rplus_0_r in E2. fold t in E1.
    rewrite (same_turn_sin _ _ E1), (same_turn_sin _ _ E2), (same_turn_cos _ _ E1), (same_turn_cos _ _ E2). cbn [num reals]. split; ring. }
  destruct Ee as [Ee1 Ee2]. unfold s'. rewrite Es. cbn [v_x v_y]. rewrite Ee1, Ee2.
  split; [exact Fx'|]. split; [exact Fy'|]. split.
  - eapply Rle_trans; [exact Hx|]. now apply T.
  - eapply Rle_trans; [exact Hy|]. now apply T.
Qed.

Lemma ctrv_straight_accurate (s : ctrv_state D) (dt : f64) : ordinary_ctrv s -> is_finite dt = true ->
  nnear0 D (v_rate s) = true -> let q := Rabs (val (v_vel s) * B2R dt) in
  Rabs (val (v_vel s)) <= bpow radix2 60 -> Rabs (B2R dt) <= bpow radix2 30 -> q <= bpow radix2 60 ->
  let s' := ctrv_next s dt in let e := ctrv_next (exact_ctrv s) (B2R dt) in
  is_finite (v_x s' : f64) = true /\ is_finite (v_y s' : f64) = true /\
  Rabs (val (v_x s') - v_x e) <= bpow radix2 (-48) * (Rabs (val (v_x s)) + q) + bpow radix2 (-1000) /\
  Rabs (val (v_y s') - v_y e) <= bpow radix2 (-48) * (Rabs (val (v_y s)) + q) + bpow radix2 (-1000).
Proof.
  intros [Fx Bx Fy By Fv Fw [Fp Bp]] Fd N q Bv Bd Hq s' e. pose proof N as N0. rewrite (near0_double _ Fw) in N.
  destruct (Rlt_dec (Rabs (val (v_rate s))) dbl_min) as [Nw|?]; [|discriminate]. clear N.
  set (psi := get_angle (v_yaw s) : f64) in *. set (v := v_vel s : f64) in *.
  destruct (acc_cos _ _ _ ACC psi Fp) as (Fc & Bc & Hc). destruct (acc_sin _ _ _ ACC psi Fp) as (Fs & Bs & Hs).
  change (bpow radix2 (-52)) with u52 in Hc, Hs.
  destruct (straight_accurate v _ dt _ Fv Fc Fd Bv Bd Hq Bc Hc) as (F1 & B1 & H1).
  destruct (straight_accurate v _ dt _ Fv Fs Fd Bv Bd Hq Bs Hs) as (F2 & B2 & H2).
  fold q in B1, H1, B2, H2.
  assert (HS4 : 0 < bpow radix2 (-1040) <= / 1000000000).
  { split; [apply bpow_gt_0|]. apply Rle_trans with (bpow radix2 (-53)); [apply bpow_le; lia|].
    pose proof u64_small as U. unfold u64 in U. lra. }
  assert (Q0 : 0 <= q <= bpow radix2 60) by (split; [apply Rabs_pos|exact Hq]).
  destruct (add_accurate (v_x s) _ _ q 3 _ HS4 Fx F1 Bx B1 Q0 ltac:(lra) H1) as [[Fx' Hx] _].
  destruct (add_accurate (v_y s) _ _ q 3 _ HS4 Fy F2 By B2 Q0 ltac:(lra) H2) as [[Fy' Hy] _].
  assert (T : forall X, u52 / 2 * Rabs X + (3 + 1.5) * u52 * q + 2 * bpow radix2 (-1040) <=
     bpow radix2 (-48) * (Rabs X + q) + bpow radix2 (-1000)).
  { intros X. change (bpow radix2 (-48)) with (/ 281474976710656). rewrite u52_value. pose proof (Rabs_pos X).
    assert (2 * bpow radix2 (-1040) <= bpow radix2 (-1000)).
    { change 2 with (bpow radix2 1). rewrite <- bpow_plus. apply bpow_le. lia. }
    lra. }
  assert (Es : ctrv_next s dt = CtrvState (A := D)
      (Bplus mode_NE (v_x s : f64) (Bmult mode_NE (Bmult mode_NE v (cosine psi)) dt))
      (Bplus mode_NE (v_y s : f64) (Bmult mode_NE (Bmult mode_NE v (sine psi)) dt))
      (v_vel s) (v_yaw (ctrv_next s dt)) (v_rate s)).
  { unfold ctrv_next. rewrite N0. reflexivity. }
  assert (Ee : v_x e = val (v_x s) + B2R v * cos (B2R psi) * B2R dt /\
               v_y e = val (v_y s) + B2R v * sin (B2R psi) * B2R dt).
  { unfold e, ctrv_next. cbn [exact_ctrv v_rate v_x v_y v_vel v_yaw nnear0 reals].
    fold psi v. destruct (Rlt_dec (Rabs (val (v_rate s))) dbl_min); [|lra]. cbn [v_x v_y nadd nsub nmul ndiv nsin ncos n1 reals].
    pose proof (exact_heading (B2R psi) 0) as E2. rewrite !Rplus_0_r in E2.
    rewrite (same_turn_sin _ _ E2), (same_turn_cos _ _ E2). split; reflexivity. }
  destruct Ee as [Ee1 Ee2]. unfold s'. rewrite Es. cbn [v_x v_y]. rewrite Ee1, Ee2.
  split; [exact Fx'|]. split; [exact Fy'|]. split.
  - eapply Rle_trans; [exact Hx|]. apply T.
  - eapply Rle_trans; [exact Hy|]. apply T.
Qed.

(** Heading, velocity and rate *)
Lemma ctrv_heading_accurate (s : ctrv_state D) (dt : f64) : ordinary_ctrv s -> is_finite dt = true ->
  Rabs (val (v_rate s) * B2R dt) < 8 ->
  let s' := ctrv_next s dt in let e := ctrv_next (exact_ctrv s) (B2R dt) in
  v_vel s' = v_vel s /\ v_rate s' = v_rate s /\ proper sine cosine phase (v_yaw s') /\
  turn_close (bpow radix2 (-47)) (val (get_angle (v_yaw s'))) (get_angle (v_yaw e)).
Proof.
  intros [Fx Bx Fy By Fv Fw P] Fd B s' e.
  assert (E1 : v_vel s' = v_vel s /\ v_rate s' = v_rate s /\ v_yaw s' = turn_step sine cosine phase (v_rate s) dt (v_yaw s)).
  { unfold s', ctrv_next. destruct (nnear0 D (v_rate s)); repeat split. }
  assert (E2 : v_yaw e = angle_add (angleR (val (get_angle (v_yaw s)))) (angleR (val (v_rate s) * B2R dt))).
  { unfold e, ctrv_next. cbn [exact_ctrv v_rate v_x v_y v_vel v_yaw nnear0 reals]. destruct (Rlt_dec _ _); reflexivity. }
  destruct E1 as (-> & -> & ->). rewrite E2.
  destruct (turn_step_accurate _ _ _ ACC (v_rate s) dt (v_yaw s) P Fw Fd B) as [P' H].
  split; [reflexivity|]. split; [reflexivity|]. split; [exact P'|].
  set (a := val (get_angle (v_yaw s))) in *. set (b := val (v_rate s) * B2R dt) in *.
  assert (H2 : turn_close 0 (a + b) (get_angle (angle_add (angleR a) (angleR b)))).
  { destruct (angle_add_spec (angleR a) (angleR b)) as [k Ek]. destruct (get_angle_spec a) as [_ [k1 E1]].
    destruct (get_angle_spec b) as [_ [k2 E2']]. rewrite Ek, E1, E2'. exists (- k - k1 - k2)%Z.
    rewrite !minus_IZR, opp_IZR. apply Req_le. rewrite <- Rabs_R0. f_equal. ring. }
  apply turn_close_le with (22.2 * u52 + 0).
  { rewrite u52_value. change (bpow radix2 (-47)) with (/ 140737488355328). lra. }
  eapply turn_close_trans2; [exact H|exact H2].
Qed.
End Ctrv.
