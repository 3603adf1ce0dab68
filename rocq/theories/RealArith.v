(** Exact arithmetic: the real numbers as number type of Motion.v. *)
From Coq Require Import Reals Lra Lia ZArith.
From Verif Require Import Motion.
Open Scope R_scope.

(** The phase of a complex number, in (-pi, pi]; std::arg over the reals. *)
Definition argR (x y : R) : R :=
  let r := sqrt (x * x + y * y) in
  if Req_EM_T r 0 then 0
  else if Rlt_dec y 0 then - acos (x / r) else acos (x / r).

(** DBL_MIN *)
Definition dbl_min : R := / 2 ^ 1022.

Definition reals : arith := {|
  num := R;
  n0 := 0; n1 := 1; n2 := 2; nhalf := 1 / 2; npi := PI;
  nadd := Rplus; nsub := Rminus; nmul := Rmult; ndiv := Rdiv; nneg := Ropp;
  nlt := fun x y => if Rlt_dec x y then true else false;
  nsin := sin; ncos := cos; narg := argR;
  nnear0 := fun x => if Rlt_dec (Rabs x) dbl_min then true else false
|}.

Notation rangle := (angle reals).
Notation angleR := (@angle_of reals).

(** ** Vocabulary for statements about angles *)

(** Equal up to whole turns. *)
Definition same_turn (x y : R) : Prop := exists k : Z, x = y + IZR k * (2 * PI).
(** The angle objects of the program: points of the unit circle. *)
Definition on_circle (z : rangle) : Prop := re z * re z + im z * im z = 1.

(** ** Trigonometry *)
Lemma sin_cos_turn (x : R) (k : Z) :
  cos (x + IZR k * (2 * PI)) = cos x /\ sin (x + IZR k * (2 * PI)) = sin x.
Proof.
  destruct (Z_le_gt_dec 0 k) as [H|H].
  - rewrite <- (Z2Nat.id k H), <- INR_IZR_INZ.
    replace (x + INR (Z.to_nat k) * (2 * PI)) with (x + 2 * INR (Z.to_nat k) * PI) by ring.
    split; [apply cos_period | apply sin_period].
  - assert (H' : (0 <= - k)%Z) by lia.
    set (y := x + IZR k * (2 * PI)).
    replace x with (y + 2 * INR (Z.to_nat (- k)) * PI).
    + split; [symmetry; apply cos_period | symmetry; apply sin_period].
    + rewrite INR_IZR_INZ, Z2Nat.id, opp_IZR by exact H'. unfold y. ring.
Qed.

Lemma same_turn_cos x y : same_turn x y -> cos x = cos y.
Proof. intros [k ->]. apply sin_cos_turn. Qed.
Lemma same_turn_sin x y : same_turn x y -> sin x = sin y.
Proof. intros [k ->]. apply sin_cos_turn. Qed.
Lemma same_turn_refl x : same_turn x x.
Proof. exists 0%Z. lra. Qed.
Lemma same_turn_sym x y : same_turn x y -> same_turn y x.
Proof. intros [k ->]. exists (- k)%Z. rewrite opp_IZR. lra. Qed.
Lemma same_turn_trans x y z : same_turn x y -> same_turn y z -> same_turn x z.
Proof. intros [k ->] [l ->]. exists (k + l)%Z. rewrite plus_IZR. lra. Qed.
Lemma same_turn_add x y x' y' : same_turn x y -> same_turn x' y' -> same_turn (x + x') (y + y').
Proof. intros [k ->] [l ->]. exists (k + l)%Z. rewrite plus_IZR. lra. Qed.
Lemma same_turn_sub x y x' y' : same_turn x y -> same_turn x' y' -> same_turn (x - x') (y - y').
Proof. intros [k ->] [l ->]. exists (k - l)%Z. rewrite minus_IZR. lra. Qed.

Lemma angle_of_turn x y : same_turn x y -> angleR x = angleR y.
Proof.
  intros H. unfold angle_of. cbn. f_equal; [now apply same_turn_cos | now apply same_turn_sin].
Qed.

(** A representative in [0, 2pi). *)
Lemma wrap_exists (a : R) : exists x, 0 <= x < 2 * PI /\ same_turn x a.
Proof.
  pose proof PI_RGT_0 as HP.
  destruct (base_Int_part (a / (2 * PI))) as [H1 H2].
  set (k := Int_part (a / (2 * PI))) in *.
  exists (a - IZR k * (2 * PI)).
  set (q := a / (2 * PI)) in *.
  assert (E : a = q * (2 * PI)) by (unfold q; field; lra).
  split.
  - assert (0 <= (q - IZR k) * (2 * PI)) by (apply Rmult_le_pos; lra).
    assert ((q - IZR k) * (2 * PI) < 1 * (2 * PI)) by (apply Rmult_lt_compat_r; lra).
    lra.
  - exists (- k)%Z. rewrite opp_IZR. lra.
Qed.

Lemma wrap_unique x y : 0 <= x < 2 * PI -> 0 <= y < 2 * PI -> same_turn x y -> x = y.
Proof.
  intros Hx Hy [k E]. pose proof PI_RGT_0 as HP.
  assert (k = 0%Z) as ->; [|lra].
  destruct (Z_lt_le_dec k 0) as [H|H].
  - assert (IZR k <= -1) by (apply IZR_le; lia). nra.
  - destruct (Z_lt_le_dec 0 k) as [H'|H']; [|lia].
    assert (1 <= IZR k) by (apply IZR_le; lia). nra.
Qed.

(** ** get_angle *)
Lemma circle_of x : on_circle (angleR x).
Proof. unfold on_circle, angle_of. cbn. pose proof (sin2_cos2 x). unfold Rsqr in *. lra. Qed.

Lemma get_angle_canonical x : 0 <= x < 2 * PI -> get_angle (angleR x) = x.
Proof.
  intros [H0 H1]. pose proof PI_RGT_0 as HP.
  unfold get_angle, angle_of. cbn. unfold argR.
  replace (cos x * cos x + sin x * sin x) with 1
    by (pose proof (sin2_cos2 x); unfold Rsqr in *; lra).
  rewrite sqrt_1. replace (cos x / 1) with (cos x) by field.
  destruct (Req_EM_T 1 0) as [E|_]; [lra|].
  destruct (Rle_dec x PI) as [Hle|Hgt].
  - assert (0 <= sin x) by (apply sin_ge_0; lra).
    destruct (Rlt_dec (sin x) 0); [lra|].
    rewrite acos_cos by lra.
    destruct (Rlt_dec x 0); lra.
  - assert (sin x < 0) by (apply sin_lt_0; lra).
    destruct (Rlt_dec (sin x) 0); [|lra].
    replace (cos x) with (cos (2 * PI - x)).
    + rewrite acos_cos by lra. destruct (Rlt_dec (- (2 * PI - x)) 0); lra.
    + rewrite cos_minus, cos_2PI, sin_2PI. lra.
Qed.

Lemma get_angle_spec a :
  0 <= get_angle (angleR a) < 2 * PI /\ same_turn (get_angle (angleR a)) a.
Proof.
  destruct (wrap_exists a) as (x & Hx & E).
  rewrite <- (angle_of_turn _ _ E), get_angle_canonical by exact Hx. auto.
Qed.

Lemma circle_is_angle z : on_circle z -> exists x, 0 <= x < 2 * PI /\ z = angleR x.
Proof.
  destruct z as [x y]. unfold on_circle. cbn. intros H.
  pose proof PI_RGT_0 as HP.
  assert (Hx : -1 <= x <= 1) by nra.
  assert (E : exists a, cos a = x /\ sin a = y).
  { destruct (acos_bound x) as [B1 B2].
    pose proof (cos_acos x Hx) as C. pose proof (sin_acos x Hx) as S.
    assert (Sq : Rsqr (sin (acos x)) = Rsqr y).
    { rewrite S. rewrite Rsqr_sqrt; unfold Rsqr; nra. }
    destruct (Rle_dec 0 y) as [Hy|Hy].
    - exists (acos x). split; [exact C|].
      apply Rsqr_inj; [apply sin_ge_0; lra | exact Hy | exact Sq].
    - exists (- acos x). rewrite cos_neg, sin_neg. split; [exact C|].
      assert (sin (acos x) = - y); [|lra].
      apply Rsqr_inj; [apply sin_ge_0; lra | lra | rewrite <- Rsqr_neg; exact Sq]. }
  destruct E as (a & C & S).
  destruct (wrap_exists a) as (w & Hw & Ew).
  exists w. split; [exact Hw|].
  rewrite (angle_of_turn _ _ Ew). unfold angle_of. cbn. now rewrite C, S.
Qed.

Lemma get_angle_range z : on_circle z -> 0 <= get_angle z < 2 * PI.
Proof. intros H. destruct (circle_is_angle z H) as (x & Hx & ->). now rewrite get_angle_canonical. Qed.

Lemma angle_of_get z : on_circle z -> angleR (get_angle z) = z.
Proof. intros H. destruct (circle_is_angle z H) as (x & Hx & ->). now rewrite get_angle_canonical. Qed.

Lemma cos_get z : on_circle z -> cos (get_angle z) = re z.
Proof. intros H. rewrite <- (angle_of_get z H) at 2. reflexivity. Qed.
Lemma sin_get z : on_circle z -> sin (get_angle z) = im z.
Proof. intros H. rewrite <- (angle_of_get z H) at 2. reflexivity. Qed.

Lemma angle_add_spec (x y : rangle) : same_turn (get_angle (angle_add x y)) (get_angle x + get_angle y).
Proof. apply get_angle_spec. Qed.
Lemma angle_add_of (z : rangle) a : on_circle z -> angle_add z (angleR a) = angleR (get_angle z + a).
Proof.
  intros H. unfold angle_add. apply angle_of_turn. apply same_turn_add; [apply same_turn_refl|].
  apply get_angle_spec.
Qed.
