(** Rounding helpers: properties C69 and C77. *)
From Coq Require Import Reals Lra Lia ZArith List.
From Verif Require Import Motion RealArith StateVec PiBounds Rounding RoundingThms RoundingFloat.
Import ListNotations.
Local Open Scope R_scope.

(** C69: the result is a multiple of 10^-d, at most half a unit away, and a tie
    is rounded away from zero; no other number is like that. *)
Theorem C69_nearest (d : nat) (x : R) : let r := round_to d x in let unit := / 10 ^ d in
  (exists m : Z, r = IZR m * unit) /\ Rabs (r - x) <= unit / 2 /\
  (Rabs (r - x) = unit / 2 -> Rabs r = Rabs x + unit / 2).
Proof.
  intros r unit. pose proof (pow10_pos d) as P.
  assert (U : unit / 2 = half_unit d) by (unfold unit, half_unit; field; lra). rewrite U. split; [|split].
  - destruct (round_to_decimal d x) as [m E]. exists m. fold r in E. rewrite <- E. unfold unit. field. lra.
  - apply round_to_near.
  - apply round_to_away.
Qed.
Theorem C69_unique (d : nat) (x y : R) : let unit := / 10 ^ d in
  (exists m : Z, y = IZR m * unit) -> Rabs (y - x) <= unit / 2 ->
  (Rabs (y - x) = unit / 2 -> Rabs y = Rabs x + unit / 2) -> round_to d x = y.
Proof.
  intros unit. pose proof (pow10_pos d) as P.
  assert (U : unit / 2 = half_unit d) by (unfold unit, half_unit; field; lra). rewrite U.
  intros [m E]. apply round_to_unique. exists m. rewrite E. unfold unit. field. lra.
Qed.
Theorem C69_monotone (d : nat) (x y : R) : x <= y -> round_to d x <= round_to d y.
Proof. exact (round_to_mono d x y). Qed.
Theorem C69_idempotent (d : nat) (x : R) : round_to d (round_to d x) = round_to d x.
Proof. exact (round_to_idem d x). Qed.
Theorem C69_odd (d : nat) (x : R) : round_to d (- x) = - round_to d x.
Proof. exact (round_to_opp d x). Qed.
(** The matrix version rounds every entry. *)
Theorem C69_matrix (d i j : nat) (m : list (list R)) (row : list R) (x : R) :
  nth_error m i = Some row -> nth_error row j = Some x ->
  exists row', nth_error (round_matrix d m) i = Some row' /\ nth_error row' j = Some (round_to d x).
Proof.
  intros Hi Hj. exists (map (round_to d) row). unfold round_matrix.
  now rewrite !nth_error_map, Hi, Hj.
Qed.
(** With the roundings of double and float: monotone, odd, and (up to 2^22 units
    of the last decimal) idempotent and not farther than one unit away. *)
Theorem C69_float_monotone (d : nat) (x y : R) : x <= y -> round_to_fl d x <= round_to_fl d y.
Proof. exact (round_to_fl_mono d x y). Qed.
Theorem C69_float_odd (d : nat) (x : R) : round_to_fl d (- x) = - round_to_fl d x.
Proof. exact (round_to_fl_opp d x). Qed.
Theorem C69_float_idempotent (d : nat) (x : R) : (d <= 22)%nat -> Rabs x * 10 ^ d <= 2 ^ 22 ->
  round_to_fl d (round_to_fl d x) = round_to_fl d x.
Proof. exact (round_to_fl_idem d x). Qed.
Theorem C69_float_near (d : nat) (x : R) : (d <= 22)%nat -> Rabs x * 10 ^ d <= 2 ^ 22 ->
  Rabs (round_to_fl d x - x) <= / 10 ^ d.
Proof. exact (round_to_fl_near d x). Qed.
Print Assumptions C69_nearest.
Print Assumptions C69_unique.
Print Assumptions C69_monotone.
Print Assumptions C69_idempotent.
Print Assumptions C69_odd.
Print Assumptions C69_matrix.
Print Assumptions C69_float_monotone.
Print Assumptions C69_float_odd.
Print Assumptions C69_float_idempotent.
Print Assumptions C69_float_near.
Example C69_case : round_to 2 1.005 = 1.01 /\ round_to 2 (-1.005) = -1.01 /\ round_to 0 0.4 = 0.
Proof.
  repeat split; apply round_to_unique; unfold half_unit;
    [exists 101%Z; lra| | |exists (-101)%Z; lra| | |exists 0%Z; lra| |];
    unfold Rabs; repeat destruct (Rcase_abs _); lra.
Qed.
Example C69_float_case : (3 <= 22)%nat /\ Rabs 1.2345 * 10 ^ 3 <= 2 ^ 22.
Proof. split; [lia|]. rewrite Rabs_pos_eq; lra. Qed.

(** C77: the entries of a rounded state other than the heading are multiples of the
    unit and within half a unit of what they were, *)
Theorem C77_fields (d : nat) (s : ctra_state reals) : let r := round_ctra d s in
  forall f, List.In f [@a_x reals; @a_y reals; @a_vel reals; @a_rate reals; @a_acc reals] ->
  (exists m : Z, f r = IZR m * / 10 ^ d) /\ Rabs (f r - f s) <= / 10 ^ d / 2.
Proof.
  intros r f [<-|[<-|[<-|[<-|[<-|[]]]]]]; apply rounded_entry.
Qed.
Theorem C77_fields_ctrv (d : nat) (s : ctrv_state reals) : let r := round_ctrv d s in
  forall f, List.In f [@v_x reals; @v_y reals; @v_vel reals; @v_rate reals] ->
  (exists m : Z, f r = IZR m * / 10 ^ d) /\ Rabs (f r - f s) <= / 10 ^ d / 2.
Proof.
  intros r f [<-|[<-|[<-|[<-|[]]]]]; apply rounded_entry.
Qed.
(** the rounded heading of a state is within half a unit of the heading, up
    to whole turns ... *)
Theorem C77_heading (d : nat) (s : ctrv_state reals) : on_circle (v_yaw s) ->
  let h := get_angle (v_yaw s) in let h' := get_angle (v_yaw (round_ctrv d s)) in
  exists k : Z, Rabs (h' + IZR k * (2 * PI) - h) <= / 10 ^ d / 2 /\ (k = 0 \/ k = 1)%Z /\
  (exists m : Z, h' + IZR k * (2 * PI) = IZR m * / 10 ^ d).
Proof. exact (rounded_heading_near d (v_yaw s)). Qed.
Theorem C77_heading_ctra (d : nat) (s : ctra_state reals) : on_circle (a_yaw s) ->
  let h := get_angle (a_yaw s) in let h' := get_angle (a_yaw (round_ctra d s)) in
  exists k : Z, Rabs (h' + IZR k * (2 * PI) - h) <= / 10 ^ d / 2 /\ (k = 0 \/ k = 1)%Z /\
  (exists m : Z, h' + IZR k * (2 * PI) = IZR m * / 10 ^ d).
Proof. exact (rounded_heading_near d (a_yaw s)). Qed.
(** ... and rounding a state again changes it exactly when the rounded heading
    exceeds a turn; this happens. *)
Theorem C77_again (d : nat) (s : ctrv_state reals) : on_circle (v_yaw s) ->
  round_ctrv d (round_ctrv d s) = round_ctrv d s <-> round_to d (get_angle (v_yaw s)) <= 2 * PI.
Proof.
  intros Hc. rewrite <- (rounded_heading_again d (v_yaw s) Hc). unfold round_ctrv.
  cbn [v_x v_y v_vel v_yaw v_rate]. rewrite !round_to_idem.
  split; [intros H; exact (f_equal (@v_yaw reals) H)|now intros ->].
Qed.
Theorem C77_again_ctra (d : nat) (s : ctra_state reals) : on_circle (a_yaw s) ->
  round_ctra d (round_ctra d s) = round_ctra d s <-> round_to d (get_angle (a_yaw s)) <= 2 * PI.
Proof.
  intros Hc. rewrite <- (rounded_heading_again d (a_yaw s) Hc). unfold round_ctra.
  cbn [a_x a_y a_vel a_yaw a_rate a_acc]. rewrite !round_to_idem.
  split; [intros H; exact (f_equal (@a_yaw reals) H)|now intros ->].
Qed.
Theorem C77_idempotent_refuted : exists s : ctrv_state reals, on_circle (v_yaw s) /\
  round_ctrv 1 (round_ctrv 1 s) <> round_ctrv 1 s.
Proof.
  exists (CtrvState (A := reals) 0 0 0 (angleR 6.27) 0). cbn [v_yaw]. split; [apply circle_of|].
  rewrite C77_again by apply circle_of. cbn [v_yaw]. pose proof pi_bounds.
  pose proof pi_below.
  rewrite get_angle_canonical by lra. rewrite tenth_over. lra.
Qed.
(** An augmented state is rounded part by part. *)
Theorem C77_augmented (S : Type) (round_state : nat -> S -> S) (d : nat) (a : augmented S) :
  let r := round_augmented round_state d a in
  g_state r = round_state d (g_state a) /\
  forall f, List.In f [@n_lin reals; @n_ang reals] ->
  (exists m : Z, f (g_noise r) = IZR m * / 10 ^ d) /\ Rabs (f (g_noise r) - f (g_noise a)) <= / 10 ^ d / 2.
Proof. intros r. split; [reflexivity|]. intros f [<-|[<-|[]]]; apply rounded_entry. Qed.
Print Assumptions C77_fields.
Print Assumptions C77_fields_ctrv.
Print Assumptions C77_heading.
Print Assumptions C77_heading_ctra.
Print Assumptions C77_again.
Print Assumptions C77_again_ctra.
Print Assumptions C77_idempotent_refuted.
Print Assumptions C77_augmented.
Example C77_case : let z := angleR 6.27 in on_circle z /\ round_to 1 (get_angle z) = 6.3.
Proof.
  split; [apply circle_of|]. pose proof pi_bounds. rewrite get_angle_canonical by lra. exact tenth_over.
Qed.
