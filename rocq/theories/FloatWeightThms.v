(** The fusion weight in single precision. *)
From Coq Require Import ZArith Reals Lra Lia Bool List Permutation.
From Flocq Require Import Core IEEE754.BinarySingleNaN.
From Flocq Require Import Relative.
From Verif Require Import Base Float FloatProofs FloatDistance FloatDistanceThms FloatWeight.
Import ListNotations.
Open Scope R_scope.

(** ** Operations on finite operands *)
Lemma small_lt x : Rabs x < bpow radix2 128 -> format32 x ->
  Rlt_bool (Rabs (round radix2 fexp32 (round_mode mode_NE) x)) (bpow radix2 128) = true.
Proof. intros H F. apply Rlt_bool_true. change (Rabs (rnd32 x) < bpow radix2 128). now rewrite rnd32_id. Qed.
Lemma between_lt x y : 0 <= x <= y -> format32 y -> y < bpow radix2 128 ->
  Rlt_bool (Rabs (round radix2 fexp32 (round_mode mode_NE) x)) (bpow radix2 128) = true.
Proof.
  intros [Hx Hy] F L. apply Rlt_bool_true. change (Rabs (rnd32 x) < bpow radix2 128).
  rewrite Rabs_pos_eq by now apply rnd32_pos. apply Rle_lt_trans with (rnd32 y); [now apply rnd32_le|].
  now rewrite rnd32_id.
Qed.
Lemma fmtB (x : f32) : format32 (B2R x).
Proof. apply generic_format_B2R. Qed.
Lemma ltB (x : f32) : B2R x < bpow radix2 128.
Proof. pose proof (abs_B2R_lt_emax 24 128 x). pose proof (Rle_abs (B2R x)). lra. Qed.
Lemma f32_2 : B2R (f32_of_Z 2) = 2 /\ is_finite (f32_of_Z 2) = true.
Proof.
  split; [|reflexivity]. cbn. unfold F2R. cbn. lra.
Qed.

(** A product is finite only if both factors are. *)
Lemma mul_finite (x y : f32) : is_finite (f32_mul x y) = true -> is_finite x = true /\ is_finite y = true.
Proof.
  unfold f32_mul. destruct x as [s|s| |s m e Hb], y as [s'|s'| |s' m' e' Hb']; cbn; try discriminate; auto.
Qed.
Lemma mul_le (x y x' y' : f32) : is_finite x = true -> is_finite y = true ->
  0 <= B2R x <= B2R x' -> 0 <= B2R y <= B2R y' -> is_finite (f32_mul x' y') = true ->
  is_finite (f32_mul x y) = true /\ 0 <= B2R (f32_mul x y) <= B2R (f32_mul x' y').
Proof.
  intros Fx Fy Hx Hy F. destruct (mul_finite _ _ F) as [Fx' Fy'].
  pose proof (Bmult_correct 24 128 _ _ mode_NE x' y') as C'.
  destruct (Rlt_bool_spec (Rabs (round radix2 fexp32 (round_mode mode_NE) (B2R x' * B2R y'))) (bpow radix2 128)) as [L|L].
  2:{ exfalso. unfold f32_mul in F. rewrite <- is_finite_SF_B2SF, C' in F. destruct (xorb _ _); discriminate. }
  destruct C' as (E' & _ & _). change (B2R (f32_mul x' y') = rnd32 (B2R x' * B2R y')) in E'.
  change (Rabs (rnd32 (B2R x' * B2R y')) < bpow radix2 128) in L.
  assert (P : 0 <= B2R x * B2R y <= B2R x' * B2R y') by (split; [nra|apply Rmult_le_compat; lra]).
  pose proof (rnd32_pos _ (proj1 P)) as Q. pose proof (rnd32_le _ _ (proj2 P)) as M.
  assert (L' : Rabs (rnd32 (B2R x * B2R y)) < bpow radix2 128).
  { rewrite Rabs_pos_eq by exact Q. pose proof (Rle_abs (rnd32 (B2R x' * B2R y'))). lra. }
  pose proof (Bmult_correct 24 128 _ _ mode_NE x y) as C.
  rewrite Rlt_bool_true in C by exact L'. destruct C as (E & G & _).
  change (B2R (f32_mul x y) = rnd32 (B2R x * B2R y)) in E.
  split; [unfold f32_mul; now rewrite G, Fx, Fy|]. rewrite E, E'. lra.
Qed.

(** ** The formula *)
Lemma double_fmt x : format32 x -> format32 (2 * x).
Proof.
  intros H. apply (FLT_format_generic radix2 (-149) 24) in H.
  destruct H as [[m e] E Hm He]. cbn [Fnum Fexp] in *.
  change (generic_format radix2 (FLT_exp (-149) 24) (2 * x)). apply generic_format_FLT.
  exists (Float radix2 m (e + 1)); cbn [Fnum Fexp]; [|exact Hm|lia].
  rewrite E. unfold F2R. cbn [Fnum Fexp]. rewrite bpow_plus. change (bpow radix2 1) with 2. ring.
Qed.
Lemma weight_unit (d1 d2 s : f32) : is_finite d1 = true -> is_finite d2 = true -> is_finite s = true ->
  0 <= B2R d1 <= B2R s -> 0 <= B2R d2 <= B2R s -> 0 < B2R s < bpow radix2 127 ->
  let w := f32_div (f32_add (f32_sub s d2) d1) (f32_mul (f32_of_Z 2) s) in
  is_finite w = true /\ 0 <= B2R w <= 1 /\
  B2R w = rnd32 (rnd32 (rnd32 (B2R s - B2R d2) + B2R d1) / (2 * B2R s)).
Proof.
  intros F1 F2 Fs H1 H2 Hs w.
  assert (T : 2 * bpow radix2 127 = bpow radix2 128) by (change 128%Z with (1 + 127)%Z; now rewrite bpow_plus).
  pose proof (Bminus_correct 24 128 _ _ mode_NE s d2 Fs F2) as C.
  rewrite (between_lt _ (B2R s)) in C by (try apply fmtB; try apply ltB; lra). destruct C as (E1 & G1 & _).
  change (B2R (f32_sub s d2) = rnd32 (B2R s - B2R d2)) in E1. change (is_finite (f32_sub s d2) = true) in G1.
  assert (B1 : 0 <= B2R (f32_sub s d2) <= B2R s).
  { rewrite E1. split; [apply rnd32_pos; lra|]. rewrite <- (rnd32_id (B2R s) (fmtB s)) at 2. apply rnd32_le. lra. }
  pose proof (Bplus_correct 24 128 _ _ mode_NE _ d1 G1 F1) as C.
  rewrite (between_lt _ (2 * B2R s)) in C by (try apply double_fmt, fmtB; lra). destruct C as (E2 & G2 & _).
  change (B2R (f32_add (f32_sub s d2) d1) = rnd32 (B2R (f32_sub s d2) + B2R d1)) in E2.
  change (is_finite (f32_add (f32_sub s d2) d1) = true) in G2.
  assert (B2 : 0 <= B2R (f32_add (f32_sub s d2) d1) <= 2 * B2R s).
  { rewrite E2. split; [apply rnd32_pos; lra|]. rewrite <- (rnd32_id (2 * B2R s)) by apply double_fmt, fmtB.
    apply rnd32_le. lra. }
  destruct f32_2 as [V2 W2].
  pose proof (Bmult_correct 24 128 _ _ mode_NE (f32_of_Z 2) s) as C. rewrite V2, W2, Fs in C.
  rewrite small_lt in C by (try apply double_fmt, fmtB; rewrite Rabs_pos_eq; lra). destruct C as (E3 & G3 & _).
  change (B2R (f32_mul (f32_of_Z 2) s) = rnd32 (2 * B2R s)) in E3. rewrite rnd32_id in E3 by apply double_fmt, fmtB.
  assert (Q : 0 <= B2R (f32_add (f32_sub s d2) d1) / B2R (f32_mul (f32_of_Z 2) s) <= 1).
  { rewrite E3. apply ratio_unit; lra. }
  destruct (div32 (f32_add (f32_sub s d2) d1) (f32_mul (f32_of_Z 2) s) G2) as [E4 G4]; [rewrite E3; lra|exact Q|].
  split; [exact G4|]. unfold w. rewrite E4. split; [now apply rnd32_unit|]. now rewrite E3, E2, E1.
Qed.
(** The other cases *)
Lemma weight_nan_zero (d1 d2 s : f32) : is_finite d1 = true -> is_finite d2 = true -> is_finite s = true ->
  B2R s = 0 -> 0 <= B2R d1 <= B2R s -> 0 <= B2R d2 <= B2R s ->
  f32_div (f32_add (f32_sub s d2) d1) (f32_mul (f32_of_Z 2) s) = B754_nan.
Proof.
  intros F1 F2 Fs E H1 H2.
  assert (Z : forall x : f32, is_finite x = true -> B2R x = 0 -> exists b, x = B754_zero b).
  { intros [b|b| |b m e Hb] F V; try discriminate; [now exists b|]. exfalso. cbn in V.
    apply eq_0_F2R in V. destruct b; discriminate. }
  destruct (Z d1 F1 ltac:(lra)) as [b1 ->]. destruct (Z d2 F2 ltac:(lra)) as [b2 ->]. destruct (Z s Fs E) as [b ->].
  destruct b1, b2, b; reflexivity.
Qed.
Lemma weight_nan_infinite (d1 d2 s : f32) : is_finite s = false ->
  f32_div (f32_add (f32_sub s d2) d1) (f32_mul (f32_of_Z 2) s) = B754_nan.
Proof.
  intros F. destruct s as [b|b| |b m e Hb]; try discriminate; [|reflexivity].
  destruct b, d2 as [[]|[]| |[] m e Hb], d1 as [[]|[]| |[] m' e' Hb']; reflexivity.
Qed.
Lemma weight_zero_or_nan (d1 d2 s : f32) : is_finite s = true -> bpow radix2 127 <= B2R s ->
  let w := f32_div (f32_add (f32_sub s d2) d1) (f32_mul (f32_of_Z 2) s) in
  w = B754_nan \/ exists b, w = B754_zero b.
Proof.
  intros F H w. destruct f32_2 as [V2 W2].
  assert (E : exists b, f32_mul (f32_of_Z 2) s = B754_infinity b).
  { pose proof (Bmult_correct 24 128 _ _ mode_NE (f32_of_Z 2) s) as C. rewrite V2 in C.
    rewrite Rlt_bool_false in C.
    - change (Bmult mode_NE (f32_of_Z 2) s) with (f32_mul (f32_of_Z 2) s) in C.
      destruct (f32_mul (f32_of_Z 2) s) as [b|b| |b m e Hb]; try discriminate. now exists b.
    - change (bpow radix2 128 <= Rabs (rnd32 (2 * B2R s))). rewrite rnd32_id by apply double_fmt, fmtB.
      replace (bpow radix2 128) with (2 * bpow radix2 127) by (change (bpow radix2 128) with (bpow radix2 (1 + 127)); now rewrite bpow_plus).
      pose proof (Rle_abs (2 * B2R s)). lra. }
  destruct E as [b E]. unfold w. rewrite E.
  destruct (f32_add (f32_sub s d2) d1) as [b'|b'| |b' m e Hb]; cbn; eauto.
Qed.

(** ** Products *)
Lemma mul_value (x y : f32) : is_finite (f32_mul x y) = true -> B2R (f32_mul x y) = rnd32 (B2R x * B2R y).
Proof.
  intros F. pose proof (Bmult_correct 24 128 _ _ mode_NE x y) as C. unfold f32_mul in *.
  destruct (Rlt_bool _ _); [apply C|].
  exfalso. rewrite <- is_finite_SF_B2SF, C in F. destruct (xorb _ _); discriminate.
Qed.
Lemma add_value (x y : f32) : is_finite x = true -> is_finite y = true -> is_finite (f32_add x y) = true ->
  B2R (f32_add x y) = rnd32 (B2R x + B2R y).
Proof.
  intros Fx Fy F. pose proof (Bplus_correct 24 128 _ _ mode_NE x y Fx Fy) as C. unfold f32_add in *.
  destruct (Rlt_bool _ _); [apply C|].
  exfalso. destruct C as [C _]. rewrite <- is_finite_SF_B2SF, C in F. destruct (Bsign x); discriminate.
Qed.
Lemma add_above (x y : f32) : is_finite x = true -> is_finite y = true -> 0 <= B2R x -> 0 <= B2R y ->
  is_finite (f32_add x y) = true -> B2R x <= B2R (f32_add x y) /\ B2R y <= B2R (f32_add x y).
Proof.
  intros Fx Fy Hx Hy F. rewrite add_value by assumption.
  split; [rewrite <- (rnd32_id (B2R x)) at 1 by apply fmtB|rewrite <- (rnd32_id (B2R y)) at 1 by apply fmtB];
    apply rnd32_le; lra.
Qed.
Lemma prod_le t (a c : nat -> f32) :
  (forall i, In i (leaves t) -> is_finite (a i) = true /\ 0 <= B2R (a i) /\
     (is_finite (c i) = true -> B2R (a i) <= B2R (c i))) ->
  is_finite (prod32 t c) = true ->
  is_finite (prod32 t a) = true /\ 0 <= B2R (prod32 t a) <= B2R (prod32 t c).
Proof.
  induction t as [i|l IHl r IHr]; cbn [prod32 leaves]; intros H F.
  - destruct (H i (or_introl eq_refl)) as (A & B & C). auto.
  - destruct (mul_finite _ _ F) as [Fl Fr].
    destruct IHl as [Gl Hl]; [intros i Hi; apply H, in_or_app; auto|exact Fl|].
    destruct IHr as [Gr Hr]; [intros i Hi; apply H, in_or_app; auto|exact Fr|].
    now apply mul_le.
Qed.

(** ** The cases for diagonal matrices *)
Definition positive (t : tree) (d : nat -> f32) : Prop :=
  forall i, In i (leaves t) -> is_finite (d i) = true /\ 0 < B2R (d i).
Notation total a b := (fun i => f32_add (a i) (b i)).
Lemma dets_le t a b : positive t a -> positive t b -> is_finite (det32 t (total a b)) = true ->
  (is_finite (det32 t a) = true /\ 0 <= B2R (det32 t a) <= B2R (det32 t (total a b))) /\
  (is_finite (det32 t b) = true /\ 0 <= B2R (det32 t b) <= B2R (det32 t (total a b))).
Proof.
  intros Ha Hb F. split; apply prod_le; try exact F; intros i Hi;
    destruct (Ha i Hi) as [A1 A2]; destruct (Hb i Hi) as [B1 B2].
  - split; [exact A1|]. split; [lra|]. intros G. apply (add_above _ _ A1 B1); [lra..|exact G].
  - split; [exact B1|]. split; [lra|]. intros G. apply (add_above _ _ A1 B1); [lra..|exact G].
Qed.
Lemma weight_cases t a b : positive t a -> positive t b ->
  let s := det32 t (total a b) in let w := weight32 t a b in
  (is_finite s = true -> 0 < B2R s < bpow radix2 127 -> is_finite w = true /\ 0 <= B2R w <= 1) /\
  (is_finite s = true -> bpow radix2 127 <= B2R s -> w = B754_nan \/ exists b, w = B754_zero b) /\
  (is_finite s = false \/ B2R s = 0 -> w = B754_nan).
Proof.
  intros Ha Hb s w. split; [|split].
  - intros F H. destruct (dets_le t a b Ha Hb F) as [[F1 H1] [F2 H2]].
    pose proof (weight_unit _ _ _ F1 F2 F H1 H2 H) as K. cbv zeta in K. tauto.
  - intros F H. now apply weight_zero_or_nan.
  - intros [F|H]; [now apply weight_nan_infinite|]. destruct (is_finite s) eqn:F; [|now apply weight_nan_infinite].
    destruct (dets_le t a b Ha Hb F) as [[F1 H1] [F2 H2]]. now apply weight_nan_zero.
Qed.

(** Large entries *)
Lemma prod_large t (c : nat -> f32) j : (0 <= j)%Z ->
  (forall i, In i (leaves t) -> is_finite (c i) = true -> bpow radix2 j <= B2R (c i)) ->
  is_finite (prod32 t c) = true -> bpow radix2 (j * Z.of_nat (length (leaves t))) <= B2R (prod32 t c).
Proof.
  intros Hj. induction t as [i|l IHl r IHr]; cbn [prod32 leaves length]; intros H F.
  - rewrite Z.mul_1_r. apply H; [now left|exact F].
  - destruct (mul_finite _ _ F) as [Fl Fr]. rewrite mul_value by exact F.
    specialize (IHl (fun i Hi => H i (in_or_app _ _ _ (or_introl Hi))) Fl).
    specialize (IHr (fun i Hi => H i (in_or_app _ _ _ (or_intror Hi))) Fr).
    rewrite app_length, Nat2Z.inj_add, Z.mul_add_distr_l.
    rewrite <- (rnd32_id (bpow radix2 _)) by (apply fmt32_bpow; lia).
    apply rnd32_le. rewrite bpow_plus. apply Rmult_le_compat; try apply bpow_ge_0; assumption.
Qed.
Lemma weight_overflow t a b k : (0 <= k)%Z -> (128 <= (k + 1) * Z.of_nat (length (leaves t)))%Z ->
  (forall i, In i (leaves t) -> is_finite (a i) = true /\ is_finite (b i) = true /\
     bpow radix2 k <= B2R (a i) /\ bpow radix2 k <= B2R (b i)) ->
  weight32 t a b = B754_nan.
Proof.
  intros Hk Hn H. apply weight_nan_infinite.
  destruct (is_finite (det32 t (total a b))) eqn:F; [|reflexivity]. exfalso.
  assert (L : bpow radix2 ((k + 1) * Z.of_nat (length (leaves t))) <= B2R (det32 t (total a b))).
  { apply prod_large; [lia| |exact F]. intros i Hi G. destruct (H i Hi) as (A1 & B1 & A2 & B2).
    rewrite add_value by assumption. rewrite <- (rnd32_id (bpow radix2 _)) by (apply fmt32_bpow; lia).
    apply rnd32_le. rewrite bpow_plus. change (bpow radix2 1) with 2. lra. }
  pose proof (ltB (det32 t (total a b))). apply (bpow_le radix2) in Hn. lra.
Qed.

(** Small entries *)
Lemma rnd32_tiny x : 0 <= x <= bpow radix2 (-150) -> rnd32 x = 0.
Proof.
  intros [H0 H]. apply Rle_antisym; [|now apply rnd32_pos].
  apply Rle_trans with (rnd32 (bpow radix2 (-150))); [now apply rnd32_le|].
  unfold rnd32, round, scaled_mantissa, cexp. rewrite mag_bpow.
  change (fexp32 (-150 + 1)) with (-149)%Z. rewrite <- bpow_plus. change (-150 + - -149)%Z with (-1)%Z.
  change (bpow radix2 (-1)) with (/ 2).
  assert (E : ZnearestE (/ 2) = 0%Z).
  { unfold Znearest. assert (Fl : Zfloor (/ 2) = 0%Z) by (apply Zfloor_imp; cbn; lra). rewrite Fl.
    rewrite Rcompare_Eq by lra. reflexivity. }
  rewrite E. unfold F2R. cbn [Fnum Fexp]. lra.
Qed.
Lemma rnd32_below x m : (0 <= m)%Z -> 0 <= x <= bpow radix2 (- m) -> rnd32 x <= bpow radix2 (- m).
Proof.
  intros Hm H. destruct (Z_le_gt_dec m 149) as [L|G].
  - rewrite <- (rnd32_id (bpow radix2 (- m))) by (apply fmt32_bpow; lia). apply rnd32_le, H.
  - rewrite rnd32_tiny; [apply bpow_ge_0|]. split; [apply H|]. apply Rle_trans with (1 := proj2 H). apply bpow_le. lia.
Qed.
Lemma prod_small t (c : nat -> f32) k : (0 <= k)%Z ->
  (forall i, In i (leaves t) -> is_finite (c i) = true -> 0 <= B2R (c i) <= bpow radix2 (- k)) ->
  is_finite (prod32 t c) = true -> 0 <= B2R (prod32 t c) <= bpow radix2 (- (k * Z.of_nat (length (leaves t)))).
Proof.
  intros Hk. induction t as [i|l IHl r IHr]; cbn [prod32 leaves length]; intros H F.
  - rewrite Z.mul_1_r. apply H; [now left|exact F].
  - destruct (mul_finite _ _ F) as [Fl Fr]. rewrite mul_value by exact F.
    specialize (IHl (fun i Hi => H i (in_or_app _ _ _ (or_introl Hi))) Fl).
    specialize (IHr (fun i Hi => H i (in_or_app _ _ _ (or_intror Hi))) Fr).
    assert (P : 0 <= B2R (prod32 l c) * B2R (prod32 r c)) by (apply Rmult_le_pos; lra).
    split; [now apply rnd32_pos|]. rewrite app_length, Nat2Z.inj_add, Z.mul_add_distr_l.
    apply rnd32_below; [lia|]. split; [exact P|]. rewrite Z.opp_add_distr, bpow_plus.
    apply Rmult_le_compat; lra.
Qed.
Lemma weight_underflow t a b k : (0 <= k)%Z -> (150 <= k * Z.of_nat (length (leaves t)))%Z ->
  positive t a -> positive t b ->
  (forall i, In i (leaves t) -> B2R (a i) <= bpow radix2 (- (k + 1)) /\ B2R (b i) <= bpow radix2 (- (k + 1))) ->
  weight32 t a b = B754_nan.
Proof.
  intros Hk Hn Ha Hb H. destruct (weight_cases t a b Ha Hb) as (_ & _ & C). apply C. clear C.
  destruct (is_finite (det32 t (total a b))) eqn:F; [right|now left].
  assert (L : 0 <= B2R (det32 t (total a b)) <= bpow radix2 (- (k * Z.of_nat (length (leaves t))))).
  { apply prod_small; [exact Hk| |exact F]. intros i Hi G.
    destruct (Ha i Hi) as [A1 A2]. destruct (Hb i Hi) as [B1 B2]. destruct (H i Hi) as [A3 B3].
    rewrite add_value by assumption. split; [apply rnd32_pos; lra|]. apply rnd32_below; [exact Hk|].
    split; [lra|]. replace (- k)%Z with (1 + - (k + 1))%Z by lia. rewrite bpow_plus. change (bpow radix2 1) with 2. lra. }
  rewrite <- (rnd32_id (B2R _)) by apply fmtB. apply rnd32_tiny. split; [apply L|].
  apply Rle_trans with (1 := proj2 L). apply bpow_le. lia.
Qed.

(** ** Accuracy *)
Fixpoint rprod (l : list R) : R := match l with [] => 1 | x :: l => x * rprod l end.
Lemma rprod_app l m : rprod (l ++ m) = rprod l * rprod m.
Proof. induction l as [|x l IH]; cbn; [ring|rewrite IH; ring]. Qed.
Lemma rprod_perm l m : Permutation l m -> rprod l = rprod m.
Proof. induction 1; cbn; try lra; rewrite IHPermutation; ring. Qed.

Lemma rnd32_normal x : bpow radix2 (-126) <= x -> x * (1 - u32) <= rnd32 x <= x * (1 + u32).
Proof.
  intros H. pose proof (bpow_gt_0 radix2 (-126)) as P.
  destruct (relative_error_N_FLT_ex radix2 (-149) 24 eq_refl (fun n => negb (Z.even n)) x) as (e & He & E).
  { rewrite Rabs_pos_eq by lra. exact H. }
  change (/ 2 * bpow radix2 (- (24) + 1)) with (/ 2 * bpow radix2 (-24 + 1)) in He. rewrite <- u32_bpow in He.
  change (rnd32 x = x * (1 + e)) in E. rewrite E. apply Rabs_le_inv in He. nra.
Qed.

(** Values between powers of two stay there. *)
Lemma rnd32_range x lo hi : (-149 <= lo)%Z -> (-149 <= hi)%Z -> bpow radix2 lo <= x <= bpow radix2 hi ->
  bpow radix2 lo <= rnd32 x <= bpow radix2 hi.
Proof.
  intros Hl Hh [H1 H2]. apply rnd32_le in H1, H2. rewrite rnd32_id in H1 by now apply fmt32_bpow.
  rewrite (rnd32_id (bpow radix2 hi)) in H2 by now apply fmt32_bpow. auto.
Qed.
Lemma leaves_pos t : (1 <= length (leaves t))%nat.
Proof. induction t as [i|l IHl r IHr]; cbn; [lia|]. rewrite app_length. lia. Qed.

Lemma prod_accurate t (c : nat -> f32) (x : nat -> R) (lo hi : R) :
  let m := length (leaves t) in
  (m <= 6)%nat -> 0 < lo <= 1 -> 1 <= hi ->
  (forall i, In i (leaves t) -> is_finite (c i) = true /\ bpow radix2 (-20) <= B2R (c i) <= bpow radix2 21 /\
     0 < x i /\ x i * lo <= B2R (c i) <= x i * hi) ->
  is_finite (prod32 t c) = true /\
  bpow radix2 (- (20 * Z.of_nat m)) <= B2R (prod32 t c) <= bpow radix2 (21 * Z.of_nat m) /\
  0 < rprod (map x (leaves t)) /\
  rprod (map x (leaves t)) * (lo ^ m * (1 - u32) ^ (m - 1)) <= B2R (prod32 t c) <=
    rprod (map x (leaves t)) * (hi ^ m * (1 + u32) ^ (m - 1)).
Proof.
  induction t as [i|l IHl r IHr]; intros m Hm Hlo Hhi H.
  - destruct (H i (or_introl eq_refl)) as (F & R1 & X & R2). unfold m. cbn [leaves length map rprod prod32 Nat.sub pow].
    split; [exact F|]. split; [exact R1|]. rewrite !Rmult_1_r. tauto.
  - pose proof (leaves_pos l) as Pl. pose proof (leaves_pos r) as Pr.
    cbn [leaves] in m, H. unfold m in *. clear m. cbn [leaves prod32]. rewrite app_length in *.
    destruct IHl as (Fl & Bl & Xl & El); [lia|exact Hlo|exact Hhi|intros i Hi; apply H, in_or_app; auto|].
    destruct IHr as (Fr & Br & Xr & Er); [lia|exact Hlo|exact Hhi|intros i Hi; apply H, in_or_app; auto|].
    rewrite map_app, rprod_app. set (a := length (leaves l)) in *. set (b := length (leaves r)) in *.
    set (X := rprod (map x (leaves l))) in *. set (Y := rprod (map x (leaves r))) in *.
    set (p := B2R (prod32 l c)) in *. set (q := B2R (prod32 r c)) in *.
    assert (R : bpow radix2 (- (20 * Z.of_nat (a + b))) <= p * q <= bpow radix2 (21 * Z.of_nat (a + b))).
    { rewrite Nat2Z.inj_add, !Z.mul_add_distr_l, Z.opp_add_distr, !bpow_plus.
      pose proof (bpow_gt_0 radix2 (- (20 * Z.of_nat a))). pose proof (bpow_gt_0 radix2 (- (20 * Z.of_nat b))).
      split; apply Rmult_le_compat; lra. }
    assert (Fm : is_finite (f32_mul (prod32 l c) (prod32 r c)) = true).
    { apply (mul32_value _ _ 126); [lia|exact Fl|exact Fr|]. fold p q.
      pose proof (bpow_gt_0 radix2 (- (20 * Z.of_nat (a + b)))). rewrite Rabs_pos_eq by lra.
      apply Rle_trans with (1 := proj2 R). apply bpow_le. lia. }
    rewrite mul_value by exact Fm. fold p q. split; [exact Fm|].
    split; [apply rnd32_range; [lia|lia|exact R]|]. split; [now apply Rmult_lt_0_compat|].
    assert (N : p * q * (1 - u32) <= rnd32 (p * q) <= p * q * (1 + u32)).
    { apply rnd32_normal. apply Rle_trans with (2 := proj1 R). apply bpow_le. lia. }
    replace (a + b - 1)%nat with (S ((a - 1) + (b - 1)))%nat by lia.
    assert (U : 0 < u32 < 1) by (unfold u32; lra).
    rewrite <- !tech_pow_Rmult, !pow_add.
    set (la := lo ^ a) in *. set (lb := lo ^ b) in *. set (ha := hi ^ a) in *. set (hb := hi ^ b) in *.
    set (va := (1 - u32) ^ (a - 1)) in *. set (vb := (1 - u32) ^ (b - 1)) in *.
    set (wa := (1 + u32) ^ (a - 1)) in *. set (wb := (1 + u32) ^ (b - 1)) in *.
    assert (Ql : 0 < la * va) by (apply Rmult_lt_0_compat; apply pow_lt; lra).
    assert (Qr : 0 < lb * vb) by (apply Rmult_lt_0_compat; apply pow_lt; lra).
    assert (L1 : X * (la * va) * (Y * (lb * vb)) <= p * q).
    { apply Rmult_le_compat; try lra; apply Rmult_le_pos; lra. }
    assert (L2 : p * q <= X * (ha * wa) * (Y * (hb * wb))).
    { apply Rmult_le_compat; try lra.
      - apply Rle_trans with (2 := proj1 El). apply Rmult_le_pos; lra.
      - apply Rle_trans with (2 := proj1 Er). apply Rmult_le_pos; lra. }
    clear - N L1 L2 U. split.
    + apply Rle_trans with (2 := proj1 N).
      replace (X * Y * (la * lb * ((1 - u32) * (va * vb)))) with (X * (la * va) * (Y * (lb * vb)) * (1 - u32)) by ring.
      apply Rmult_le_compat_r; lra.
    + apply Rle_trans with (1 := proj2 N).
      replace (X * Y * (ha * hb * ((1 + u32) * (wa * wb)))) with (X * (ha * wa) * (Y * (hb * wb)) * (1 + u32)) by ring.
      apply Rmult_le_compat_r; lra.
Qed.

(** A relative error of at most k units *)
Definition within (k x y : R) : Prop := y * (1 - k * u32) <= x <= y * (1 + k * u32).
Lemma pow_bounds m : (m <= 6)%nat ->
  1 - 5.1 * u32 <= (1 - u32) ^ (m - 1) /\ (1 + u32) ^ (m - 1) <= 1 + 5.1 * u32 /\
  1 - 11.1 * u32 <= (1 - u32) ^ m * (1 - u32) ^ (m - 1) /\ (1 + u32) ^ m * (1 + u32) ^ (m - 1) <= 1 + 11.1 * u32.
Proof.
  intros H. unfold u32. destruct m as [|[|[|[|[|[|[|m]]]]]]]; [..|lia]; cbn [Nat.sub pow]; lra.
Qed.

Definition sane (d : f32) : Prop := is_finite d = true /\ bpow radix2 (-20) <= B2R d <= bpow radix2 20.
Lemma det_accurate t (a : nat -> f32) : (length (leaves t) <= 6)%nat -> (forall i, In i (leaves t) -> sane (a i)) ->
  let D := rprod (map (fun i => B2R (a i)) (leaves t)) in
  is_finite (det32 t a) = true /\ 0 < D /\ within 5.1 (B2R (det32 t a)) D.
Proof.
  intros Hm H D. destruct (prod_accurate t a (fun i => B2R (a i)) 1 1 Hm ltac:(lra) ltac:(lra)) as (F & _ & P & E).
  { intros i Hi. destruct (H i Hi) as [A [B C]]. pose proof (bpow_gt_0 radix2 (-20)).
    assert (bpow radix2 20 <= bpow radix2 21) by (apply bpow_le; lia). split; [exact A|]. lra. }
  split; [exact F|]. split; [exact P|]. fold D in P, E. rewrite !pow1, !Rmult_1_l in E.
  destruct (pow_bounds _ Hm) as (B1 & B2 & _). unfold within, det32. nra.
Qed.
Lemma sum_accurate t (a b : nat -> f32) : (length (leaves t) <= 6)%nat ->
  (forall i, In i (leaves t) -> sane (a i) /\ sane (b i)) ->
  let S := rprod (map (fun i => B2R (a i) + B2R (b i)) (leaves t)) in
  let s := det32 t (total a b) in
  is_finite s = true /\ 0 < B2R s < bpow radix2 127 /\ 0 < S /\ within 11.1 (B2R s) S.
Proof.
  intros Hm H S s. pose proof (bpow_gt_0 radix2 (-20)) as P20.
  assert (U : 0 < u32 < 1) by (unfold u32; lra).
  destruct (prod_accurate t (total a b) (fun i => B2R (a i) + B2R (b i)) (1 - u32) (1 + u32) Hm ltac:(lra) ltac:(lra))
    as (F & B & P & E).
  { intros i Hi. destruct (H i Hi) as [[A1 A2] [B1 B2]].
    assert (R : bpow radix2 (-20) <= B2R (a i) + B2R (b i) <= bpow radix2 21).
    { replace (bpow radix2 21) with (2 * bpow radix2 20) by (change 21%Z with (1 + 20)%Z; now rewrite bpow_plus). lra. }
    destruct (add32_value (a i) (b i) 21 ltac:(lia) A1 B1) as [E F]; [rewrite Rabs_pos_eq; lra|].
    split; [exact F|]. rewrite E. split; [apply rnd32_range; [lia|lia|exact R]|]. split; [lra|].
    apply rnd32_normal. apply Rle_trans with (2 := proj1 R). apply bpow_le. lia. }
  fold S in P, E. fold (det32 t (total a b)) in F, B, E. fold s in F, B, E.
  split; [exact F|]. split; [|split; [exact P|]].
  - split; [apply Rlt_le_trans with (2 := proj1 B); apply bpow_gt_0|].
    apply Rle_lt_trans with (1 := proj2 B). apply bpow_lt. lia.
  - destruct (pow_bounds _ Hm) as (_ & _ & B1 & B2). unfold within. nra.
Qed.

Lemma quotient_accurate d s D S : 0 < D -> 0 < S -> 0 <= d <= s -> 0 < s -> D <= S ->
  within 5.1 d D -> within 11.1 s S -> Rabs (d / s - D / S) <= 16.5 * u32.
Proof.
  intros HD HS Hd Hs HDS [D1 D2] [S1 S2]. assert (U : 0 < u32 < / 1000000) by (unfold u32; lra).
  assert (E : d / s - D / S = (d * S - D * s) / (s * S)) by (field; lra).
  rewrite E. assert (P : 0 < s * S) by (apply Rmult_lt_0_compat; lra).
  unfold Rdiv. rewrite Rabs_mult, (Rabs_pos_eq (/ (s * S))) by (apply Rlt_le, Rinv_0_lt_compat, P).
  apply Rmult_le_reg_r with (s * S); [exact P|]. rewrite Rmult_assoc, Rinv_l, Rmult_1_r by lra.
  assert (K : Rabs (d * S - D * s) <= 16.2 * u32 * (D * S)).
  { pose proof (Rmult_le_compat_r S _ _ (Rlt_le _ _ HS) D1). pose proof (Rmult_le_compat_r S _ _ (Rlt_le _ _ HS) D2).
    pose proof (Rmult_le_compat_l D _ _ (Rlt_le _ _ HD) S1). pose proof (Rmult_le_compat_l D _ _ (Rlt_le _ _ HD) S2).
    apply Rabs_le. lra. }
  apply Rle_trans with (1 := K). assert (0 < u32 * S) by nra.
  assert (A1 : D * S <= S * S) by (apply Rmult_le_compat_r; lra).
  assert (A2 : S * 0.999 <= s) by nra.
  assert (A3 : 0.999 * (S * S) <= s * S) by (apply (Rmult_le_compat_r S) in A2; lra).
  assert (A4 : u32 * (D * S) <= u32 * (S * S)) by (apply Rmult_le_compat_l; lra).
  assert (A5 : u32 * (0.999 * (S * S)) <= u32 * (s * S)) by (apply Rmult_le_compat_l; lra).
  assert (0 < u32 * (S * S)) by (apply Rmult_lt_0_compat; nra). lra.
Qed.
Lemma weight_accurate t (a b : nat -> f32) : (length (leaves t) <= 6)%nat ->
  (forall i, In i (leaves t) -> sane (a i) /\ sane (b i)) ->
  let D1 := rprod (map (fun i => B2R (a i)) (leaves t)) in
  let D2 := rprod (map (fun i => B2R (b i)) (leaves t)) in
  let S := rprod (map (fun i => B2R (a i) + B2R (b i)) (leaves t)) in
  is_finite (weight32 t a b) = true /\ 0 < S /\
  Rabs (B2R (weight32 t a b) - (S - D2 + D1) / (2 * S)) <= bpow radix2 (-19).
Proof.
  intros Hm H D1 D2 S.
  destruct (det_accurate t a Hm (fun i Hi => proj1 (H i Hi))) as (F1 & P1 & W1).
  destruct (det_accurate t b Hm (fun i Hi => proj2 (H i Hi))) as (F2 & P2 & W2).
  destruct (sum_accurate t a b Hm H) as (Fs & Bs & Ps & Ws).
  pose proof (bpow_gt_0 radix2 (-20)) as P20.
  assert (Ha : positive t a) by (intros i Hi; destruct (H i Hi) as [[A B] _]; split; [exact A|lra]).
  assert (Hb : positive t b) by (intros i Hi; destruct (H i Hi) as [_ [A B]]; split; [exact A|lra]).
  destruct (dets_le t a b Ha Hb Fs) as [[_ L1] [_ L2]].
  destruct (weight_unit _ _ _ F1 F2 Fs L1 L2 Bs) as (Fw & _ & Ew). cbv zeta in Ew.
  split; [exact Fw|]. split; [exact Ps|]. change (B2R (weight32 t a b) = rnd32 (rnd32 (rnd32 (B2R (det32 t (total a b)) - B2R (det32 t b)) + B2R (det32 t a)) / (2 * B2R (det32 t (total a b))))) in Ew.
  rewrite Ew. clear Ew Fw. fold D1 in P1, W1. fold D2 in P2, W2. fold S in Ps, Ws.
  assert (M : D1 <= S /\ D2 <= S).
  { assert (G : forall (f g : nat -> R) l, (forall i, In i l -> 0 <= f i <= g i) -> 0 <= rprod (map f l) <= rprod (map g l)).
    { intros f g l. induction l as [|i l IH]; cbn; intros K; [lra|].
      destruct (K i (or_introl eq_refl)). destruct IH as [I1 I2]; [intros j Hj; apply K; auto|].
      split; [nra|apply Rmult_le_compat; lra]. }
    split; apply G; intros i Hi; destruct (Ha i Hi); destruct (Hb i Hi); lra. }
  set (s := B2R (det32 t (total a b))) in *. set (d1 := B2R (det32 t a)) in *. set (d2 := B2R (det32 t b)) in *.
  pose proof (quotient_accurate d1 s D1 S P1 Ps L1 (proj1 Bs) (proj1 M) W1 Ws) as Q1.
  pose proof (quotient_accurate d2 s D2 S P2 Ps L2 (proj1 Bs) (proj2 M) W2 Ws) as Q2.
  assert (Fmt : format32 s /\ format32 d1 /\ format32 d2) by (repeat split; apply fmtB).
  destruct Fmt as (Fms & Fm1 & Fm2).
  destruct (rnd32_add s (- d2) Fms (generic_format_opp _ _ _ Fm2)) as (e1 & He1 & E1).
  destruct (rnd32_add (rnd32 (s - d2)) d1 (fmt32 _) Fm1) as (e2 & He2 & E2).
  set (num := rnd32 (rnd32 (s - d2) + d1)) in *.
  destruct (rnd32_rel (num / (2 * s))) as (e3 & h & He3 & Hh & E3). rewrite E3.
  change (s + - d2) with (s - d2) in E1.
  assert (En : num / (2 * s) = ((1 - d2 / s) * (1 + e1) + d1 / s) * (1 + e2) / 2).
  { rewrite E2, E1. field. lra. }
  rewrite En. replace ((S - D2 + D1) / (2 * S)) with ((1 - D2 / S + D1 / S) / 2) by (field; lra).
  assert (R1 : 0 <= d1 / s <= 1) by (apply ratio_unit; lra). assert (R2 : 0 <= d2 / s <= 1) by (apply ratio_unit; lra).
  assert (Hh' : bpow radix2 (-150) <= u32).
  { rewrite u32_bpow. change (/ 2) with (bpow radix2 (-1)). rewrite <- bpow_plus. apply bpow_le. lia. }
  assert (B19 : bpow radix2 (-19) = 32 * u32) by (unfold u32; cbn; lra). rewrite B19.
  set (r1 := d1 / s) in *. set (r2 := d2 / s) in *. set (T1 := D1 / S) in *. set (T2 := D2 / S) in *.
  clear - Q1 Q2 He1 He2 He3 Hh Hh' R1 R2.
  apply Rabs_le_inv in Q1, Q2, He1, He2, He3, Hh. assert (U : 0 < u32 < / 1000000) by (unfold u32; lra).
  set (v := (1 - r2) * (1 + e1) + r1). assert (V : Rabs (v - (1 - r2 + r1)) <= u32) by (unfold v; replace ((1 - r2) * (1 + e1) + r1 - (1 - r2 + r1)) with ((1 - r2) * e1) by ring; apply Rabs_le; nra).
  apply Rabs_le_inv in V. assert (V2 : -0.1 <= v <= 2.1) by lra.
  assert (F : Rabs ((1 + e2) * (1 + e3) - 1) <= 2.1 * u32) by (apply Rabs_le; nra). apply Rabs_le_inv in F.
  replace (v * (1 + e2) / 2 * (1 + e3) + h) with (v * (1 + ((1 + e2) * (1 + e3) - 1)) / 2 + h) by field.
  set (f := (1 + e2) * (1 + e3) - 1) in *. clearbody f v.
  assert (VF : Rabs (v * f) <= 4.5 * u32).
  { rewrite Rabs_mult. apply Rle_trans with (2.1 * (2.1 * u32)); [|lra].
    apply Rmult_le_compat; try apply Rabs_pos; apply Rabs_le; lra. }
  apply Rabs_le_inv in VF. apply Rabs_le. lra.
Qed.

(** ** The entries of the combined matrix *)
Lemma combined_accurate (w a b : f32) k : (-119 <= k <= 126)%Z ->
  is_finite w = true -> is_finite a = true -> is_finite b = true -> 0 <= B2R w <= 1 ->
  Rabs (B2R a) <= bpow radix2 k -> Rabs (B2R b) <= bpow radix2 k ->
  is_finite (combined32 w a b) = true /\
  Rabs (B2R (combined32 w a b) - (B2R w * B2R a + (1 - B2R w) * B2R b)) <= bpow radix2 (k - 22).
Proof.
  intros Hk Fw Fa Fb W A B.
  assert (F1 : is_finite (f32_of_Z 1) = true) by reflexivity.
  assert (V1 : B2R (f32_of_Z 1) = 1) by (cbn; unfold F2R; cbn; lra).
  assert (K0 : 0 < bpow radix2 k) by apply bpow_gt_0.
  assert (S0 : Rabs (1 - B2R w) <= bpow radix2 0) by (apply Rabs_le; cbn; lra).
  destruct (sub32_value (f32_of_Z 1) w 0) as [Es Fs]; [lia|easy|easy|now rewrite V1|]. rewrite V1 in Es.
  pose proof (rnd32_near (1 - B2R w) 0 ltac:(lia) S0) as Ns.
  pose proof (rnd32_bound (1 - B2R w) 0 ltac:(lia) S0) as Bs.
  assert (P : forall x y, Rabs x <= 1 -> Rabs y <= bpow radix2 k -> Rabs (x * y) <= bpow radix2 k).
  { intros x y Hx Hy. rewrite Rabs_mult, <- (Rmult_1_l (bpow radix2 k)). apply Rmult_le_compat; auto using Rabs_pos. }
  assert (P1 : Rabs (B2R w * B2R a) <= bpow radix2 k) by (apply P; [apply Rabs_le; lra|easy]).
  destruct (mul32_value w a k) as [E1 F1']; [lia|easy|easy|easy|].
  assert (P2 : Rabs (B2R (f32_sub (f32_of_Z 1) w) * B2R b) <= bpow radix2 k) by (rewrite Es; apply P; [exact Bs|easy]).
  destruct (mul32_value (f32_sub (f32_of_Z 1) w) b k) as [E2 F2]; [lia|easy|easy|easy|]. rewrite Es in E2, P2.
  pose proof (rnd32_near _ k ltac:(lia) P1) as N1. pose proof (rnd32_near _ k ltac:(lia) P2) as N2.
  pose proof (rnd32_bound _ k ltac:(lia) P1) as B1. pose proof (rnd32_bound _ k ltac:(lia) P2) as B2.
  assert (P3 : Rabs (B2R (f32_mul w a) + B2R (f32_mul (f32_sub (f32_of_Z 1) w) b)) <= bpow radix2 (k + 1))
    by (rewrite E1, E2; now apply sum_bound).
  destruct (add32_value _ _ (k + 1) ltac:(lia) F1' F2 P3) as [E3 F3].
  pose proof (rnd32_near _ (k + 1) ltac:(lia) P3) as N3.
  split; [exact F3|]. unfold combined32. rewrite E3. rewrite E1, E2 in *.
  set (s := rnd32 (1 - B2R w)) in *. set (x := rnd32 (B2R w * B2R a)) in *. set (y := rnd32 (s * B2R b)) in *. set (z := rnd32 (x + y)) in *.
  assert (N4 : Rabs ((s - (1 - B2R w)) * B2R b) <= bpow radix2 (k - 25)).
  { rewrite Rabs_mult. replace (k - 25)%Z with ((0 - 25) + k)%Z by lia. rewrite bpow_plus.
    apply Rmult_le_compat; auto using Rabs_pos. }
  replace (k - 22)%Z with (3 + (k - 25))%Z by lia. replace (k + 1 - 25)%Z with (1 + (k - 25))%Z in N3 by lia.
  rewrite bpow_plus in N3 |- *. change (bpow radix2 3) with 8. change (bpow radix2 1) with 2 in N3.
  set (u := bpow radix2 (k - 25)) in *. clearbody s x y z u. clear - N1 N2 N3 N4.
  replace (z - (B2R w * B2R a + (1 - B2R w) * B2R b)) with
    ((z - (x + y)) + (x - B2R w * B2R a) + (y - s * B2R b) + (s - (1 - B2R w)) * B2R b) by ring.
  apply Rabs_le_inv in N1, N2, N3, N4. apply Rabs_le. lra.
Qed.
