(** Proofs about headings in single precision. *)
From Coq Require Import ZArith Reals Lra Lia Bool Psatz.
From Flocq Require Import Core IEEE754.BinarySingleNaN.
From Verif Require Import Float FloatProofs Motion DoubleArith DoubleThms FloatDistance FloatDistanceThms FloatHeading.
Local Open Scope R_scope.

Definition lit : R := 7074237752028906 * bpow radix2 (-51).
Lemma lit_num : lit = 7074237752028906 / 2251799813685248.
Proof. unfold lit. cbn. lra. Qed.
Lemma literal_value : B2R literal_pi = lit /\ is_finite literal_pi = true.
Proof. apply value_of_normal; cbn; lia. Qed.
Lemma fmt_2lit : fmt (2 * lit).
Proof.
  replace (2 * lit) with (IZR 7074237752028906 * bpow radix2 (-50)) by (unfold lit; cbn; lra). apply format64_int; lia.
Qed.
Lemma two_literal : B2R (Bmult mode_NE (f64_of_Z 2) literal_pi) = 2 * lit /\
  is_finite (Bmult mode_NE (f64_of_Z 2) literal_pi) = true.
Proof.
  destruct literal_value as [Ep Fp]. destruct (int64_value 2) as [E2 F2]; [cbn; lia|].
  generalize (Bmult_correct 53 1024 _ _ mode_NE (f64_of_Z 2) literal_pi).
  change (round_mode mode_NE) with ZnearestE. rewrite E2, Ep.
  fold (rnd64 (2 * lit)). rewrite rnd64_id by apply fmt_2lit. rewrite big64'.
  - intros (E & F & _). rewrite E, F, F2, Fp. split; reflexivity.
  - rewrite lit_num. rewrite Rabs_pos_eq by lra.
    apply Rle_trans with (bpow radix2 3); [cbn; lra|apply bpow_le; lia].
Qed.
Lemma sub64_value (x y : f64) k : (-1000 <= k <= 1023)%Z -> is_finite x = true -> is_finite y = true ->
  Rabs (B2R x - B2R y) <= bpow radix2 k ->
  B2R (f64_sub x y) = rnd64 (B2R x - B2R y) /\ is_finite (f64_sub x y) = true.
Proof.
  intros Hk Fx Fy H. pose proof (Bminus_correct 53 1024 _ _ mode_NE x y Fx Fy) as C.
  rewrite Rlt_bool_true in C; [unfold f64_sub; tauto|].
  apply Rle_lt_trans with (bpow radix2 k); [|apply bpow_lt; lia].
  apply abs_round_le_generic; [typeclasses eauto|typeclasses eauto| |exact H].
  apply generic_format_bpow. unfold SpecFloat.fexp, SpecFloat.emin. lia.
Qed.
Lemma rnd64_near x : Rabs x < 8 -> Rabs (rnd64 x - x) <= bpow radix2 (-51).
Proof.
  intros H. eapply Rle_trans; [apply (err64 3 x H)|].
  replace (fexp64 3) with (1 + (-51))%Z by (unfold SpecFloat.fexp, SpecFloat.emin; lia).
  rewrite bpow_plus. change (bpow radix2 1) with 2. lra.
Qed.
Lemma tiny51 : bpow radix2 (-51) = / 2251799813685248.
Proof. cbn. lra. Qed.
Lemma k22 : bpow radix2 (-22) = / 4194304.
Proof. cbn. lra. Qed.

(** Floats above the constant are at least the next float. *)
Lemma next_float f : format32 f -> lit < f -> 13176795 * bpow radix2 (-22) <= f.
Proof.
  intros F H. rewrite k22. rewrite lit_num in H. destruct (Rle_or_lt 4 f) as [G|G]; [lra|].
  unfold format32, generic_format in F. unfold scaled_mantissa, cexp in F.
  assert (M : mag radix2 f = 2%Z :> Z) by (apply mag_unique; cbn; rewrite Rabs_pos_eq; lra).
  rewrite M in F. replace (fexp32 2) with (-22)%Z in F by (unfold SpecFloat.fexp, SpecFloat.emin; lia).
  unfold F2R in F. cbn [Fnum Fexp] in F. set (m := Ztrunc (f * bpow radix2 (- -22))) in F. rewrite k22 in F.
  assert (13176794 < m)%Z by (apply lt_IZR; lra).
  assert (13176795 <= IZR m) by (apply IZR_le; lia). lra.
Qed.
Lemma wrap_low (x : f32) : is_finite x = true -> B2R x <= lit -> wrap32 x = x.
Proof.
  intros F H. destruct (conv64 x F) as [E F']. destruct literal_value as [El Fl]. unfold wrap32.
  rewrite (ltb64 _ _ Fl F'), El, E, Rlt_bool_false by exact H. reflexivity.
Qed.
Lemma wrap_high (x : f32) : is_finite x = true -> lit < B2R x <= 8 ->
  B2R (wrap32 x) = rnd32 (rnd64 (B2R x - 2 * lit)) /\ is_finite (wrap32 x) = true.
Proof.
  intros F H. destruct (conv64 x F) as [E F']. destruct literal_value as [El Fl]. destruct two_literal as [E2 F2].
  unfold wrap32. rewrite (ltb64 _ _ Fl F'), El, E, Rlt_bool_true by apply H.
  assert (B : Rabs (B2R x - 2 * lit) <= bpow radix2 2) by (rewrite lit_num in *; cbn; apply Rabs_le; lra).
  destruct (sub64_value (f64_of_f32 x) (Bmult mode_NE (f64_of_Z 2) literal_pi) 2) as [Es Fs];
    [lia|exact F'|exact F2|rewrite E, E2; exact B|].
  rewrite E, E2 in Es.
  assert (B' : Rabs (rnd64 (B2R x - 2 * lit)) <= bpow radix2 2).
  { apply abs_round_le_generic; [typeclasses eauto|typeclasses eauto| |exact B].
    apply generic_format_bpow. unfold SpecFloat.fexp, SpecFloat.emin. lia. }
  destruct (conv32_value (f64_sub (f64_of_f32 x) (Bmult mode_NE (f64_of_Z 2) literal_pi)) 2) as [E3 F3];
    [lia|exact Fs|rewrite Es; exact B'|]. rewrite E3, Es. now split.
Qed.
Lemma wrap_high_near (x : f32) : is_finite x = true -> lit < B2R x <= 8 ->
  Rabs (B2R (wrap32 x) - (B2R x - 2 * lit)) <= bpow radix2 (-23) + bpow radix2 (-51).
Proof.
  intros F H. destruct (wrap_high x F H) as [E _]. rewrite E. rewrite lit_num in H.
  assert (B : Rabs (B2R x - 2 * lit) < 8) by (rewrite lit_num; apply Rabs_lt; lra).
  pose proof (rnd64_near _ B) as N.
  set (y := rnd64 (B2R x - 2 * lit)) in *.
  assert (B' : Rabs y <= bpow radix2 2).
  { apply abs_round_le_generic; [typeclasses eauto|typeclasses eauto| |rewrite lit_num; cbn; apply Rabs_le; lra].
    apply generic_format_bpow. unfold SpecFloat.fexp, SpecFloat.emin. lia. }
  pose proof (rnd32_near y 2 ltac:(lia) B') as N'. replace (2 - 25)%Z with (-23)%Z in N' by lia.
  apply Rabs_le_inv in N. apply Rabs_le_inv in N'. apply Rabs_le. lra.
Qed.

(** The range: at most the largest float below the constant. *)
Lemma rnd32_opp x : rnd32 (- x) = - rnd32 x.
Proof. unfold rnd32. apply round_NE_opp. Qed.
Lemma seam_round y : Rabs (y + 13176794 * bpow radix2 (-22)) < / 2 * bpow radix2 (-22) -> rnd32 y = - (13176794 * bpow radix2 (-22)).
Proof.
  intros H. replace y with (- (- y)) by ring. rewrite rnd32_opp.
  rewrite (snap (- y) 13176794 (-22)); [reflexivity|lia|lia|].
  replace (- y - 13176794 * bpow radix2 (-22)) with (- (y + 13176794 * bpow radix2 (-22))) by ring. now rewrite Rabs_Ropp.
Qed.
Lemma wrap_range (x : f32) : is_finite x = true -> - (13176794 * bpow radix2 (-22)) <= B2R x <= 8 ->
  is_finite (wrap32 x) = true /\ Rabs (B2R (wrap32 x)) <= 13176794 * bpow radix2 (-22).
Proof.
  intros F H. assert (Fm : format32 (B2R x)) by apply generic_format_B2R.
  destruct (Rle_or_lt (B2R x) lit) as [L|L].
  - rewrite wrap_low by assumption. split; [exact F|]. apply Rabs_le. split; [apply H|].
    destruct (Rle_or_lt (B2R x) (13176794 * bpow radix2 (-22))) as [G|G]; [exact G|]. exfalso.
    destruct (Rle_or_lt 4 (B2R x)) as [G'|G']; [rewrite lit_num in L; lra|].
    unfold format32, generic_format, scaled_mantissa, cexp in Fm. rewrite k22 in G. rewrite lit_num in L.
    assert (M : mag radix2 (B2R x) = 2%Z :> Z) by (apply mag_unique; cbn; rewrite Rabs_pos_eq; lra).
    rewrite M in Fm. replace (fexp32 2) with (-22)%Z in Fm by (unfold SpecFloat.fexp, SpecFloat.emin; lia).
    unfold F2R in Fm. cbn [Fnum Fexp] in Fm. set (m := Ztrunc (B2R x * bpow radix2 (- -22))) in Fm. rewrite k22 in Fm.
    assert (13176794 < m)%Z by (apply lt_IZR; lra).
    assert (m < 13176795)%Z by (apply lt_IZR; lra). lia.
  - destruct (wrap_high x F) as [E F']; [lra|]. split; [exact F'|]. rewrite E.
    pose proof (next_float _ Fm L) as N. rewrite k22 in N.
    assert (B : Rabs (B2R x - 2 * lit) < 8) by (rewrite lit_num in *; apply Rabs_lt; lra).
    pose proof (rnd64_near _ B) as Near. apply Rabs_le_inv in Near. rewrite tiny51 in Near. rewrite lit_num in *.
    apply Rabs_le. split.
    + rewrite <- (seam_round (13176795 / 4194304 - 2 * (7074237752028906 / 2251799813685248) - / 2251799813685248)).
      * apply rnd32_le. lra.
      * rewrite k22. apply Rabs_lt. lra.
    + apply Rle_trans with (rnd32 2).
      * apply rnd32_le. lra.
      * rewrite rnd32_id by (apply (fmt32_bpow 1); lia). rewrite k22. lra.
Qed.

(** The two floats next to the constant. *)
Definition below_pi : f32 := binary_normalize 24 128 _ _ mode_NE 13176794 (-22) false.
Definition above_pi : f32 := binary_normalize 24 128 _ _ mode_NE 13176795 (-22) false.
Lemma normal32_value m : (Z.abs m < 2 ^ 24)%Z ->
  B2R (binary_normalize 24 128 _ _ mode_NE m (-22) false) = IZR m * bpow radix2 (-22) /\
  is_finite (binary_normalize 24 128 _ _ mode_NE m (-22) false) = true.
Proof.
  intros Hm. generalize (binary_normalize_correct 24 128 _ _ mode_NE m (-22) false). cbv zeta.
  change (round_mode mode_NE) with ZnearestE. fold (rnd32 (F2R (Float radix2 m (-22)))). unfold F2R. cbn [Fnum Fexp].
  rewrite rnd32_id by (apply format32_int; [exact Hm|lia]).
  rewrite Rlt_bool_true; [tauto|].
  rewrite Rabs_mult, (Rabs_pos_eq (bpow radix2 (-22))) by apply bpow_ge_0. rewrite k22, <- abs_IZR.
  assert (IZR (Z.abs m) < 16777216) by (apply IZR_lt; exact Hm).
  apply Rlt_le_trans with (bpow radix2 10); [cbn; lra|apply bpow_le; lia].
Qed.
Lemma seam : wrap32 below_pi = below_pi /\ B2R (wrap32 above_pi) = - B2R below_pi.
Proof.
  destruct (normal32_value 13176794) as [E1 F1]; [cbn; lia|]. destruct (normal32_value 13176795) as [E2 F2]; [cbn; lia|].
  fold below_pi in E1, F1. fold above_pi in E2, F2. rewrite k22 in E1, E2. split.
  - apply wrap_low; [exact F1|]. rewrite E1, lit_num. lra.
  - destruct (wrap_high above_pi F2) as [E _]; [rewrite E2, lit_num; lra|]. rewrite E, E1, E2.
    assert (B : Rabs (13176795 * / 4194304 - 2 * lit) < 8) by (rewrite lit_num; apply Rabs_lt; lra).
    pose proof (rnd64_near _ B) as Near. apply Rabs_le_inv in Near. rewrite tiny51, lit_num in Near.
    rewrite seam_round; [rewrite k22; ring|]. rewrite k22, lit_num. apply Rabs_lt. lra.
Qed.

Lemma heading_float (h : f64) : is_finite h = true -> 0 <= B2R h <= 2 * B2R pi64 ->
  is_finite (f32_of_f64 h) = true /\ 0 <= B2R (f32_of_f64 h) <= 8 /\
  Rabs (B2R (f32_of_f64 h) - B2R h) <= bpow radix2 (-22) /\
  (B2R (f32_of_f64 h) < 4 -> Rabs (B2R (f32_of_f64 h) - B2R h) <= bpow radix2 (-23)).
Proof.
  intros F H. destruct pi64_value as [Ep _]. rewrite Ep in H. pose proof pi_real_bounds as PB.
  assert (B : Rabs (B2R h) <= bpow radix2 3) by (cbn; apply Rabs_le; lra).
  destruct (conv32_value h 3) as [E F']; [lia|exact F|exact B|]. rewrite E. split; [exact F'|].
  pose proof (rnd32_near (B2R h) 3 ltac:(lia) B) as N. replace (3 - 25)%Z with (-22)%Z in N by lia.
  pose proof (rnd32_pos _ (proj1 H)) as P. pose proof (rnd32_bound (B2R h) 3 ltac:(lia) B) as U.
  rewrite Rabs_pos_eq in U by exact P. split; [cbn in U; lra|]. split; [exact N|]. intros L.
  destruct (Rle_or_lt (B2R h) 4) as [G|G].
  - apply (rnd32_near (B2R h) 2); [lia|]. cbn. apply Rabs_le. lra.
  - exfalso. pose proof (rnd32_le 4 (B2R h) (Rlt_le _ _ G)) as M. rewrite rnd32_id in M by (apply (fmt32_bpow 2); lia). lra.
Qed.
Lemma heading_range (h : f64) : is_finite h = true -> 0 <= B2R h <= 2 * B2R pi64 ->
  is_finite (fusion_heading h) = true /\ Rabs (B2R (fusion_heading h)) <= 13176794 * bpow radix2 (-22).
Proof.
  intros F H. destruct (heading_float h F H) as (F' & B & _). apply wrap_range; [exact F'|]. rewrite k22. lra.
Qed.
Lemma heading_accuracy (h : f64) : is_finite h = true -> 0 <= B2R h <= 2 * B2R pi64 ->
  (B2R (f32_of_f64 h) <= B2R literal_pi -> Rabs (B2R (fusion_heading h) - B2R h) <= bpow radix2 (-23)) /\
  (B2R literal_pi < B2R (f32_of_f64 h) ->
    Rabs (B2R (fusion_heading h) - (B2R h - 2 * 3.14159265359)) <= 3.01 * bpow radix2 (-23)).
Proof.
  intros F H. destruct (heading_float h F H) as (F' & B & N & N4). destruct literal_value as [-> _]. unfold fusion_heading. split; intros L.
  - rewrite wrap_low by assumption. apply N4. rewrite lit_num in L. lra.
  - assert (W := wrap_high_near _ F' (conj L (proj2 (proj1 (conj B I))))).
    assert (E1 : bpow radix2 (-22) = / 4194304) by (cbn; lra). assert (E2 : bpow radix2 (-23) = / 8388608) by (cbn; lra).
    rewrite E1 in N. rewrite E2, tiny51 in W. rewrite E2. rewrite lit_num in *.
    apply Rabs_le_inv in N. apply Rabs_le_inv in W. apply Rabs_le. lra.
Qed.
Lemma wrap_not_finite (x : f32) : is_finite x = false -> wrap32 x = x.
Proof. destruct x as [s|s| |s m e Hb]; intros H; try discriminate; [destruct s|]; reflexivity. Qed.
Lemma wrap_idem (x : f32) : B2R x <= 8 -> is_finite x = true -> wrap32 (wrap32 x) = wrap32 x.
Proof.
  intros H F. destruct (Rle_or_lt (B2R x) lit) as [L|L]; [rewrite (wrap_low x F L); now apply wrap_low|].
  destruct (wrap_range x F) as [F' R]; [rewrite lit_num in L; rewrite k22; lra|].
  apply wrap_low; [exact F'|]. apply Rabs_le_inv in R. rewrite k22 in R. rewrite lit_num. lra.
Qed.
