(** Sums of squared differences in double precision. *)
From Coq Require Import ZArith Reals Lra Lia Bool List Psatz.
From Flocq Require Import Core IEEE754.BinarySingleNaN.
From Flocq Require Import Relative Plus_error.
From Verif Require Import Float FloatProofs DoubleThms.
Import ListNotations.
Open Scope R_scope.

(** 0 + (x1 - y1)^2 + (x2 - y2)^2 + ... from left to right *)
Definition term64 (x y : f64) : f64 := let d := Bminus mode_NE x y in Bmult mode_NE d d.
Definition sum64 (s : f64) (l : list (f64 * f64)) : f64 :=
  fold_left (fun s p => Bplus mode_NE s (term64 (fst p) (snd p))) l s.
(** The exact sum *)
Definition sumR (l : list (f64 * f64)) : R :=
  fold_right (fun p s => (B2R (fst p) - B2R (snd p)) * (B2R (fst p) - B2R (snd p)) + s) 0 l.

Lemma sumR_pos l : 0 <= sumR l.
Proof. induction l as [|p l IH]; [apply Rle_refl|]. apply Rplus_le_le_0_compat; [apply (Rle_0_sqr (B2R (fst p) - B2R (snd p)))|exact IH]. Qed.

(** ** Values that are not finite *)
(** not a number, or without minus sign *)
Definition plus (x : f64) : Prop := is_nan x = true \/ Bsign x = false.
Lemma plus_not_below (x t : f64) : plus x -> is_finite x = false -> Bltb x t = false.
Proof.
  intros [N|S] F.
  - destruct x; try discriminate. reflexivity.
  - destruct x as [s|s| |s m e H]; try discriminate; cbn in S; subst.
    + destruct t as [[]|[]| |[] ? ? ?]; reflexivity.
    + reflexivity.
Qed.
Lemma minus_not_finite (x y : f64) : is_finite x = false \/ is_finite y = false -> is_finite (Bminus mode_NE x y) = false.
Proof. intros [H|H]; destruct x as [[]|[]| |[] ? ? ?], y as [[]|[]| |[] ? ? ?]; cbn in H; try discriminate; reflexivity. Qed.
Lemma plus_not_finite (x y : f64) : is_finite x = false \/ is_finite y = false -> is_finite (Bplus mode_NE x y) = false.
Proof. intros [H|H]; destruct x as [[]|[]| |[] ? ? ?], y as [[]|[]| |[] ? ? ?]; cbn in H; try discriminate; reflexivity. Qed.
Lemma square_not_finite (x : f64) : is_finite x = false -> is_finite (Bmult mode_NE x x) = false.
Proof. destruct x as [[]|[]| |[] ? ? ?]; try discriminate; reflexivity. Qed.

Lemma square_plus (x : f64) : plus (Bmult mode_NE x x).
Proof.
  destruct (is_nan (Bmult mode_NE x x)) eqn:N; [now left|right].
  pose proof (Bmult_correct 53 1024 _ _ mode_NE x x) as C.
  destruct (Rlt_bool _ _) in C.
  - destruct C as (_ & _ & C). rewrite (C N). apply xorb_nilpotent.
  - rewrite xorb_nilpotent in C. unfold binary_overflow in C. cbn in C.
    destruct (Bmult mode_NE x x); cbn in C |- *; congruence.
Qed.
Lemma add_plus (x y : f64) : plus x -> plus y -> plus (Bplus mode_NE x y).
Proof.
  intros Hx Hy. destruct (is_nan (Bplus mode_NE x y)) eqn:N; [now left|right].
  assert (Sx : Bsign x = false) by (destruct Hx as [Hx|Hx]; [destruct x, y; discriminate|exact Hx]).
  assert (Sy : Bsign y = false) by (destruct Hy as [Hy|Hy]; [destruct x as [[]|[]| |[] ? ? ?], y; discriminate|exact Hy]).
  destruct (is_finite x) eqn:Fx; [destruct (is_finite y) eqn:Fy|].
  - pose proof (Bplus_correct 53 1024 _ _ mode_NE x y Fx Fy) as C. destruct (Rlt_bool _ _) in C.
    + destruct C as (_ & _ & ->). rewrite Sx, Sy.
      assert (P : forall z : f64, Bsign z = false -> 0 <= B2R z).
      { intros [s|s| |s m e H]; cbn; intros E; subst; try lra. unfold F2R. cbn. apply Rmult_le_pos; [apply IZR_le; lia|apply bpow_ge_0]. }
      pose proof (P x Sx). pose proof (P y Sy).
      destruct (Rcompare_spec (B2R x + B2R y) 0); try reflexivity. lra.
    + destruct C as [C _]. rewrite Sx in C. unfold binary_overflow in C. cbn in C.
      destruct (Bplus mode_NE x y); cbn in C |- *; congruence.
  - destruct y as [[]|[]| |[] ? ? ?], x as [[]|[]| |[] ? ? ?]; try discriminate; reflexivity.
  - destruct x as [[]|[]| |[] ? ? ?], y as [[]|[]| |[] ? ? ?]; try discriminate; reflexivity.
Qed.
Lemma sum_plus l : forall s, plus s -> plus (sum64 s l).
Proof. induction l as [|p l IH]; intros s H; [exact H|]. apply IH. apply add_plus; [exact H|apply square_plus]. Qed.
Lemma sum_not_finite l : forall s, is_finite s = false \/ Exists (fun p => is_finite (fst p) = false \/ is_finite (snd p) = false) l ->
  is_finite (sum64 s l) = false.
Proof.
  induction l as [|p l IH]; intros s [H|H]; [exact H|inversion H|..]; apply IH.
  - left. apply plus_not_finite. now left.
  - apply Exists_cons in H. destruct H as [H|H]; [left|now right].
    apply plus_not_finite. right. apply square_not_finite. now apply minus_not_finite.
Qed.
Lemma sum_never_below l t : Exists (fun p => is_finite (fst p) = false \/ is_finite (snd p) = false) l ->
  Bltb (sum64 (f64_of_Z 0) l) t = false.
Proof.
  intros H. apply plus_not_below; [apply sum_plus; now right|]. apply sum_not_finite. now right.
Qed.
Lemma sum_not_negative l t : is_nan t = true \/ is_finite t = true /\ B2R t <= 0 -> Bltb (sum64 (f64_of_Z 0) l) t = false.
Proof.
  intros T. assert (P : plus (sum64 (f64_of_Z 0) l)) by (apply sum_plus; now right).
  destruct (is_finite (sum64 (f64_of_Z 0) l)) eqn:F; [|now apply plus_not_below].
  destruct T as [T|[Ft T]].
  - destruct t; try discriminate. now destruct (sum64 (f64_of_Z 0) l).
  - rewrite ltb64 by assumption. apply Rlt_bool_false. apply Rle_trans with 0; [exact T|].
    destruct P as [P|P]; [destruct (sum64 (f64_of_Z 0) l); discriminate|].
    destruct (sum64 (f64_of_Z 0) l) as [s|s| |s m e H]; cbn in *; subst; try lra.
    unfold F2R. cbn. apply Rmult_le_pos; [apply IZR_le; lia|apply bpow_ge_0].
Qed.

(** ** Accuracy *)
Definition u64 : R := bpow radix2 (-53).
Lemma u64_half : u64 = / 2 * bpow radix2 (-53 + 1).
Proof. unfold u64. change (-53 + 1)%Z with (1 + -53)%Z. rewrite bpow_plus. change (bpow radix2 1) with 2. lra. Qed.
Lemma rnd64_rel x : exists eps eta, Rabs eps <= u64 /\ Rabs eta <= bpow radix2 (-1075) /\
  rnd64 x = x * (1 + eps) + eta.
Proof.
  destruct (error_N_FLT radix2 (-1074) 53 eq_refl (fun n => negb (Z.even n)) x) as (e & h & He & Hh & _ & E).
  exists e, h. split; [now rewrite u64_half|]. split; [|exact E].
  replace (bpow radix2 (-1075)) with (/ 2 * bpow radix2 (-1074)); [exact Hh|].
  change (-1074)%Z with (1 + -1075)%Z. rewrite bpow_plus. change (bpow radix2 1) with 2. lra.
Qed.
Lemma rnd64_add x y : format64 x -> format64 y -> exists eps, Rabs eps <= u64 /\ rnd64 (x + y) = (x + y) * (1 + eps).
Proof.
  intros Hx Hy.
  destruct (FLT_plus_error_N_ex radix2 (-1074) 53 (fun n => negb (Z.even n)) x y Hx Hy) as (e & He & E).
  exists e. split; [|exact E]. eapply Rle_trans; [exact He|].
  change (u_ro radix2 53) with (/ 2 * bpow radix2 (-53 + 1)). rewrite <- u64_half.
  assert (0 < u64) by apply bpow_gt_0.
  apply Rmult_le_reg_r with (1 + u64); [lra|]. unfold Rdiv. rewrite Rmult_assoc, Rinv_l by lra. nra.
Qed.
Lemma fmt64_bpow k : (-1074 <= k)%Z -> format64 (bpow radix2 k).
Proof. intros H. replace (bpow radix2 k) with (IZR 1 * bpow radix2 k) by ring. now apply format64_int. Qed.
Lemma rnd64_bound x k : (-1074 <= k)%Z -> Rabs x <= bpow radix2 k -> Rabs (rnd64 x) <= bpow radix2 k.
Proof.
  intros Hk Hx. apply abs_round_le_generic; [typeclasses eauto|typeclasses eauto|now apply fmt64_bpow|exact Hx].
Qed.
Lemma no_overflow64 x k : (-1074 <= k <= 1023)%Z -> Rabs x <= bpow radix2 k ->
  Rlt_bool (Rabs (round radix2 fexp64 (round_mode mode_NE) x)) (bpow radix2 1024) = true.
Proof.
  intros Hk Hx. apply Rlt_bool_true. eapply Rle_lt_trans; [apply (rnd64_bound x k); [lia|exact Hx]|].
  apply bpow_lt. lia.
Qed.
Lemma minus64_value (x y : f64) k : (-1074 <= k <= 1023)%Z -> is_finite x = true -> is_finite y = true ->
  Rabs (B2R x - B2R y) <= bpow radix2 k ->
  B2R (Bminus mode_NE x y) = rnd64 (B2R x - B2R y) /\ is_finite (Bminus mode_NE x y) = true.
Proof.
  intros Hk Fx Fy H. pose proof (Bminus_correct 53 1024 _ _ mode_NE x y Fx Fy) as C.
  rewrite (no_overflow64 _ k Hk H) in C. tauto.
Qed.
Lemma plus64_value (x y : f64) k : (-1074 <= k <= 1023)%Z -> is_finite x = true -> is_finite y = true ->
  Rabs (B2R x + B2R y) <= bpow radix2 k ->
  B2R (Bplus mode_NE x y) = rnd64 (B2R x + B2R y) /\ is_finite (Bplus mode_NE x y) = true.
Proof.
  intros Hk Fx Fy H. pose proof (Bplus_correct 53 1024 _ _ mode_NE x y Fx Fy) as C.
  rewrite (no_overflow64 _ k Hk H) in C. tauto.
Qed.
Lemma mult64_value (x y : f64) k : (-1074 <= k <= 1023)%Z -> is_finite x = true -> is_finite y = true ->
  Rabs (B2R x * B2R y) <= bpow radix2 k ->
  B2R (Bmult mode_NE x y) = rnd64 (B2R x * B2R y) /\ is_finite (Bmult mode_NE x y) = true.
Proof.
  intros Hk Fx Fy H. pose proof (Bmult_correct 53 1024 _ _ mode_NE x y) as C.
  rewrite (no_overflow64 _ k Hk H), Fx, Fy in C. tauto.
Qed.

Lemma u64_small : 0 < u64 < / 1000000000.
Proof. split; [apply bpow_gt_0|]. unfold u64. cbn. lra. Qed.
Lemma double_bpow k : bpow radix2 (k + 1) = 2 * bpow radix2 k.
Proof. rewrite Z.add_comm, bpow_plus. reflexivity. Qed.

(** Finite and of moderate size *)
Definition moderate (x : f64) : Prop := is_finite x = true /\ Rabs (B2R x) <= bpow radix2 500.

Lemma term_accurate (x y : f64) : moderate x -> moderate y ->
  let t := (B2R x - B2R y) * (B2R x - B2R y) in
  is_finite (term64 x y) = true /\ t <= bpow radix2 1002 /\ 0 <= B2R (term64 x y) <= bpow radix2 1002 /\
  Rabs (B2R (term64 x y) - t) <= 3.1 * u64 * t + bpow radix2 (-1075).
Proof.
  intros [Fx Hx] [Fy Hy] t. pose proof u64_small as U.
  assert (D : Rabs (B2R x - B2R y) <= bpow radix2 501).
  { change 501%Z with (500 + 1)%Z. rewrite double_bpow. eapply Rle_trans; [apply Rabs_triang|]. rewrite Rabs_Ropp. lra. }
  destruct (minus64_value x y 501 ltac:(lia) Fx Fy D) as [E1 F1].
  pose proof (rnd64_bound _ 501 ltac:(lia) D) as B1.
  assert (Q : forall d, Rabs d <= bpow radix2 501 -> Rabs (d * d) <= bpow radix2 1002).
  { intros d Hd. rewrite Rabs_mult. change 1002%Z with (501 + 501)%Z. rewrite bpow_plus. apply Rmult_le_compat; auto using Rabs_pos. }
  unfold term64. cbv zeta. rewrite <- E1 in B1.
  destruct (mult64_value _ _ 1002 ltac:(lia) F1 F1 (Q _ B1)) as [E2 F2].
  pose proof (rnd64_bound _ 1002 ltac:(lia) (Q _ B1)) as B2.
  split; [exact F2|]. split; [eapply Rle_trans; [apply Rle_abs|]; now apply Q|].
  rewrite E2. split.
  { split; [|eapply Rle_trans; [apply Rle_abs|]; exact B2].
    rewrite <- rnd64_0. apply rnd64_le. apply (Rle_0_sqr (B2R (Bminus mode_NE x y))). }
  rewrite E1. destruct (rnd64_add (B2R x) (- B2R y)) as (e1 & H1 & R1).
  { apply fmt_B2R. } { apply generic_format_opp, fmt_B2R. }
  change (B2R x + - B2R y) with (B2R x - B2R y) in R1. rewrite R1.
  set (d := B2R x - B2R y) in *. destruct (rnd64_rel (d * (1 + e1) * (d * (1 + e1)))) as (e2 & h & H2 & H3 & ->).
  assert (T : 0 <= t) by apply (Rle_0_sqr d).
  replace (d * (1 + e1) * (d * (1 + e1)) * (1 + e2) + h - t) with (t * ((1 + e1) * (1 + e1) * (1 + e2) - 1) + h) by (unfold t; ring).
  eapply Rle_trans; [apply Rabs_triang|]. apply Rplus_le_compat; [|exact H3].
  rewrite Rabs_mult, (Rabs_pos_eq t T), Rmult_comm. apply Rmult_le_compat_r; [exact T|].
  apply Rabs_le_inv in H1, H2. apply Rabs_le.
  assert (A : 1 - 2.01 * u64 <= (1 + e1) * (1 + e1) <= 1 + 2.01 * u64) by nra.
  set (a := (1 + e1) * (1 + e1)) in *. clearbody a. nra.
Qed.

(** One more term *)
Lemma sum_step (s : f64) (S c h : R) (k : Z) (x y : f64) : (1002 <= k <= 1020)%Z -> moderate x -> moderate y ->
  is_finite s = true -> 0 <= B2R s -> B2R s <= bpow radix2 k -> 0 <= S -> 3.1 <= c <= 100 -> bpow radix2 (-1075) <= h ->
  Rabs (B2R s - S) <= c * u64 * S + h ->
  let t := (B2R x - B2R y) * (B2R x - B2R y) in
  let s' := Bplus mode_NE s (term64 x y) in
  is_finite s' = true /\ 0 <= B2R s' <= bpow radix2 (k + 1) /\
  Rabs (B2R s' - (S + t)) <= (c + 1.01) * u64 * (S + t) + 3 * h.
Proof.
  intros Hk Mx My Fs Ps Bs PS Hc Hh Hs t s'. pose proof u64_small as U.
  destruct (term_accurate x y Mx My) as (Ft & _ & [Pt Bt] & Ht). fold t in Ht. set (w := term64 x y) in *.
  assert (T : 0 <= t) by apply (Rle_0_sqr (B2R x - B2R y)).
  assert (B : Rabs (B2R s + B2R w) <= bpow radix2 (k + 1)).
  { rewrite Rabs_pos_eq by lra. rewrite double_bpow.
    assert (bpow radix2 1002 <= bpow radix2 k) by (apply bpow_le; lia). lra. }
  destruct (plus64_value s w (k + 1) ltac:(lia) Fs Ft B) as [E F]. unfold s'. split; [exact F|].
  pose proof (rnd64_bound _ (k + 1) ltac:(lia) B) as B'. split.
  { rewrite E. split; [rewrite <- rnd64_0; apply rnd64_le; lra|]. apply Rabs_le_inv in B'. lra. }
  rewrite E. destruct (rnd64_add (B2R s) (B2R w) (fmt_B2R s) (fmt_B2R w)) as (e & He & ->).
  assert (H0 : 0 < h) by (pose proof (bpow_gt_0 radix2 (-1075)); lra).
  apply Rabs_le_inv in Hs, Ht, He.
  assert (K : 0 <= c * u64 <= 0.001) by nra.
  assert (A1 : - (c * u64 * (S + t) + 2 * h) <= B2R s + B2R w - (S + t) <= c * u64 * (S + t) + 2 * h).
  { assert (L : 3.1 * u64 * t <= c * u64 * t) by (apply Rmult_le_compat_r; [exact T|nra]).
    rewrite (Rmult_plus_distr_l (c * u64) S t). lra. }
  set (z := B2R s + B2R w) in *. set (Z := S + t) in *. assert (PZ : 0 <= Z) by (unfold Z; lra). clearbody z Z.
  assert (K' : c * u64 * Z <= 0.001 * Z) by (apply Rmult_le_compat_r; lra).
  replace (z * (1 + e) - Z) with ((z - Z) + z * e) by ring.
  assert (A3 : Rabs (z * e) <= 1.01 * u64 * Z + h).
  { rewrite Rabs_mult. assert (Z1 : Rabs z <= 1.002 * Z + 2 * h) by (apply Rabs_le; lra).
    assert (Rabs e <= u64) by (apply Rabs_le; lra). pose proof (Rabs_pos z). pose proof (Rabs_pos e).
    apply Rle_trans with ((1.002 * Z + 2 * h) * u64); [apply Rmult_le_compat; lra|nra]. }
  apply Rabs_le_inv in A3. apply Rabs_le. lra.
Qed.

Lemma sum_fold (l : list (f64 * f64)) : forall (s : f64) (S c h : R) (k : Z),
  (1002 <= k)%Z -> (k + Z.of_nat (length l) <= 1020)%Z -> Forall (fun p => moderate (fst p) /\ moderate (snd p)) l ->
  is_finite s = true -> 0 <= B2R s -> B2R s <= bpow radix2 k -> 0 <= S -> 3.1 <= c ->
  c + 1.01 * INR (length l) <= 100 -> bpow radix2 (-1075) <= h -> Rabs (B2R s - S) <= c * u64 * S + h ->
  is_finite (sum64 s l) = true /\
  Rabs (B2R (sum64 s l) - (S + sumR l)) <= (c + 1.01 * INR (length l)) * u64 * (S + sumR l) + 3 ^ length l * h.
Proof.
  induction l as [|[x y] l IH]; intros s S c h k K1 K2 M Fs Ps Bs PS C1 C2 Hh Hs.
  - cbn [sum64 fold_left sumR fold_right length INR pow]. split; [exact Fs|].
    rewrite Rmult_0_r, !Rplus_0_r, Rmult_1_l. exact Hs.
  - apply Forall_cons_iff in M. destruct M as [[Mx My] M]. cbn [fst snd] in Mx, My.
    cbn [length] in K2, C2. rewrite S_INR in C2. pose proof (pos_INR (length l)) as PL.
    destruct (sum_step s S c h k x y ltac:(lia) Mx My Fs Ps Bs PS ltac:(lra) Hh Hs) as (F & [P B] & E).
    cbv zeta in E. set (t := (B2R x - B2R y) * (B2R x - B2R y)) in *.
    assert (T : 0 <= t) by apply (Rle_0_sqr (B2R x - B2R y)).
    assert (H0 : 0 < h) by (pose proof (bpow_gt_0 radix2 (-1075)); lra).
    destruct (IH (Bplus mode_NE s (term64 x y)) (S + t) (c + 1.01) (3 * h) (k + 1)%Z) as [F' E']; try assumption; try lia; try lra.
    change (sum64 s ((x, y) :: l)) with (sum64 (Bplus mode_NE s (term64 x y)) l).
    change (sumR ((x, y) :: l)) with (t + sumR l). split; [exact F'|].
    cbn [length pow]. rewrite S_INR. rewrite <- Rplus_assoc.
    replace (c + 1.01 * (INR (length l) + 1)) with (c + 1.01 + 1.01 * INR (length l)) by ring.
    replace (3 * 3 ^ length l * h) with (3 ^ length l * (3 * h)) by ring. exact E'.
Qed.

(** Five components *)
Lemma sum5_accurate (l : list (f64 * f64)) : (length l <= 5)%nat -> Forall (fun p => moderate (fst p) /\ moderate (snd p)) l ->
  is_finite (sum64 (f64_of_Z 0) l) = true /\
  Rabs (B2R (sum64 (f64_of_Z 0) l) - sumR l) <= bpow radix2 (-49) * sumR l + bpow radix2 (-1067).
Proof.
  intros L M. assert (Z0 : B2R (f64_of_Z 0) = 0) by reflexivity. pose proof (bpow_gt_0 radix2 (-1075)) as P75.
  assert (L' : INR (length l) <= 5) by (replace 5 with (INR 5) by (cbn; lra); now apply le_INR).
  destruct (sum_fold l (f64_of_Z 0) 0 3.1 (bpow radix2 (-1075)) 1002) as [F E]; try rewrite Z0; try lra; try lia; try assumption; try reflexivity.
  { apply bpow_ge_0. } { replace (0 - 0) with 0 by ring. rewrite Rabs_R0. lra. }
  split; [exact F|]. rewrite Rplus_0_l in E. eapply Rle_trans; [exact E|]. pose proof (sumR_pos l) as P.
  pose proof u64_small as U. apply Rplus_le_compat.
  - apply Rmult_le_compat_r; [exact P|]. change (-49)%Z with (4 + -53)%Z. rewrite bpow_plus. change (bpow radix2 4) with 16. fold u64. nra.
  - change (-1067)%Z with (8 + -1075)%Z. rewrite bpow_plus. apply Rmult_le_compat_r; [lra|]. change (bpow radix2 8) with 256.
    apply Rle_trans with (3 ^ 5); [|lra]. apply Rle_pow; [lra|exact L].
Qed.

(** Comparison with a threshold that is not too close *)
Lemma sum5_below (l : list (f64 * f64)) (t : f64) : (length l <= 5)%nat -> Forall (fun p => moderate (fst p) /\ moderate (snd p)) l ->
  is_finite t = true ->
  bpow radix2 (-48) * Rabs (B2R t) + bpow radix2 (-1066) < Rabs (sumR l - B2R t) ->
  Bltb (sum64 (f64_of_Z 0) l) t = Rlt_bool (sumR l) (B2R t).
Proof.
  intros L M Ft H. destruct (sum5_accurate l L M) as [F E]. pose proof (sumR_pos l) as P.
  rewrite ltb64 by assumption. set (d := B2R (sum64 (f64_of_Z 0) l)) in *. set (D := sumR l) in *. set (T := B2R t) in *.
  change (-48)%Z with (-49 + 1)%Z in H. change (-1066)%Z with (-1067 + 1)%Z in H. rewrite !double_bpow in H.
  assert (U : 0 < bpow radix2 (-49) < / 1000) by (split; [apply bpow_gt_0|cbn; lra]).
  pose proof (bpow_gt_0 radix2 (-1067)) as V. set (u := bpow radix2 (-49)) in *. set (v := bpow radix2 (-1067)) in *.
  clearbody d D T u v. apply Rabs_le_inv in E.
  destruct (Rlt_or_le D T) as [G|G].
  - rewrite !Rlt_bool_true; [reflexivity|exact G|]. rewrite Rabs_pos_eq in H by lra. rewrite Rabs_left in H by lra. nra.
  - rewrite !Rlt_bool_false; [reflexivity|exact G|]. rewrite (Rabs_pos_eq (D - T)) in H by lra.
    destruct (Rle_or_lt 0 T) as [N|N]; [rewrite Rabs_pos_eq in H by lra|rewrite Rabs_left in H by lra].
    + assert (A : 0 <= (D - (T + 2 * u * T + 2 * v)) * (1 - u)) by (apply Rmult_le_pos; lra).
      assert (B : 0 <= u * T) by (apply Rmult_le_pos; lra).
      assert (C : u * (u * T) <= / 1000 * (u * T)) by (apply Rmult_le_compat_r; lra).
      assert (K : u * v <= / 1000 * v) by (apply Rmult_le_compat_r; lra). lra.
    + assert (A : 0 <= (D - (T + 2 * v)) * (1 - u)) by (apply Rmult_le_pos; nra).
      assert (B : 0 <= u * - T) by (apply Rmult_le_pos; lra).
      assert (K : u * v <= / 1000 * v) by (apply Rmult_le_compat_r; lra). lra.
Qed.
