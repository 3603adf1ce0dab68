(** Accuracy of the Euclidean distance computed in float. *)
From Coq Require Import ZArith Reals Lra Lia Bool List Permutation.
From Flocq Require Import Core IEEE754.BinarySingleNaN.
From Flocq Require Import Relative Plus_error.
From Verif Require Import Base Float Motion DoubleArith FloatProofs FloatDistance.
Import ListNotations.
Open Scope R_scope.

(** ** Norms of three numbers *)
Definition nrm (a b c : R) : R := sqrt (a * a + b * b + c * c).
Lemma nrm_pos a b c : 0 <= nrm a b c.
Proof. apply sqrt_pos. Qed.
Lemma nrm_sq a b c : nrm a b c * nrm a b c = a * a + b * b + c * c.
Proof. apply sqrt_sqrt. nra. Qed.
Lemma nrm_le a b c m : 0 <= m -> a * a + b * b + c * c <= m * m -> nrm a b c <= m.
Proof. intros Hm H. unfold nrm. rewrite <- (sqrt_square m Hm). now apply sqrt_le_1_alt. Qed.
Lemma dot_le a b c x y z : a * x + b * y + c * z <= nrm a b c * nrm x y z.
Proof.
  pose proof (nrm_pos a b c) as P. pose proof (nrm_pos x y z) as Q.
  pose proof (nrm_sq a b c) as E. pose proof (nrm_sq x y z) as F.
  destruct (Rle_dec (a * x + b * y + c * z) 0) as [H|H]; [nra|].
  apply Rsqr_incr_0; [|lra|nra]. unfold Rsqr.
  replace (nrm a b c * nrm x y z * (nrm a b c * nrm x y z))
    with ((nrm a b c * nrm a b c) * (nrm x y z * nrm x y z)) by ring.
  rewrite E, F.
  assert (0 <= (a * y - b * x) * (a * y - b * x)) by apply Rle_0_sqr.
  assert (0 <= (a * z - c * x) * (a * z - c * x)) by apply Rle_0_sqr.
  assert (0 <= (b * z - c * y) * (b * z - c * y)) by apply Rle_0_sqr. lra.
Qed.
Lemma nrm_triangle a b c x y z : nrm (a + x) (b + y) (c + z) <= nrm a b c + nrm x y z.
Proof.
  pose proof (nrm_pos a b c) as P. pose proof (nrm_pos x y z) as Q.
  pose proof (nrm_sq a b c) as E. pose proof (nrm_sq x y z) as F. pose proof (dot_le a b c x y z) as D.
  apply nrm_le; [lra|]. nra.
Qed.
Lemma nrm_bound a b c k : 0 <= k -> Rabs a <= k -> Rabs b <= k -> Rabs c <= k -> nrm a b c <= 1.7321 * k.
Proof.
  intros Hk Ha Hb Hc. apply nrm_le; [lra|].
  assert (S : forall x, Rabs x <= k -> x * x <= k * k).
  { intros x Hx. apply Rabs_le_inv in Hx. nra. }
  pose proof (S a Ha). pose proof (S b Hb). pose proof (S c Hc). nra.
Qed.
Lemma nrm_scale a b c x y z k : 0 <= k -> Rabs x <= k * Rabs a -> Rabs y <= k * Rabs b -> Rabs z <= k * Rabs c ->
  nrm x y z <= k * nrm a b c.
Proof.
  intros Hk Hx Hy Hz. pose proof (nrm_pos a b c). pose proof (nrm_sq a b c) as E.
  apply nrm_le; [nra|].
  assert (S : forall u v, Rabs u <= k * Rabs v -> u * u <= k * k * (v * v)).
  { intros u v Hu. pose proof (Rabs_pos u). pose proof (Rabs_pos v).
    replace (u * u) with (Rabs u * Rabs u) by (rewrite <- Rabs_mult; apply Rabs_pos_eq; nra).
    replace (v * v) with (Rabs v * Rabs v) by (rewrite <- Rabs_mult; apply Rabs_pos_eq; nra).
    assert (Rabs u * Rabs u <= (k * Rabs v) * (k * Rabs v)) by (apply Rmult_le_compat; lra). lra. }
  pose proof (S _ _ Hx). pose proof (S _ _ Hy). pose proof (S _ _ Hz). nra.
Qed.
Lemma nrm_perm a b c x y z : Permutation [x; y; z] [a; b; c] -> nrm x y z = nrm a b c.
Proof.
  intros H. unfold nrm. f_equal.
  assert (G : forall l m : list R, Permutation l m ->
    fold_right (fun v s => v * v + s) 0 l = fold_right (fun v s => v * v + s) 0 m).
  { clear. induction 1; cbn; lra. }
  specialize (G _ _ H). cbn in G. lra.
Qed.

(** ** Rounding to float *)
Definition u32 : R := / 16777216.
Lemma u32_bpow : u32 = / 2 * bpow radix2 (-24 + 1).
Proof. unfold u32. cbn. lra. Qed.
Lemma rnd32_rel x : exists eps eta, Rabs eps <= u32 /\ Rabs eta <= bpow radix2 (-150) /\
  rnd32 x = x * (1 + eps) + eta.
Proof.
  destruct (error_N_FLT radix2 (-149) 24 eq_refl (fun n => negb (Z.even n)) x) as (e & h & He & Hh & _ & E).
  exists e, h. split; [now rewrite u32_bpow|]. split; [|exact E].
  replace (bpow radix2 (-150)) with (/ 2 * bpow radix2 (-149)); [exact Hh|].
  change (-149)%Z with (1 + -150)%Z. rewrite bpow_plus. cbn [bpow]. change (Z.pow_pos radix2 1) with 2%Z. lra.
Qed.
Lemma rnd32_add x y : format32 x -> format32 y -> exists eps, Rabs eps <= u32 /\ rnd32 (x + y) = (x + y) * (1 + eps).
Proof.
  intros Hx Hy.
  destruct (FLT_plus_error_N_ex radix2 (-149) 24 (fun n => negb (Z.even n)) x y Hx Hy) as (e & He & E).
  exists e. split; [|exact E]. eapply Rle_trans; [exact He|].
  change (u_ro radix2 24) with (/ 2 * bpow radix2 (-24 + 1)). rewrite <- u32_bpow.
  unfold u32. lra.
Qed.
Lemma fmt32 x : format32 (rnd32 x).
Proof. apply generic_format_round; typeclasses eauto. Qed.
Lemma fmt32_bpow k : (-149 <= k)%Z -> format32 (bpow radix2 k).
Proof. intros H. replace (bpow radix2 k) with (IZR 1 * bpow radix2 k) by ring. now apply format32_int. Qed.
Lemma rnd32_bound x k : (-149 <= k)%Z -> Rabs x <= bpow radix2 k -> Rabs (rnd32 x) <= bpow radix2 k.
Proof.
  intros Hk Hx. apply abs_round_le_generic; [typeclasses eauto|typeclasses eauto|now apply fmt32_bpow|exact Hx].
Qed.
Lemma rnd32_pos x : 0 <= x -> 0 <= rnd32 x.
Proof. intros H. rewrite <- rnd32_0. now apply rnd32_le. Qed.
Lemma rnd32_near x k : (-120 <= k)%Z -> Rabs x <= bpow radix2 k -> Rabs (rnd32 x - x) <= bpow radix2 (k - 25).
Proof.
  intros Hk Hx. destruct (Rle_lt_or_eq_dec _ _ Hx) as [H|H].
  - eapply Rle_trans; [apply (err32 k x H)|].
    replace (fexp32 k) with (1 + (k - 25))%Z by (unfold SpecFloat.fexp, SpecFloat.emin; lia).
    rewrite bpow_plus. change (bpow radix2 1) with 2. lra.
  - rewrite rnd32_id.
    + rewrite Rminus_diag_eq, Rabs_R0 by reflexivity. apply bpow_ge_0.
    + revert H. unfold Rabs. destruct (Rcase_abs x); intros H.
      * replace x with (- bpow radix2 k) by lra. apply generic_format_opp. apply fmt32_bpow. lia.
      * rewrite H. apply fmt32_bpow. lia.
Qed.

(** One component: the float difference of two rounded doubles. *)
Lemma component x y e : (3 <= e <= 60)%Z -> Rabs x <= bpow radix2 e -> Rabs y <= bpow radix2 e ->
  exists rho eps, Rabs rho <= bpow radix2 (e - 24) /\ Rabs eps <= u32 /\
    rnd32 (rnd32 x - rnd32 y) = (x - y + rho) * (1 + eps).
Proof.
  intros He Hx Hy.
  destruct (rnd32_add (rnd32 x) (- rnd32 y)) as (eps & Heps & E).
  { apply fmt32. } { apply generic_format_opp, fmt32. }
  exists (rnd32 x - x - (rnd32 y - y)), eps.
  split; [|split; [exact Heps|]].
  - pose proof (rnd32_near x e ltac:(lia) Hx) as A. pose proof (rnd32_near y e ltac:(lia) Hy) as B.
    replace (e - 24)%Z with (1 + (e - 25))%Z by lia. rewrite bpow_plus. change (bpow radix2 1) with 2.
    apply Rabs_le_inv in A. apply Rabs_le_inv in B. apply Rabs_le. lra.
  - unfold Rminus at 1. rewrite E. ring.
Qed.

(** The sum of squares *)
Definition sum32 (a b c : R) : R :=
  rnd32 (rnd32 (rnd32 (a * a) + rnd32 (b * b)) + rnd32 (c * c)).
Lemma sum_error a b c : let n := a * a + b * b + c * c in
  0 <= sum32 a b c /\ Rabs (sum32 a b c - n) <= 4 * u32 * n + bpow radix2 (-147).
Proof.
  intros n. assert (0 <= a * a) as Pa by nra. assert (0 <= b * b) as Pb by nra. assert (0 <= c * c) as Pc by nra.
  pose proof (rnd32_pos _ Pa) as Qa. pose proof (rnd32_pos _ Pb) as Qb. pose proof (rnd32_pos _ Pc) as Qc.
  split.
  { unfold sum32. apply rnd32_pos. assert (0 <= rnd32 (rnd32 (a * a) + rnd32 (b * b))) by (apply rnd32_pos; lra). lra. }
  destruct (rnd32_rel (a * a)) as (e1 & h1 & He1 & Hh1 & E1).
  destruct (rnd32_rel (b * b)) as (e2 & h2 & He2 & Hh2 & E2).
  destruct (rnd32_rel (c * c)) as (e3 & h3 & He3 & Hh3 & E3).
  destruct (rnd32_add (rnd32 (a * a)) (rnd32 (b * b)) (fmt32 _) (fmt32 _)) as (e4 & He4 & E4).
  destruct (rnd32_add (rnd32 (rnd32 (a * a) + rnd32 (b * b))) (rnd32 (c * c)) (fmt32 _) (fmt32 _)) as (e5 & He5 & E5).
  unfold sum32. rewrite E5, E4, E1, E2, E3. clear E5 E4 E1 E2 E3 Qa Qb Qc.
  replace (bpow radix2 (-147)) with (8 * bpow radix2 (-150)).
  2:{ change (-147)%Z with (3 + -150)%Z. rewrite bpow_plus. change (bpow radix2 3) with 8. reflexivity. }
  set (h := bpow radix2 (-150)) in *. assert (0 <= h) as Ph by apply bpow_ge_0.
  apply Rabs_le_inv in He1, He2, He3, He4, He5, Hh1, Hh2, Hh3.
  set (A := a * a) in *. set (B := b * b) in *. set (C := c * c) in *.
  (* the factors *)
  assert (F : forall p q, - u32 <= p <= u32 -> - u32 <= q <= u32 -> Rabs ((1 + p) * (1 + q) - 1) <= 2.01 * u32).
  { intros p q Hp Hq. unfold u32 in *. apply Rabs_le. nra. }
  assert (G : forall p q r, - u32 <= p <= u32 -> - u32 <= q <= u32 -> - u32 <= r <= u32 ->
    Rabs ((1 + p) * (1 + q) * (1 + r) - 1) <= 3.1 * u32).
  { intros p q r Hp Hq Hr. pose proof (F p q Hp Hq) as K. apply Rabs_le_inv in K.
    set (f := (1 + p) * (1 + q)) in *. unfold u32 in *. apply Rabs_le. nra. }
  pose proof (G e1 e4 e5 He1 He4 He5) as G1. pose proof (G e2 e4 e5 He2 He4 He5) as G2.
  pose proof (F e3 e5 He3 He5) as G3. pose proof (F e4 e5 He4 He5) as G4.
  replace ((((A * (1 + e1) + h1) + (B * (1 + e2) + h2)) * (1 + e4) + (C * (1 + e3) + h3)) * (1 + e5) - n)
    with (A * ((1 + e1) * (1 + e4) * (1 + e5) - 1) + B * ((1 + e2) * (1 + e4) * (1 + e5) - 1)
          + C * ((1 + e3) * (1 + e5) - 1) + (h1 + h2) * ((1 + e4) * (1 + e5)) + h3 * (1 + e5))
    by (unfold n, A, B, C; ring).
  set (g1 := (1 + e1) * (1 + e4) * (1 + e5) - 1) in *. set (g2 := (1 + e2) * (1 + e4) * (1 + e5) - 1) in *.
  set (g3 := (1 + e3) * (1 + e5) - 1) in *. set (g4 := (1 + e4) * (1 + e5)) in *.
  apply Rabs_le_inv in G1, G2, G3, G4.
  assert (T1 : - (3.1 * u32 * A) <= A * g1 <= 3.1 * u32 * A) by nra.
  assert (T2 : - (3.1 * u32 * B) <= B * g2 <= 3.1 * u32 * B) by nra.
  assert (T3 : - (2.01 * u32 * C) <= C * g3 <= 2.01 * u32 * C) by nra.
  assert (T4 : - (3 * h) <= (h1 + h2) * g4 <= 3 * h).
  { assert (0.9 <= g4 <= 1.1) by (unfold u32 in *; lra). nra. }
  assert (T5 : - (2 * h) <= h3 * (1 + e5) <= 2 * h).
  { assert (0.9 <= 1 + e5 <= 1.1) by (unfold u32 in *; lra). nra. }
  assert (P : 0 <= u32) by (unfold u32; lra).
  assert (U : 0 <= u32 * A /\ 0 <= u32 * B /\ 0 <= u32 * C) by (repeat split; apply Rmult_le_pos; assumption).
  unfold n. fold A B C. apply Rabs_le. lra.
Qed.

Lemma sqrt_error q n eta : 0 <= q -> 0 <= n -> 0 <= eta ->
  Rabs (q - n * n) <= 4 * u32 * (n * n) + eta * eta -> Rabs (sqrt q - n) <= 4 * u32 * n + eta.
Proof.
  intros Hq Hn Hh H. apply Rabs_le_inv in H. pose proof (sqrt_pos q) as P.
  pose proof (sqrt_sqrt q Hq) as E. set (r := sqrt q) in *. rewrite <- E in H. clear E.
  assert (0 < u32) by (unfold u32; lra). assert (u32 < 0.0001) by (unfold u32; lra).
  apply Rabs_le. split.
  - apply Rnot_lt_le. intros K. assert (0 <= u32 * n) by nra.
    assert (r < (1 - 4 * u32) * n - eta) by lra.
    assert (0 <= (1 - 4 * u32) * n - eta) by lra.
    assert (r * r < ((1 - 4 * u32) * n - eta) * ((1 - 4 * u32) * n - eta)) by nra.
    assert (((1 - 4 * u32) * n - eta) * ((1 - 4 * u32) * n - eta) <= (1 - 4 * u32) * n * ((1 - 4 * u32) * n) - eta * eta) by nra.
    assert ((1 - 4 * u32) * n * ((1 - 4 * u32) * n) <= (1 - 4 * u32) * (n * n)) by nra.
    lra.
  - apply Rnot_lt_le. intros K. assert (0 <= u32 * n) by nra.
    assert (((1 + 4 * u32) * n + eta) * ((1 + 4 * u32) * n + eta) < r * r) by nra.
    assert ((1 + 4 * u32) * n * ((1 + 4 * u32) * n) + eta * eta <= ((1 + 4 * u32) * n + eta) * ((1 + 4 * u32) * n + eta)) by nra.
    assert ((1 + 4 * u32) * (n * n) <= (1 + 4 * u32) * n * ((1 + 4 * u32) * n)) by nra.
    lra.
Qed.

(** From the three computed differences to the result. *)
Lemma root_error a b c :
  Rabs (rnd32 (sqrt (sum32 a b c)) - nrm a b c) <= 6 * u32 * nrm a b c + bpow radix2 (-72).
Proof.
  destruct (sum_error a b c) as [Hq H]. set (q := sum32 a b c) in *. clearbody q.
  pose proof (nrm_pos a b c) as Hn. pose proof (nrm_sq a b c) as En. rewrite <- En in H. clear En.
  set (n := nrm a b c) in *. clearbody n. clear a b c.
  assert (S : Rabs (sqrt q - n) <= 4 * u32 * n + bpow radix2 (-73)).
  { apply sqrt_error; [exact Hq|exact Hn|apply bpow_ge_0|]. eapply Rle_trans; [exact H|].
    apply Rplus_le_compat_l. rewrite <- bpow_plus. apply bpow_le. lia. }
  destruct (rnd32_rel (sqrt q)) as (e & h & He & Hh & E). rewrite E. clear E H.
  replace (bpow radix2 (-72)) with (2 * bpow radix2 (-73)).
  2:{ change (-72)%Z with (1 + -73)%Z. rewrite bpow_plus. change (bpow radix2 1) with 2. reflexivity. }
  set (k := bpow radix2 (-73)) in *.
  assert (Hk : 0 < k) by apply bpow_gt_0.
  assert (bpow radix2 (-150) <= 0.1 * k).
  { change (-150)%Z with (-77 + -73)%Z. rewrite bpow_plus. fold k.
    apply Rmult_le_compat_r; [lra|]. apply Rle_trans with (bpow radix2 (-4)); [apply bpow_le; lia|]. cbn. lra. }
  apply Rabs_le_inv in S, He, Hh. set (r := sqrt q) in *. clearbody r. clear q Hq.
  assert (0 < u32 < 0.0001) by (unfold u32; lra).
  assert (0 <= u32 * n) by nra.
  assert (T : Rabs (r * e) <= u32 * (1.001 * n + k)).
  { rewrite Rabs_mult. rewrite (Rmult_comm u32). apply Rmult_le_compat; try apply Rabs_pos.
    - apply Rabs_le. nra.
    - apply Rabs_le. lra. }
  apply Rabs_le_inv in T. apply Rabs_le. nra.
Qed.

Lemma total_error x y h x' y' h' e a b c :
  (3 <= e <= 60)%Z ->
  Forall (fun v => Rabs v <= bpow radix2 e) [x; y; h; x'; y'; h'] ->
  Permutation [a; b; c] [rnd32 (rnd32 x - rnd32 x'); rnd32 (rnd32 y - rnd32 y'); rnd32 (rnd32 h - rnd32 h')] ->
  let d := nrm (x - x') (y - y') (h - h') in
  Rabs (rnd32 (sqrt (sum32 a b c)) - d) <= bpow radix2 (e - 23) + bpow radix2 (-21) * d.
Proof.
  intros He HF HP d. pose proof (root_error a b c) as H. rewrite (nrm_perm _ _ _ _ _ _ HP) in H. clear HP.
  rewrite !Forall_cons_iff in HF. destruct HF as (Hx & Hy & Hh & Hx' & Hy' & Hh' & _).
  destruct (component x x' e He Hx Hx') as (r1 & e1 & R1 & E1 & Q1). rewrite Q1 in H. clear Q1.
  destruct (component y y' e He Hy Hy') as (r2 & e2 & R2 & E2 & Q2). rewrite Q2 in H. clear Q2.
  destruct (component h h' e He Hh Hh') as (r3 & e3 & R3 & E3 & Q3). rewrite Q3 in H. clear Q3.
  set (res := rnd32 (sqrt (sum32 a b c))) in *. clearbody res. clear a b c.
  set (B := bpow radix2 (e - 24)) in *.
  assert (HB : 0 < B) by apply bpow_gt_0.
  assert (HB' : bpow radix2 (-72) <= 0.01 * B).
  { apply Rle_trans with (bpow radix2 (-10 + (e - 24))); [apply bpow_le; lia|].
    rewrite bpow_plus. fold B. apply Rmult_le_compat_r; [lra|]. cbn. lra. }
  replace (bpow radix2 (e - 23)) with (2 * B).
  2:{ unfold B. replace (e - 23)%Z with (1 + (e - 24))%Z by lia. rewrite bpow_plus. reflexivity. }
  assert (HU : bpow radix2 (-21) = 8 * u32) by (unfold u32; cbn; lra). rewrite HU. clear HU.
  assert (Hu : 0 < u32 < 0.0001) by (unfold u32; lra).
  set (d1 := x - x') in *. set (d2 := y - y') in *. set (d3 := h - h') in *.
  assert (Hd : 0 <= d) by apply nrm_pos.
  (* the computed differences, as a vector, are close to the exact ones *)
  assert (W1 : nrm (r1 * (1 + e1)) (r2 * (1 + e2)) (r3 * (1 + e3)) <= 1.7321 * (1.0001 * B)).
  { assert (K : forall r e0, Rabs r <= B -> Rabs e0 <= u32 -> Rabs (r * (1 + e0)) <= 1.0001 * B).
    { intros r e0 Hr He0. rewrite Rabs_mult, Rmult_comm. apply Rmult_le_compat; try apply Rabs_pos; [|exact Hr].
      apply Rabs_le_inv in He0. apply Rabs_le. lra. }
    apply nrm_bound; [lra|now apply K|now apply K|now apply K]. }
  assert (W2 : nrm (d1 * e1) (d2 * e2) (d3 * e3) <= u32 * d).
  { assert (K : forall v e0, Rabs e0 <= u32 -> Rabs (v * e0) <= u32 * Rabs v).
    { intros v e0 He0. rewrite Rabs_mult, Rmult_comm. apply Rmult_le_compat_r; [apply Rabs_pos|exact He0]. }
    apply nrm_scale; [lra|now apply K|now apply K|now apply K]. }
  set (v1 := (d1 + r1) * (1 + e1)) in *. set (v2 := (d2 + r2) * (1 + e2)) in *. set (v3 := (d3 + r3) * (1 + e3)) in *.
  assert (W : nrm (r1 * (1 + e1) + d1 * e1) (r2 * (1 + e2) + d2 * e2) (r3 * (1 + e3) + d3 * e3) <= 1.7323 * B + u32 * d).
  { eapply Rle_trans; [apply nrm_triangle|]. lra. }
  assert (Up : nrm v1 v2 v3 <= d + (1.7323 * B + u32 * d)).
  { replace v1 with (d1 + (r1 * (1 + e1) + d1 * e1)) by (unfold v1; ring).
    replace v2 with (d2 + (r2 * (1 + e2) + d2 * e2)) by (unfold v2; ring).
    replace v3 with (d3 + (r3 * (1 + e3) + d3 * e3)) by (unfold v3; ring).
    eapply Rle_trans; [apply nrm_triangle|]. change (nrm d1 d2 d3) with d. lra. }
  assert (Lo : d <= nrm v1 v2 v3 + (1.7323 * B + u32 * d)).
  { assert (M : nrm (- (r1 * (1 + e1) + d1 * e1)) (- (r2 * (1 + e2) + d2 * e2)) (- (r3 * (1 + e3) + d3 * e3))
              = nrm (r1 * (1 + e1) + d1 * e1) (r2 * (1 + e2) + d2 * e2) (r3 * (1 + e3) + d3 * e3)).
    { unfold nrm. f_equal. ring. }
    assert (T : d <= nrm v1 v2 v3 + nrm (- (r1 * (1 + e1) + d1 * e1)) (- (r2 * (1 + e2) + d2 * e2)) (- (r3 * (1 + e3) + d3 * e3))).
    { change d with (nrm d1 d2 d3).
      replace (nrm d1 d2 d3) with (nrm (v1 + - (r1 * (1 + e1) + d1 * e1)) (v2 + - (r2 * (1 + e2) + d2 * e2)) (v3 + - (r3 * (1 + e3) + d3 * e3))).
      - apply nrm_triangle.
      - f_equal; unfold v1, v2, v3; ring. }
    rewrite M in T. lra. }
  clear W W1 W2. clearbody v1 v2 v3. set (n := nrm v1 v2 v3) in *. clearbody n d. clear v1 v2 v3.
  assert (0 <= u32 * d) by nra. assert (0 <= u32 * B) by nra.
  apply Rabs_le_inv in H. apply Rabs_le. nra.
Qed.

(** ** The floating-point operations *)
Lemma no_overflow x k : (-149 <= k <= 127)%Z -> Rabs x <= bpow radix2 k ->
  Rlt_bool (Rabs (round radix2 fexp32 (round_mode mode_NE) x)) (bpow radix2 128) = true.
Proof.
  intros Hk Hx. apply Rlt_bool_true. eapply Rle_lt_trans; [apply (rnd32_bound x k); [lia|exact Hx]|].
  apply bpow_lt. lia.
Qed.
Lemma conv32_value (x : f64) k : (-149 <= k <= 127)%Z -> is_finite x = true -> Rabs (B2R x) <= bpow radix2 k ->
  B2R (f32_of_f64 x) = rnd32 (B2R x) /\ is_finite (f32_of_f64 x) = true.
Proof.
  intros Hk Hf Hx. destruct x as [s|s| |s m e Hb]; try discriminate; [split; [cbn; symmetry; apply rnd32_0|reflexivity]|].
  unfold f32_of_f64, convert.
  pose proof (binary_normalize_correct 24 128 _ _ mode_NE (SpecFloat.cond_Zopp s (Zpos m)) e s) as H.
  cbv zeta in H.
  change (F2R (Float radix2 (SpecFloat.cond_Zopp s (Zpos m)) e)) with (B2R (B754_finite s m e Hb)) in H.
  rewrite (no_overflow _ k Hk Hx) in H. tauto.
Qed.
Lemma sub32_value (x y : f32) k : (-149 <= k <= 127)%Z -> is_finite x = true -> is_finite y = true ->
  Rabs (B2R x - B2R y) <= bpow radix2 k ->
  B2R (f32_sub x y) = rnd32 (B2R x - B2R y) /\ is_finite (f32_sub x y) = true.
Proof.
  intros Hk Fx Fy H. pose proof (Bminus_correct 24 128 _ _ mode_NE x y Fx Fy) as C.
  rewrite (no_overflow _ k Hk H) in C. unfold f32_sub. tauto.
Qed.
Lemma add32_value (x y : f32) k : (-149 <= k <= 127)%Z -> is_finite x = true -> is_finite y = true ->
  Rabs (B2R x + B2R y) <= bpow radix2 k ->
  B2R (f32_add x y) = rnd32 (B2R x + B2R y) /\ is_finite (f32_add x y) = true.
Proof.
  intros Hk Fx Fy H. pose proof (Bplus_correct 24 128 _ _ mode_NE x y Fx Fy) as C.
  rewrite (no_overflow _ k Hk H) in C. unfold f32_add. tauto.
Qed.
Lemma mul32_value (x y : f32) k : (-149 <= k <= 127)%Z -> is_finite x = true -> is_finite y = true ->
  Rabs (B2R x * B2R y) <= bpow radix2 k ->
  B2R (f32_mul x y) = rnd32 (B2R x * B2R y) /\ is_finite (f32_mul x y) = true.
Proof.
  intros Hk Fx Fy H. pose proof (Bmult_correct 24 128 _ _ mode_NE x y) as C.
  rewrite (no_overflow _ k Hk H), Fx, Fy in C. unfold f32_mul. tauto.
Qed.
Lemma sqrt32_value (x : f32) : is_finite x = true -> 0 <= B2R x ->
  B2R (f32_sqrt x) = rnd32 (sqrt (B2R x)) /\ is_finite (f32_sqrt x) = true.
Proof.
  intros Fx Hx. destruct (Bsqrt_correct 24 128 _ _ mode_NE x) as (E & F & _).
  unfold f32_sqrt. split; [exact E|]. rewrite F.
  destruct x as [s|s| |s m e Hb]; try discriminate; [reflexivity|].
  destruct s; [|reflexivity]. exfalso. cbn in Hx.
  assert (F2R (Float radix2 (Zneg m) e) < 0) by (apply F2R_lt_0; reflexivity). cbn in *. lra.
Qed.

(** The computed differences. *)
Lemma difference (x y : f64) e : (3 <= e <= 60)%Z -> is_finite x = true -> is_finite y = true ->
  Rabs (B2R x) <= bpow radix2 e -> Rabs (B2R y) <= bpow radix2 e ->
  let v := f32_sub (f32_of_f64 x) (f32_of_f64 y) in
  B2R v = rnd32 (rnd32 (B2R x) - rnd32 (B2R y)) /\ is_finite v = true /\ Rabs (B2R v) <= bpow radix2 61.
Proof.
  intros He Fx Fy Hx Hy v.
  destruct (conv32_value x e ltac:(lia) Fx Hx) as [Ex Gx].
  destruct (conv32_value y e ltac:(lia) Fy Hy) as [Ey Gy].
  assert (B : Rabs (B2R (f32_of_f64 x) - B2R (f32_of_f64 y)) <= bpow radix2 61).
  { rewrite Ex, Ey. pose proof (rnd32_bound _ e ltac:(lia) Hx) as A1. pose proof (rnd32_bound _ e ltac:(lia) Hy) as A2.
    assert (bpow radix2 e <= bpow radix2 60) by (apply bpow_le; lia).
    replace (bpow radix2 61) with (2 * bpow radix2 60).
    - apply Rabs_le_inv in A1, A2. apply Rabs_le. lra.
    - change 61%Z with (1 + 60)%Z. now rewrite bpow_plus. }
  destruct (sub32_value _ _ 61 ltac:(lia) Gx Gy B) as [Ev Gv].
  rewrite Ex, Ey in Ev. split; [exact Ev|]. split; [exact Gv|].
  unfold v. rewrite Ev, <- Ex, <- Ey. apply rnd32_bound; [lia|exact B].
Qed.

Lemma square_bound a k : Rabs a <= bpow radix2 k -> Rabs (a * a) <= bpow radix2 (k + k).
Proof. intros H. rewrite Rabs_mult, bpow_plus. apply Rmult_le_compat; try apply Rabs_pos; exact H. Qed.
Lemma sum_bound a b k : Rabs a <= bpow radix2 k -> Rabs b <= bpow radix2 k -> Rabs (a + b) <= bpow radix2 (k + 1).
Proof.
  intros Ha Hb. rewrite Z.add_comm, bpow_plus. change (bpow radix2 1) with 2.
  apply Rabs_le_inv in Ha, Hb. apply Rabs_le. lra.
Qed.

Lemma root_value (a b c : f32) :
  Forall (fun v : f32 => is_finite v = true /\ Rabs (B2R v) <= bpow radix2 61) [a; b; c] ->
  let d := f32_sqrt (dot32 [a; b; c]) in
  is_finite d = true /\ B2R d = rnd32 (sqrt (sum32 (B2R a) (B2R b) (B2R c))).
Proof.
  intros H d. rewrite !Forall_cons_iff in H. destruct H as ([Fa Ha] & [Fb Hb] & [Fc Hc] & _).
  pose proof (square_bound _ _ Ha) as Sa. pose proof (square_bound _ _ Hb) as Sb. pose proof (square_bound _ _ Hc) as Sc.
  destruct (mul32_value a a 122 ltac:(lia) Fa Fa Sa) as [Ea Ga].
  destruct (mul32_value b b 122 ltac:(lia) Fb Fb Sb) as [Eb Gb].
  destruct (mul32_value c c 122 ltac:(lia) Fc Fc Sc) as [Ec Gc].
  assert (Ta : Rabs (B2R (f32_mul a a)) <= bpow radix2 122) by (rewrite Ea; apply rnd32_bound; [lia|exact Sa]).
  assert (Tb : Rabs (B2R (f32_mul b b)) <= bpow radix2 122) by (rewrite Eb; apply rnd32_bound; [lia|exact Sb]).
  assert (Tc : Rabs (B2R (f32_mul c c)) <= bpow radix2 123).
  { rewrite Ec; apply rnd32_bound; [lia|]. eapply Rle_trans; [exact Sc|apply bpow_le; lia]. }
  pose proof (sum_bound _ _ _ Ta Tb) as Tab.
  destruct (add32_value _ _ 123 ltac:(lia) Ga Gb Tab) as [Eab Gab].
  assert (Tab' : Rabs (B2R (f32_add (f32_mul a a) (f32_mul b b))) <= bpow radix2 123)
    by (rewrite Eab; apply rnd32_bound; [lia|exact Tab]).
  pose proof (sum_bound _ _ _ Tab' Tc) as Tabc.
  destruct (add32_value _ _ 124 ltac:(lia) Gab Gc Tabc) as [Eabc Gabc].
  assert (E : B2R (dot32 [a; b; c]) = sum32 (B2R a) (B2R b) (B2R c)).
  { cbn [dot32]. rewrite Eabc, Eab, Ea, Eb, Ec. reflexivity. }
  destruct (sqrt32_value (dot32 [a; b; c]) Gabc) as [Ed Fd].
  { rewrite E. apply sum_error. }
  split; [exact Fd|]. unfold d. now rewrite Ed, E.
Qed.

Lemma perm3 {A} (l : list A) a b c : Permutation l [a; b; c] -> exists x y z, l = [x; y; z].
Proof.
  intros H. apply Permutation_length in H.
  destruct l as [|x [|y [|z [|w l]]]]; try discriminate. eauto.
Qed.

(** The result, whatever the order of summation. *)
Lemma distance_value (x y h x' y' h' : f64) e d : (3 <= e <= 60)%Z ->
  Forall (fun v : f64 => is_finite v = true /\ Rabs (B2R v) <= bpow radix2 e) [x; y; h; x'; y'; h'] ->
  pose_distance32 (x, y, h) (x', y', h') d ->
  exists a b c,
    Permutation [a; b; c] [rnd32 (rnd32 (B2R x) - rnd32 (B2R x')); rnd32 (rnd32 (B2R y) - rnd32 (B2R y'));
                           rnd32 (rnd32 (B2R h) - rnd32 (B2R h'))] /\
    is_finite d = true /\ B2R d = rnd32 (sqrt (sum32 a b c)).
Proof.
  intros He H (l & HP & ->). rewrite !Forall_cons_iff in H.
  destruct H as ([Fx Hx] & [Fy Hy] & [Fh Hh] & [Fx' Hx'] & [Fy' Hy'] & [Fh' Hh'] & _).
  destruct (difference x x' e He Fx Fx' Hx Hx') as (E1 & F1 & B1).
  destruct (difference y y' e He Fy Fy' Hy Hy') as (E2 & F2 & B2).
  destruct (difference h h' e He Fh Fh' Hh Hh') as (E3 & F3 & B3).
  destruct (perm3 _ _ _ _ HP) as (a & b & c & ->).
  exists (B2R a), (B2R b), (B2R c). split.
  - apply (Permutation_map (fun v : f32 => B2R v)) in HP. cbn [map differences] in HP.
    rewrite E1, E2, E3 in HP. exact HP.
  - apply root_value. eapply Permutation_Forall; [apply Permutation_sym; exact HP|].
    cbn [differences]. rewrite !Forall_cons_iff. repeat (split; [split; assumption|]). constructor.
Qed.

Lemma distance_accuracy (x y h x' y' h' : f64) e d : (3 <= e <= 60)%Z ->
  Forall (fun v : f64 => is_finite v = true /\ Rabs (B2R v) <= bpow radix2 e) [x; y; h; x'; y'; h'] ->
  pose_distance32 (x, y, h) (x', y', h') d ->
  let exact := sqrt ((B2R x - B2R x') ^ 2 + (B2R y - B2R y') ^ 2 + (B2R h - B2R h') ^ 2) in
  is_finite d = true /\ Rabs (B2R d - exact) <= bpow radix2 (e - 23) + bpow radix2 (-21) * exact.
Proof.
  intros He H HD exact. destruct (distance_value _ _ _ _ _ _ e d He H HD) as (a & b & c & HP & Fd & Ed).
  split; [exact Fd|]. rewrite Ed.
  replace exact with (nrm (B2R x - B2R x') (B2R y - B2R y') (B2R h - B2R h')).
  - apply total_error; [exact He| |exact HP].
    rewrite !Forall_cons_iff in *. destruct H as ([_ ?] & [_ ?] & [_ ?] & [_ ?] & [_ ?] & [_ ?] & _).
    repeat (split; [assumption|]). constructor.
  - unfold exact, nrm. f_equal. ring.
Qed.

(** Positions that round to the same float. *)
Lemma snap x m k : (2 ^ 23 < m < 2 ^ 24)%Z -> (-149 <= k)%Z ->
  Rabs (x - IZR m * bpow radix2 k) < / 2 * bpow radix2 k -> rnd32 x = IZR m * bpow radix2 k.
Proof.
  intros [Hm1 Hm2] Hk H. pose proof (bpow_gt_0 radix2 k) as Pk.
  assert (M1 : 8388609 <= IZR m) by (apply IZR_le; lia).
  assert (M2 : IZR m <= 16777215) by (apply IZR_le; lia).
  apply Rabs_lt_inv in H.
  assert (B : bpow radix2 (k + 24 - 1) <= Rabs x < bpow radix2 (k + 24)).
  { replace (k + 24 - 1)%Z with (k + 23)%Z by lia. rewrite !bpow_plus.
    change (bpow radix2 23) with 8388608. change (bpow radix2 24) with 16777216.
    rewrite Rabs_pos_eq; nra. }
  unfold rnd32, round, scaled_mantissa, cexp.
  rewrite (mag_unique radix2 x _ B).
  replace (fexp32 (k + 24)) with k by (unfold SpecFloat.fexp, SpecFloat.emin; lia).
  rewrite (Znearest_imp _ _ m); [reflexivity|].
  rewrite bpow_opp. replace (x * / bpow radix2 k - IZR m) with ((x - IZR m * bpow radix2 k) * / bpow radix2 k) by (field; lra).
  rewrite Rabs_mult, (Rabs_pos_eq (/ _)) by (left; now apply Rinv_0_lt_compat).
  apply Rmult_lt_reg_r with (bpow radix2 k); [exact Pk|].
  rewrite Rmult_assoc, Rinv_l, Rmult_1_r by lra. apply Rabs_lt. lra.
Qed.

Lemma distance_collapse (x x' y h : f64) m k d :
  (2 ^ 23 < m < 2 ^ 24)%Z -> (-149 <= k <= 36)%Z ->
  is_finite x = true -> is_finite x' = true -> is_finite y = true -> is_finite h = true ->
  Rabs (B2R x - IZR m * bpow radix2 k) < / 2 * bpow radix2 k ->
  Rabs (B2R x' - IZR m * bpow radix2 k) < / 2 * bpow radix2 k ->
  Rabs (B2R y) <= bpow radix2 60 -> Rabs (B2R h) <= bpow radix2 60 ->
  pose_distance32 (x, y, h) (x', y, h) d \/ pose_distance32 (y, x, h) (y, x', h) d ->
  is_finite d = true /\ B2R d = 0.
Proof.
  intros Hm Hk Fx Fx' Fy Fh Hx Hx' Hy Hh HD.
  assert (K : forall z : R, Rabs (z - IZR m * bpow radix2 k) < / 2 * bpow radix2 k -> Rabs z <= bpow radix2 60).
  { intros z Hz. apply Rle_trans with (bpow radix2 (24 + k)); [|apply bpow_le; lia].
    rewrite bpow_plus. change (bpow radix2 24) with 16777216.
    assert (8388609 <= IZR m) by (apply IZR_le; lia).
    assert (IZR m <= 16777215) by (apply IZR_le; lia).
    pose proof (bpow_gt_0 radix2 k). apply Rabs_lt_inv in Hz. apply Rabs_le. nra. }
  pose proof (snap _ m k Hm ltac:(lia) Hx) as E. pose proof (snap _ m k Hm ltac:(lia) Hx') as E'.
  assert (Z : forall r, rnd32 (r - r) = 0) by (intros r; rewrite Rminus_diag_eq by reflexivity; apply rnd32_0).
  assert (G : forall a b c, Permutation [a; b; c] [0; 0; 0] -> rnd32 (sqrt (sum32 a b c)) = 0).
  { intros a b c HP.
    assert (A : forall v, In v [a; b; c] -> v = 0).
    { intros v Hv. apply (Permutation_in _ HP) in Hv. destruct Hv as [<-|[<-|[<-|[]]]]; reflexivity. }
    rewrite (A a), (A b), (A c) by (cbn; tauto). unfold sum32.
    rewrite Rmult_0_l, rnd32_0, Rplus_0_l, rnd32_0, Rplus_0_l, rnd32_0, sqrt_0. apply rnd32_0. }
  destruct HD as [HD|HD]; apply (distance_value _ _ _ _ _ _ 60 d ltac:(lia)) in HD;
    try (rewrite !Forall_cons_iff; repeat (split; [split; solve [assumption | now apply K]|]); now constructor);
    destruct HD as (a & b & c & HP & Fd & Ed); rewrite E, E', !Z in HP; split; try exact Fd;
    rewrite Ed; now apply G.
Qed.
