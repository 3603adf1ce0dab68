(** How far the sigma points are from the mean in floats: the covariance they stand for. *)
From Coq Require Import ZArith Reals Lra Lia Bool List Arith Permutation Psatz.
From Flocq Require Import Core IEEE754.BinarySingleNaN.
From Verif Require Import Base Float FloatProofs DoubleThms FloatDistance FloatDistanceThms FloatWeight FloatWeightThms
  FloatUnscented FloatUnscentedThms FloatCovariance FloatCovarianceThms FloatLlt FloatLltThms FloatLltRuns FloatPredict Properties_FloatLlt.
Import ListNotations.
Local Open Scope R_scope.

(** The covariance the displacements d(0), d(1), ... stand for: their products added up,
    divided by n + 2 *)
Definition effective (n : nat) (d : nat -> nat -> f32) (i j : nat) : R :=
  total (fun c => B2R (d c i) * B2R (d c j)) (seq 0 n) / (INR n + 2).

Definition root_float (n : nat) : f32 := f32_sqrt (f32_add (f32_of_Z (Z.of_nat n)) (f32_of_Z 2)).
Definition float_displacement (n : nat) (L : nat -> nat -> f32) (c i : nat) : f32 := f32_mul (root_float n) (L i c).
Section Root.
Variable n : nat.
Hypothesis Hn : n = 5%nat \/ n = 6%nat.
Notation root32 := (root_float n).
Notation root := (sqrt (INR n + 2)).
Lemma root_bounds : 2 < root < 3.
Proof.
  assert (H : 7 <= INR n + 2 <= 8) by (destruct Hn as [-> | ->]; cbn; lra).
  split.
  - apply Rle_lt_trans with (sqrt (2 * 2)); [rewrite sqrt_square; lra|]. apply sqrt_lt_1; lra.
  - apply Rlt_le_trans with (sqrt (3 * 3)); [|rewrite sqrt_square; lra]. apply sqrt_lt_1; lra.
Qed.
Lemma root_square : root * root = INR n + 2.
Proof. apply sqrt_sqrt. pose proof (pos_INR n). lra. Qed.
Lemma root32_value : is_finite root32 = true /\ exists e, Rabs e <= u32 /\ B2R root32 = root * (1 + e).
Proof.
  assert (F : is_finite root32 = true) by (destruct Hn as [-> | ->]; reflexivity).
  split; [exact F|]. destruct (sqrt_exact _ F) as (_ & _ & E).
  assert (V2 : B2R (f32_add (f32_of_Z (Z.of_nat n)) (f32_of_Z 2)) = INR n + 2).
  { destruct Hn as [->| ->]; cbn [INR]; val. }
  rewrite V2 in E. destruct (rnd32_big root) as (e & He & R1).
  - pose proof root_bounds. rewrite Rabs_pos_eq by lra. apply Rle_trans with (bpow radix2 1); [apply bpow_le; lia|cbn; lra].
  - exists e. apply eps_bound in He. split; [apply Rabs_le; exact He|]. unfold root_float. now rewrite E, R1.
Qed.
End Root.
Section Displacement.
Variables (n : nat) (order : nat -> nat -> tree) (mat : nat -> nat -> f32).
Hypothesis Hn : n = 5%nat \/ n = 6%nat.
Hypothesis O : orders n order.
Hypothesis V : forall i, (i < n)%nat -> bpow radix2 (-80) <= B2R (mat i i) <= bpow radix2 80.
Hypothesis Ok : snd (llt32 n order mat) = true.
Hypothesis Fin : finite_lower n (llt_matrixL32 n order mat).
Notation L := (llt_matrixL32 n order mat).
Notation root32 := (root_float n).
Notation disp := (float_displacement n L).
Notation root := (sqrt (INR n + 2)).

Lemma L_finite i c : (i < n)%nat -> is_finite (L i c) = true.
Proof.
  intros Hi. destruct (le_lt_dec c i) as [H|H].
  - apply Fin. lia.
  - unfold llt_matrixL32. destruct (Nat.leb_spec c i); [lia|reflexivity].
Qed.
Lemma V_pos i : (i < n)%nat -> 0 < B2R (mat i i).
Proof. intros Hi. eapply Rlt_le_trans; [apply (bpow_gt_0 radix2 (-80))|apply V, Hi]. Qed.
Lemma V_big i : (i < n)%nat -> bpow radix2 (-100) <= B2R (mat i i).
Proof. intros Hi. eapply Rle_trans; [|apply V, Hi]. apply bpow_le. lia. Qed.
Lemma row_size i : (i < n)%nat -> total (fun l => B2R (L i l) * B2R (L i l)) (seq 0 n) <= (1 + 18 * u32) * B2R (mat i i).
Proof.
  intros Hi. pose proof (C113_accuracy n order mat ltac:(lia) O V_big Ok Fin i i Hi Hi) as A.
  rewrite sqrt_square in A by (apply Rlt_le, V_pos, Hi). unfold matrix_of in A. rewrite Nat.leb_refl in A.
  replace (18 / 2 ^ 24) with (18 * u32) in A by (unfold u32; cbn; lra). unfold product in A. apply Rabs_le_inv in A. lra.
Qed.
Lemma total_member (f : nat -> R) l c : (forall i, 0 <= f i) -> In c l -> f c <= total f l.
Proof.
  intros P. induction l as [|a l IH]; [contradiction|]. cbn [total]. intros [->|H].
  - assert (0 <= total f l) by (apply total_nonneg; intros; apply P). lra.
  - specialize (IH H). specialize (P a). lra.
Qed.
Lemma L_size i c : (i < n)%nat -> (c < n)%nat -> Rabs (B2R (L i c)) <= (1 + 10 * u32) * sqrt (B2R (mat i i)).
Proof.
  intros Hi Hc. pose proof (row_size i Hi) as R0.
  pose proof (total_member (fun l => B2R (L i l) * B2R (L i l)) (seq 0 n) c ltac:(intros; nra) ltac:(apply in_seq; lia)) as M.
  cbv beta in M. pose proof (V_pos i Hi) as P. pose proof (sqrt_sqrt _ (Rlt_le _ _ P)) as Q. pose proof (sqrt_pos (B2R (mat i i))) as Q0.
  apply Rabs_le. set (s := sqrt (B2R (mat i i))) in *. set (l := B2R (L i c)) in *.
  assert (U : 0 < u32 < / 1000) by (unfold u32; lra).
  assert (0 <= s * s) by now apply Rmult_le_pos.
  assert (Sq : l * l <= (1 + 10 * u32) * s * ((1 + 10 * u32) * s)).
  { apply Rle_trans with ((1 + 18 * u32) * (s * s)); [rewrite Q; lra|].
    replace ((1 + 10 * u32) * s * ((1 + 10 * u32) * s)) with ((1 + 10 * u32) * (1 + 10 * u32) * (s * s)) by ring.
    apply Rmult_le_compat_r; [assumption|]. nra. }
  apply Rabs_le_inv. apply Rsqr_le_abs_0 in Sq. rewrite (Rabs_pos_eq ((1 + 10 * u32) * s)) in Sq; [exact Sq|].
  apply Rmult_le_pos; lra.
Qed.
Lemma deviation_small i : (i < n)%nat -> bpow radix2 (-40) <= sqrt (B2R (mat i i)) <= bpow radix2 40.
Proof.
  intros Hi. destruct (V i Hi) as [A B]. split.
  - rewrite <- (sqrt_square (bpow radix2 (-40))) by apply bpow_ge_0. apply sqrt_le_1_alt. now rewrite <- bpow_plus.
  - rewrite <- (sqrt_square (bpow radix2 40)) by apply bpow_ge_0. apply sqrt_le_1_alt. now rewrite <- bpow_plus.
Qed.
(** A displacement is the root times an entry of the factor, up to two roundings. *)
Lemma disp_value i c : (i < n)%nat -> (c < n)%nat -> is_finite (disp c i) = true /\
  exists e h, Rabs e <= 2.01 * u32 /\ Rabs h <= bpow radix2 (-150) /\ B2R (disp c i) = root * (B2R (L i c) * (1 + e) + h).
Proof.
  intros Hi Hc. destruct (root32_value n Hn) as (Fr & e1 & He1 & E1). pose proof (root_bounds n Hn) as RB.
  pose proof (L_size i c Hi Hc) as S. pose proof (deviation_small i Hi) as [_ D].
  assert (U : 0 < u32 < / 1000) by (unfold u32; lra).
  assert (B : Rabs (B2R root32 * B2R (L i c)) <= bpow radix2 43).
  { rewrite Rabs_mult. change 43%Z with (3 + 40)%Z. rewrite bpow_plus. change (bpow radix2 3) with 8.
    apply Rle_trans with (4 * (2 * bpow radix2 40)); [|lra]. apply Rmult_le_compat; try apply Rabs_pos.
    - rewrite E1. apply Rabs_le_inv in He1. apply Rabs_le. nra.
    - eapply Rle_trans; [exact S|]. apply Rmult_le_compat; try lra. apply sqrt_pos. }
  destruct (mul32_value root32 (L i c) 43 ltac:(lia) Fr (L_finite i c Hi) B) as [E F].
  split; [exact F|]. destruct (rnd32_rel (B2R root32 * B2R (L i c))) as (e2 & h & He2 & Hh & R2).
  exists (e1 + e2 + e1 * e2), (h / root). split; [|split].
  - assert (Rabs (e1 * e2) <= u32 * u32) by (rewrite Rabs_mult; apply Rmult_le_compat; auto using Rabs_pos).
    eapply Rle_trans; [apply Rabs_triang|]. eapply Rle_trans; [apply Rplus_le_compat_r, Rabs_triang|]. nra.
  - unfold Rdiv. rewrite Rabs_mult, (Rabs_pos_eq (/ root)) by (apply Rlt_le, Rinv_0_lt_compat; lra).
    apply Rle_trans with (bpow radix2 (-150) * 1); [|lra]. apply Rmult_le_compat; try apply Rabs_pos; [|exact Hh|].
    + apply Rlt_le, Rinv_0_lt_compat. lra.
    + rewrite <- Rinv_1. apply Rinv_le_contravar; lra.
  - unfold float_displacement. rewrite E, R2, E1. field. lra.
Qed.
Lemma disp_size i c : (i < n)%nat -> (c < n)%nat -> Rabs (B2R (disp c i)) <= 1.001 * root * sqrt (B2R (mat i i)).
Proof.
  intros Hi Hc. destruct (disp_value i c Hi Hc) as (_ & e & h & He & Hh & ->). pose proof (root_bounds n Hn) as RB.
  pose proof (L_size i c Hi Hc) as S. pose proof (deviation_small i Hi) as [D _].
  assert (U : 0 < u32 < / 1000000) by (unfold u32; lra).
  rewrite Rabs_mult, (Rabs_pos_eq root) by lra. replace (1.001 * root * sqrt (B2R (mat i i))) with (root * (1.001 * sqrt (B2R (mat i i)))) by ring.
  apply Rmult_le_compat_l; [lra|]. set (s := sqrt (B2R (mat i i))) in *.
  assert (T : bpow radix2 (-150) <= s / 1000000).
  { replace (bpow radix2 (-150)) with (bpow radix2 (-110) * bpow radix2 (-40)) by (rewrite <- bpow_plus; f_equal; lia).
    apply Rle_trans with (/ 1000000 * s); [|lra]. apply Rmult_le_compat; try apply bpow_ge_0; [|exact D].
    apply Rle_trans with (bpow radix2 (-30)); [apply bpow_le; lia|cbn; lra]. }
  assert (s0 : 0 <= s) by apply sqrt_pos.
  assert (Rabs (1 + e) <= 1 + 2.01 * u32) by (apply Rabs_le_inv in He; apply Rabs_le; lra).
  eapply Rle_trans; [apply Rabs_triang|]. rewrite Rabs_mult.
  assert (Rabs (B2R (L i c)) * Rabs (1 + e) <= (1 + 10 * u32) * s * (1 + 2.01 * u32)) by (apply Rmult_le_compat; auto using Rabs_pos).
  assert ((1 + 10 * u32) * s * (1 + 2.01 * u32) <= 1.0001 * s).
  { replace ((1 + 10 * u32) * s * (1 + 2.01 * u32)) with ((1 + 10 * u32) * (1 + 2.01 * u32) * s) by ring.
    apply Rmult_le_compat_r; [exact s0|]. nra. }
  lra.
Qed.
Lemma disp_upper i c : (i < c)%nat -> B2R (disp c i) = 0.
Proof.
  intros H. assert (Z : L i c = B754_zero false) by (unfold llt_matrixL32; destruct (Nat.leb_spec c i); [lia|reflexivity]).
  unfold float_displacement. rewrite Z. destruct Hn as [-> | ->]; reflexivity.
Qed.
Lemma disp_diagonal i : (i < n)%nat -> 0 < B2R (disp i i).
Proof.
  intros Hi. destruct (llt_cases32 n order O mat) as [[_ (_ & H2 & _)]|[E _]]; [|congruence].
  destruct (H2 i Hi) as [P E]. assert (F := L_finite i i Hi).
  assert (EL : L i i = f32_sqrt (reduced order mat (fst (llt32 n order mat)) i i)).
  { unfold llt_matrixL32. destruct (Nat.leb_spec i i); [exact E|lia]. }
  rewrite EL in F. destruct (root_near _ F P) as (Fp & _ & _ & _). pose proof (positive_pivot _ Fp P) as G.
  destruct (sqrt_exact _ F) as (_ & _ & ER). rewrite <- EL in ER.
  assert (S0 : bpow radix2 (-75) <= B2R (L i i)).
  { rewrite ER. rewrite <- (round_generic radix2 fexp32 (round_mode mode_NE) (bpow radix2 (-75))).
    - apply round_le; try typeclasses eauto. rewrite <- (sqrt_square (bpow radix2 (-75))) by apply bpow_ge_0.
      apply sqrt_le_1_alt. rewrite <- bpow_plus. apply Rle_trans with (bpow radix2 (-149)); [apply bpow_le; lia|exact G].
    - apply generic_format_bpow. unfold SpecFloat.fexp, SpecFloat.emin. lia. }
  destruct (disp_value i i Hi Hi) as (_ & e & h & He & Hh & ->). pose proof (root_bounds n Hn).
  apply Rmult_lt_0_compat; [lra|]. assert (bpow radix2 (-150) <= / 1000 * bpow radix2 (-75)).
  { replace (bpow radix2 (-150)) with (bpow radix2 (-75) * bpow radix2 (-75)) by (rewrite <- bpow_plus; f_equal; lia).
    apply Rmult_le_compat_r; [apply bpow_ge_0|]. apply Rle_trans with (bpow radix2 (-10)); [apply bpow_le; lia|cbn; lra]. }
  pose proof (bpow_gt_0 radix2 (-75)). apply Rabs_le_inv in He, Hh. unfold u32 in *. nra.
Qed.

(** A component that is not correlated with those before it *)
Lemma sum_zero t p : is_finite (sum32 t p) = true -> (forall l, In l (leaves t) -> B2R (p l) = 0) -> B2R (sum32 t p) = 0.
Proof.
  induction t as [i|l IHl r IHr]; cbn [sum32 leaves]; intros F H; [apply H; now left|].
  destruct (add_exact _ _ F) as (Fl & Fr & ->).
  rewrite IHl, IHr by (try assumption; intros; apply H, in_or_app; auto). rewrite Rplus_0_r. apply rnd32_0.
Qed.
Lemma L_alone i : (i < n)%nat -> (forall c, (c < i)%nat -> B2R (mat i c) = 0) -> forall c, (c < i)%nat -> B2R (L i c) = 0.
Proof.
  intros Hi Z. induction c as [c IH] using lt_wf_ind. intros Hc.
  destruct (llt_cases32 n order O mat) as [[_ (_ & H2 & H3)]|[E _]]; [|congruence].
  set (A := fst (llt32 n order mat)) in *.
  assert (EL : forall a b, (b <= a)%nat -> L a b = A a b).
  { intros a b H. unfold llt_matrixL32. destruct (Nat.leb_spec b a); [reflexivity|lia]. }
  pose proof (H3 i c ltac:(lia) ltac:(lia)) as E. rewrite <- EL in E by lia. rewrite <- (EL c c) in E by lia.
  assert (F := L_finite i c Hi). rewrite E in F |- *.
  assert (P : 0 < B2R (L c c)).
  { destruct (H2 c ltac:(lia)) as [Pc Ec]. rewrite <- EL in Ec by lia. assert (Fc := L_finite c c ltac:(lia)). rewrite Ec in *.
    now destruct (root_near _ Fc Pc) as (_ & _ & ? & _). }
  destruct (div_exact _ _ (L_finite c c ltac:(lia)) ltac:(lra) F) as [Fr ->].
  unfold reduced, minus32 in Fr |- *. rewrite (sum_zero _ _ Fr); [unfold Rdiv; rewrite Rmult_0_l; apply rnd32_0|].
  intros [|l] Hl; [now apply Z|]. assert (Hlc : (l < c)%nat).
  { apply (Permutation_in _ (O i c ltac:(lia))), in_seq in Hl. lia. }
  pose proof (sum_finite _ _ Fr (S l) Hl) as Fl. cbn beta iota in Fl |- *. rewrite is_finite_Bopp in Fl. rewrite B2R_Bopp.
  destruct (mul_exact _ _ Fl) as (_ & _ & ->). rewrite <- EL by lia. rewrite (IH l Hlc ltac:(lia)), Rmult_0_l, rnd32_0. ring.
Qed.
Lemma disp_alone i : (i < n)%nat -> (forall c, (c < i)%nat -> B2R (mat i c) = 0) -> forall c, (c < i)%nat -> B2R (disp c i) = 0.
Proof.
  intros Hi Z c Hc. pose proof (L_alone i Hi Z c Hc) as E. destruct (disp_value i c Hi ltac:(lia)) as [F _].
  unfold float_displacement in *. destruct (mul_exact _ _ F) as (_ & _ & ->). rewrite E, Rmult_0_r. apply rnd32_0.
Qed.

(** The covariance the displacements stand for is close to the given one. *)
Lemma effective_near i j : (i < n)%nat -> (j < n)%nat ->
  Rabs (effective n disp i j - matrix_of mat i j) <= 23 / 2 ^ 24 * sqrt (B2R (mat i i) * B2R (mat j j)).
Proof.
  intros Hi Hj. pose proof (C113_accuracy n order mat ltac:(lia) O V_big Ok Fin i j Hi Hj) as A.
  pose proof (V_pos i Hi) as Pi. pose proof (V_pos j Hj) as Pj.
  rewrite sqrt_mult in A |- * by lra. pose proof (row_size i Hi) as Ri. pose proof (row_size j Hj) as Rj.
  pose proof (deviation_small i Hi) as [Di _]. pose proof (deviation_small j Hj) as [Dj _].
  set (si := sqrt (B2R (mat i i))) in *. set (sj := sqrt (B2R (mat j j))) in *.
  pose proof (bpow_gt_0 radix2 (-40)) as P40.
  assert (U : 0 < u32 < / 1000000) by (unfold u32; lra).
  assert (C : total (fun l => Rabs (B2R (L i l) * B2R (L j l))) (seq 0 n) <= (1 + 18 * u32) * (si * sj)).
  { eapply Rle_trans; [apply cauchy_total|].
    replace ((1 + 18 * u32) * (si * sj)) with (sqrt ((1 + 18 * u32) * B2R (mat i i)) * sqrt ((1 + 18 * u32) * B2R (mat j j))).
    - apply Rmult_le_compat; try apply sqrt_pos; apply sqrt_le_1_alt; assumption.
    - rewrite !sqrt_mult by lra. fold si sj.
      replace (sqrt (1 + 18 * u32) * si * (sqrt (1 + 18 * u32) * sj)) with (sqrt (1 + 18 * u32) * sqrt (1 + 18 * u32) * (si * sj)) by ring.
      now rewrite sqrt_sqrt by lra. }
  pose proof (root_bounds n Hn) as RB. pose proof (root_square n) as RS.
  assert (Tiny : forall s, bpow radix2 (-40) <= s -> bpow radix2 (-150) <= u32 / 1000 * s).
  { intros s Hs. replace (bpow radix2 (-150)) with (bpow radix2 (-110) * bpow radix2 (-40)) by (rewrite <- bpow_plus; f_equal; lia).
    apply Rmult_le_compat; try apply bpow_ge_0; [|exact Hs].
    apply Rle_trans with (bpow radix2 (-50)); [apply bpow_le; lia|]. unfold u32. cbn. lra. }
  assert (T : forall c, (c < n)%nat ->
    Rabs (B2R (disp c i) * B2R (disp c j) / (INR n + 2) - B2R (L i c) * B2R (L j c)) <=
    4.03 * u32 * Rabs (B2R (L i c) * B2R (L j c)) + u32 / 100 * (si * sj)).
  { intros c Hc. destruct (disp_value i c Hi Hc) as (_ & e1 & h1 & He1 & Hh1 & E1).
    destruct (disp_value j c Hj Hc) as (_ & e2 & h2 & He2 & Hh2 & E2).
    pose proof (L_size i c Hi Hc) as S1. pose proof (L_size j c Hj Hc) as S2. fold si in S1. fold sj in S2.
    rewrite E1, E2. set (r := root) in *. rewrite <- RS. set (a := B2R (L i c)) in *. set (b := B2R (L j c)) in *.
    replace (r * (a * (1 + e1) + h1) * (r * (b * (1 + e2) + h2)) / (r * r) - a * b) with
      (a * b * (e1 + e2 + e1 * e2) + (a * (1 + e1) * h2 + b * (1 + e2) * h1 + h1 * h2)) by (field; lra).
    assert (G1 : Rabs (e1 + e2 + e1 * e2) <= 4.03 * u32).
    { assert (Rabs (e1 * e2) <= 2.01 * u32 * (2.01 * u32)) by (rewrite Rabs_mult; apply Rmult_le_compat; auto using Rabs_pos).
      eapply Rle_trans; [apply Rabs_triang|]. eapply Rle_trans; [apply Rplus_le_compat_r, Rabs_triang|]. nra. }
    assert (G2 : Rabs (a * (1 + e1)) <= 2 * si).
    { rewrite Rabs_mult. replace (2 * si) with ((1 + 10 * u32) * si * (2 / (1 + 10 * u32))) by (field; lra).
      apply Rmult_le_compat; try apply Rabs_pos; [exact S1|]. apply Rle_trans with 1.5.
      - apply Rabs_le_inv in He1. apply Rabs_le. lra.
      - apply Rmult_le_reg_r with (1 + 10 * u32); [lra|]. unfold Rdiv. rewrite Rmult_assoc, Rinv_l by lra. lra. }
    assert (G3 : Rabs (b * (1 + e2)) <= 2 * sj).
    { rewrite Rabs_mult. replace (2 * sj) with ((1 + 10 * u32) * sj * (2 / (1 + 10 * u32))) by (field; lra).
      apply Rmult_le_compat; try apply Rabs_pos; [exact S2|]. apply Rle_trans with 1.5.
      - apply Rabs_le_inv in He2. apply Rabs_le. lra.
      - apply Rmult_le_reg_r with (1 + 10 * u32); [lra|]. unfold Rdiv. rewrite Rmult_assoc, Rinv_l by lra. lra. }
    assert (T2 : Rabs h2 <= u32 / 1000 * sj) by (eapply Rle_trans; [exact Hh2|now apply Tiny]).
    assert (T1 : Rabs h1 <= u32 / 1000 * si) by (eapply Rle_trans; [exact Hh1|now apply Tiny]).
    assert (K1 : Rabs (a * (1 + e1) * h2) <= 2 * si * (u32 / 1000 * sj)) by (rewrite Rabs_mult; apply Rmult_le_compat; auto using Rabs_pos).
    assert (K2 : Rabs (b * (1 + e2) * h1) <= 2 * sj * (u32 / 1000 * si)) by (rewrite Rabs_mult; apply Rmult_le_compat; auto using Rabs_pos).
    assert (K3 : Rabs (h1 * h2) <= u32 / 1000 * si * (u32 / 1000 * sj)) by (rewrite Rabs_mult; apply Rmult_le_compat; auto using Rabs_pos).
    assert (K4 : u32 / 1000 * si * (u32 / 1000 * sj) <= u32 / 1000 * (si * sj)).
    { replace (u32 / 1000 * si * (u32 / 1000 * sj)) with (u32 / 1000 * (u32 / 1000 * (si * sj))) by field.
      assert (0 < si * sj) by (apply Rmult_lt_0_compat; lra). apply Rmult_le_compat_l; [lra|]. nra. }
    assert (K0 : Rabs (a * b * (e1 + e2 + e1 * e2)) <= Rabs (a * b) * (4.03 * u32)) by (rewrite Rabs_mult; apply Rmult_le_compat_l; auto using Rabs_pos).
    eapply Rle_trans; [apply Rabs_triang|].
    assert (K5 : Rabs (a * (1 + e1) * h2 + b * (1 + e2) * h1 + h1 * h2) <= u32 / 100 * (si * sj)).
    { eapply Rle_trans; [apply Rabs_triang|]. eapply Rle_trans; [apply Rplus_le_compat_r, Rabs_triang|].
      assert (0 < u32 * (si * sj)) by (repeat apply Rmult_lt_0_compat; lra). lra. }
    apply Rplus_le_compat; [|exact K5]. rewrite (Rmult_comm (4.03 * u32)). exact K0. }
  assert (E : Rabs (effective n disp i j - product n L i j) <= 4.03 * u32 * ((1 + 18 * u32) * (si * sj)) + 6 * (u32 / 100 * (si * sj))).
  { unfold effective, product, Rdiv.
    rewrite Rmult_comm, <- total_scale, <- total_minus.
    eapply Rle_trans; [apply total_abs|].
    apply Rle_trans with (total (fun c => 4.03 * u32 * Rabs (B2R (L i c) * B2R (L j c)) + u32 / 100 * (si * sj)) (seq 0 n)).
    - apply total_le. intros c Hc. apply in_seq in Hc. rewrite (Rmult_comm (/ _)). apply T. lia.
    - rewrite total_plus, total_scale, total_const, seq_length. apply Rplus_le_compat.
      + apply Rmult_le_compat_l; [lra|exact C].
      + apply Rmult_le_compat_r; [|destruct Hn as [-> | ->]; cbn; lra].
        apply Rmult_le_pos; [lra|]. apply Rmult_le_pos; lra. }
  replace (18 / 2 ^ 24) with (18 * u32) in A by (unfold u32; cbn; lra).
  replace (23 / 2 ^ 24) with (23 * u32) by (unfold u32; cbn; lra).
  assert (Q : 0 <= u32 * (si * sj)) by (apply Rmult_le_pos; [lra|apply Rmult_le_pos; lra]).
  apply Rabs_le_inv in A, E. apply Rabs_le.
  assert (4.03 * u32 * ((1 + 18 * u32) * (si * sj)) <= 4.04 * (u32 * (si * sj))).
  { replace (4.03 * u32 * ((1 + 18 * u32) * (si * sj))) with (4.03 * (1 + 18 * u32) * (u32 * (si * sj))) by ring.
    apply Rmult_le_compat_r; lra. }
  lra.
Qed.
(** So an uncorrelated component is displaced by about root times its standard deviation, once. *)
Lemma disp_once i : (i < n)%nat -> (forall c, (c < i)%nat -> B2R (mat i c) = 0) ->
  Rabs (B2R (disp i i) * B2R (disp i i) - (INR n + 2) * B2R (mat i i)) <= (INR n + 2) * (23 / 2 ^ 24 * B2R (mat i i)).
Proof.
  intros Hi Z. pose proof (effective_near i i Hi Hi) as E. rewrite sqrt_square in E by (apply Rlt_le, V_pos, Hi).
  unfold matrix_of in E. rewrite Nat.leb_refl in E.
  assert (T : effective n disp i i = B2R (disp i i) * B2R (disp i i) / (INR n + 2)).
  { unfold effective. f_equal.
    assert (N : seq 0 n = seq 0 i ++ i :: seq (S i) (n - S i)).
    { pose proof (seq_app i (S (n - S i)) 0) as A. cbn [seq Nat.add] in A. rewrite <- A. f_equal. lia. }
    rewrite N, total_app. cbn [total].
    rewrite (total_ext _ (fun _ => 0) (seq 0 i)), (total_ext _ (fun _ => 0) (seq (S i) _)).
    - rewrite !total_const. ring.
    - intros c Hc. apply in_seq in Hc. rewrite disp_upper by lia. ring.
    - intros c Hc. apply in_seq in Hc. rewrite (disp_alone i Hi Z c) by lia. ring. }
  rewrite T in E. assert (P : 0 < INR n + 2) by (pose proof (pos_INR n); lra). set (a := B2R (disp i i) * B2R (disp i i)) in *.
  replace (a - (INR n + 2) * B2R (mat i i)) with ((INR n + 2) * (a / (INR n + 2) - B2R (mat i i))) by (field; lra).
  rewrite Rabs_mult, (Rabs_pos_eq (INR n + 2)) by lra. apply Rmult_le_compat_l; [lra|exact E].
Qed.
End Displacement.
