(** How accurate Eigen's LLT is in single precision. *)
From Coq Require Import ZArith Reals Lra Lia Bool List Arith Permutation.
From Flocq Require Import Core IEEE754.BinarySingleNaN.
From Verif Require Import Base Float FloatProofs DoubleThms FloatDistance FloatDistanceThms FloatWeight FloatWeightThms
  FloatUnscented FloatUnscentedThms FloatLlt.
Import ListNotations.
Open Scope R_scope.

(** ** Finite results come from finite operands, without overflow *)
Lemma add_exact (x y : f32) : is_finite (f32_add x y) = true ->
  is_finite x = true /\ is_finite y = true /\ B2R (f32_add x y) = rnd32 (B2R x + B2R y).
Proof.
  intros F.
  assert (Fxy : is_finite x = true /\ is_finite y = true).
  { revert F. unfold f32_add. destruct x as [s|s| |s m e Hb], y as [s'|s'| |s' m' e' Hb']; cbn; try discriminate; auto.
    destruct (Bool.eqb s s'); discriminate. }
  destruct Fxy as [Fx Fy]. split; [exact Fx|]. split; [exact Fy|].
  pose proof (Bplus_correct 24 128 _ _ mode_NE x y Fx Fy) as C.
  destruct (Rlt_bool _ _); [apply C|].
  exfalso. unfold f32_add in F. rewrite <- is_finite_SF_B2SF in F. destruct C as [C _]. rewrite C in F.
  destruct (Bsign x); discriminate.
Qed.
Lemma mul_exact (x y : f32) : is_finite (f32_mul x y) = true ->
  is_finite x = true /\ is_finite y = true /\ B2R (f32_mul x y) = rnd32 (B2R x * B2R y).
Proof.
  intros F. destruct (mul_finite _ _ F) as [Fx Fy]. split; [exact Fx|]. split; [exact Fy|].
  pose proof (Bmult_correct 24 128 _ _ mode_NE x y) as C.
  destruct (Rlt_bool _ _); [apply C|].
  exfalso. unfold f32_mul in F. rewrite <- is_finite_SF_B2SF, C in F. destruct (xorb _ _); discriminate.
Qed.
Lemma div_exact (x y : f32) : is_finite y = true -> B2R y <> 0 -> is_finite (f32_div x y) = true ->
  is_finite x = true /\ B2R (f32_div x y) = rnd32 (B2R x / B2R y).
Proof.
  intros Fy Hy F.
  assert (Fx : is_finite x = true).
  { revert F. unfold f32_div. destruct x as [s|s| |s m e Hb], y as [s'|s'| |s' m' e' Hb']; cbn; try discriminate; auto. }
  split; [exact Fx|].
  pose proof (Bdiv_correct 24 128 _ _ mode_NE x y Hy) as C.
  destruct (Rlt_bool _ _); [apply C|].
  exfalso. unfold f32_div in F. rewrite <- is_finite_SF_B2SF, C in F. destruct (xorb _ _); discriminate.
Qed.
Lemma sqrt_exact (x : f32) : is_finite (f32_sqrt x) = true ->
  is_finite x = true /\ 0 <= B2R x /\ B2R (f32_sqrt x) = rnd32 (sqrt (B2R x)).
Proof.
  intros F. destruct (Bsqrt_correct 24 128 _ _ mode_NE x) as (E & G & _).
  unfold f32_sqrt in *. rewrite G in F.
  destruct x as [s|s| |s m e Hb]; try discriminate; [split; [reflexivity|split; [cbn; lra|exact E]]|].
  split; [reflexivity|]. split; [|exact E]. destruct s; [discriminate|].
  apply F2R_ge_0. cbn. lia.
Qed.

Lemma sum_finite t p : is_finite (sum32 t p) = true -> forall i, In i (leaves t) -> is_finite (p i) = true.
Proof.
  induction t as [i|l IHl r IHr]; cbn; intros F k Hk.
  - destruct Hk as [<-|[]]. exact F.
  - destruct (add_exact _ _ F) as (Fl & Fr & _). apply in_app_or in Hk. destruct Hk; auto.
Qed.
(** The error of a finite sum *)
Lemma sum_error t p : is_finite (sum32 t p) = true ->
  Rabs (B2R (sum32 t p) - total (fun i => B2R (p i)) (leaves t))
    <= ((1 + u32) ^ length (leaves t) - 1) * total (fun i => Rabs (B2R (p i))) (leaves t).
Proof.
  induction t as [i|l IHl r IHr]; cbn [leaves sum32]; intros F.
  - cbn. rewrite !Rplus_0_r, Rmult_1_r. replace (B2R (p i) - B2R (p i)) with 0 by ring. rewrite Rabs_R0.
    apply Rmult_le_pos; [unfold u32; lra|apply Rabs_pos].
  - destruct (add_exact _ _ F) as (Fl & Fr & E). specialize (IHl Fl). specialize (IHr Fr).
    rewrite app_length, !total_app, E.
    destruct (rnd32_add (B2R (sum32 l p)) (B2R (sum32 r p))) as (eps & He & R1); [apply fmtB|apply fmtB|]. rewrite R1.
    assert (K1 : (1 + u32) ^ S (length (leaves l)) <= (1 + u32) ^ (length (leaves l) + length (leaves r))).
    { apply pow_grow. pose proof (leaves_pos r). lia. }
    assert (K2 : (1 + u32) ^ S (length (leaves r)) <= (1 + u32) ^ (length (leaves l) + length (leaves r))).
    { apply pow_grow. pose proof (leaves_pos l). lia. }
    cbn [pow] in K1, K2.
    pose proof (pow_grow (length (leaves l)) _ (le_n _)) as G1.
    pose proof (pow_grow (length (leaves r)) _ (le_n _)) as G2.
    set (gl := (1 + u32) ^ length (leaves l)) in *. set (gr := (1 + u32) ^ length (leaves r)) in *.
    set (g := (1 + u32) ^ (length (leaves l) + length (leaves r))) in *.
    pose proof (total_abs (fun i => B2R (p i)) (leaves l)) as Tl. pose proof (total_abs (fun i => B2R (p i)) (leaves r)) as Tr.
    set (a := total (fun i => Rabs (B2R (p i))) (leaves l)) in *. set (b := total (fun i => Rabs (B2R (p i))) (leaves r)) in *.
    set (x := B2R (sum32 l p)) in *. set (y := B2R (sum32 r p)) in *.
    set (tl := total (fun i => B2R (p i)) (leaves l)) in *. set (tr := total (fun i => B2R (p i)) (leaves r)) in *.
    assert (0 <= a) by (apply total_nonneg; intros; apply Rabs_pos).
    assert (0 <= b) by (apply total_nonneg; intros; apply Rabs_pos).
    apply Rabs_le_inv in IHl, IHr, Tl, Tr.
    assert (S : Rabs (x + y) <= a * gl + b * gr) by (apply Rabs_le; lra).
    assert (T : Rabs ((x + y) * eps) <= (a * gl + b * gr) * u32).
    { rewrite Rabs_mult. apply Rmult_le_compat; try apply Rabs_pos; assumption. }
    assert (P5 : a * ((1 + u32) * gl) <= a * g) by (apply Rmult_le_compat_l; lra).
    assert (P6 : b * ((1 + u32) * gr) <= b * g) by (apply Rmult_le_compat_l; lra).
    apply Rabs_le_inv in T. apply Rabs_le. lra.
Qed.

Lemma grow7 m : (m <= 7)%nat -> 1 <= (1 + u32) ^ m <= 1 + 7.001 * u32.
Proof.
  intros H. split; [now apply (pow_grow m m)|].
  apply Rle_trans with ((1 + u32) ^ 7); [now apply pow_grow|]. unfold u32. lra.
Qed.

Notation tiny := (bpow radix2 (-150)).
Definition real (mat : nat -> nat -> f32) (i j : nat) : R := B2R (mat i j).

Lemma total_map (g : nat -> nat) f l : total f (map g l) = total (fun i => f (g i)) l.
Proof. induction l as [|i l IH]; cbn; [reflexivity|now rewrite IH]. Qed.

(** A difference a - (p 0 + ... + p (m-1)) of rounded products *)
Lemma minus_error t m (a : f32) (x y : nat -> f32) : (m <= 6)%nat -> order_of (S m) t ->
  let s := minus32 t a (fun l => f32_mul (x l) (y l)) in
  is_finite s = true ->
  is_finite a = true /\ (forall l, (l < m)%nat -> is_finite (x l) = true /\ is_finite (y l) = true) /\
  Rabs (B2R s - (B2R a - total (fun l => B2R (x l) * B2R (y l)) (seq 0 m)))
    <= u32 * (7.001 * Rabs (B2R a) + 8.002 * total (fun l => Rabs (B2R (x l) * B2R (y l))) (seq 0 m)) + 7 * tiny.
Proof.
  intros Hm O s F.
  set (p := fun i => match i with O => a | S l => Bopp (f32_mul (x l) (y l)) end).
  assert (Sq : seq 0 (S m) = 0%nat :: map S (seq 0 m)) by (cbn; now rewrite seq_shift).
  assert (IL : forall i, (i < S m)%nat -> In i (leaves t)).
  { intros i Hi. eapply Permutation_in; [symmetry; exact O|]. apply in_seq. lia. }
  pose proof (sum_finite t p F) as Fp.
  assert (Fa : is_finite a = true) by (apply (Fp 0%nat), IL; lia).
  assert (Fm : forall l, (l < m)%nat -> is_finite (f32_mul (x l) (y l)) = true).
  { intros l Hl. assert (H : is_finite (p (S l)) = true) by (apply Fp, IL; lia). cbn in H. now rewrite is_finite_Bopp in H. }
  split; [exact Fa|]. split.
  { intros l Hl. destruct (mul_exact _ _ (Fm l Hl)) as (A & B & _). now split. }
  pose proof (sum_error t p F) as E. change (sum32 t p) with s in E.
  rewrite (total_perm _ _ _ O), (total_perm (fun i => Rabs _) _ _ O) in E.
  rewrite (Permutation_length O), seq_length, Sq in E. cbn [total] in E. rewrite !total_map in E. cbn [p] in E.
  assert (D : forall l, (l < m)%nat -> Rabs (B2R (f32_mul (x l) (y l)) - B2R (x l) * B2R (y l))
                <= u32 * Rabs (B2R (x l) * B2R (y l)) + tiny).
  { intros l Hl. destruct (mul_exact _ _ (Fm l Hl)) as (_ & _ & ->).
    destruct (rnd32_rel (B2R (x l) * B2R (y l))) as (e & h & He & Hh & ->).
    replace (B2R (x l) * B2R (y l) * (1 + e) + h - B2R (x l) * B2R (y l)) with (e * (B2R (x l) * B2R (y l)) + h) by ring.
    eapply Rle_trans; [apply Rabs_triang|]. rewrite Rabs_mult. apply Rplus_le_compat; [|exact Hh].
    apply Rmult_le_compat_r; [apply Rabs_pos|exact He]. }
  set (q := fun l => B2R (x l) * B2R (y l)) in *. set (T := total (fun l => Rabs (q l)) (seq 0 m)).
  assert (C : INR (length (seq 0 m)) <= 6).
  { rewrite seq_length. change 6 with (IZR (Z.of_nat 6)). rewrite <- INR_IZR_INZ. now apply le_INR. }
  assert (C0 : 0 <= INR (length (seq 0 m))) by apply pos_INR.
  pose proof (bpow_gt_0 radix2 (-150)) as P0.
  assert (D1 : Rabs (total (fun l => B2R (Bopp (f32_mul (x l) (y l)))) (seq 0 m) - - total q (seq 0 m))
                <= u32 * T + 6 * tiny).
  { replace (total (fun l => B2R (Bopp (f32_mul (x l) (y l)))) (seq 0 m) - - total q (seq 0 m))
      with (total (fun l => - (B2R (f32_mul (x l) (y l)) - q l)) (seq 0 m)).
    - eapply Rle_trans; [apply total_abs|].
      apply Rle_trans with (total (fun l => u32 * Rabs (q l) + tiny) (seq 0 m)).
      + apply total_le. intros l Hl. rewrite Rabs_Ropp. apply D. apply in_seq in Hl. lia.
      + rewrite total_plus, total_scale, total_const. fold T. nra.
    - transitivity (total (fun l => B2R (Bopp (f32_mul (x l) (y l))) + q l) (seq 0 m)).
      + apply total_ext. intros l _. rewrite B2R_Bopp. ring.
      + rewrite total_plus. ring. }
  assert (D2 : total (fun l => Rabs (B2R (Bopp (f32_mul (x l) (y l))))) (seq 0 m) <= (1 + u32) * T + 6 * tiny).
  { apply Rle_trans with (total (fun l => (1 + u32) * Rabs (q l) + tiny) (seq 0 m)).
    - apply total_le. intros l Hl. rewrite B2R_Bopp, Rabs_Ropp.
      assert (D' := D l). apply in_seq in Hl. specialize (D' ltac:(lia)).
      replace (B2R (f32_mul (x l) (y l))) with (q l + (B2R (f32_mul (x l) (y l)) - q l)) by ring.
      change (B2R (x l) * B2R (y l)) with (q l) in D'.
      eapply Rle_trans; [apply Rabs_triang|]. lra.
    - rewrite total_plus, total_scale, total_const. fold T. nra. }
  assert (T0 : 0 <= T) by (apply total_nonneg; intros; apply Rabs_pos).
  destruct (grow7 (S m)) as [G0 G1]; [lia|].
  set (g := (1 + u32) ^ S m) in *. pose proof (Rabs_pos (B2R a)) as Pa.
  assert (Z0 : 0 <= total (fun l => Rabs (B2R (Bopp (f32_mul (x l) (y l))))) (seq 0 m)) by (apply total_nonneg; intros; apply Rabs_pos).
  assert (E' : (g - 1) * (Rabs (B2R a) + total (fun l => Rabs (B2R (Bopp (f32_mul (x l) (y l))))) (seq 0 m))
     <= 7.001 * u32 * (Rabs (B2R a) + ((1 + u32) * T + 6 * tiny))).
  { apply Rmult_le_compat; lra. }
  set (Q := total q (seq 0 m)) in *.
  set (W := total (fun l => B2R (Bopp (f32_mul (x l) (y l)))) (seq 0 m)) in *.
  change (Rabs (B2R s - (B2R a - Q)) <= u32 * (7.001 * Rabs (B2R a) + 8.002 * T) + 7 * tiny).
  apply Rabs_le_inv in E, D1.
  apply Rabs_le. unfold u32 in *. lra.
Qed.

(** ** The loop *)
Lemma sum_ext t p q : (forall i, In i (leaves t) -> p i = q i) -> sum32 t p = sum32 t q.
Proof.
  induction t as [i|l IHl r IHr]; cbn; intros H; [apply H; now left|].
  rewrite IHl, IHr; [reflexivity| |]; intros; apply H, in_or_app; auto.
Qed.
Lemma minus_ext t m a p q : order_of (S m) t -> (forall l, (l < m)%nat -> p l = q l) -> minus32 t a p = minus32 t a q.
Proof.
  intros O H. apply sum_ext. intros [|l] Hl; [reflexivity|]. f_equal. apply H.
  apply (Permutation_in _ O), in_seq in Hl. lia.
Qed.

Lemma positive_pivot (x : f32) : is_finite x = true -> Bleb x (B754_zero false) = false -> bpow radix2 (-149) <= B2R x.
Proof.
  intros F H. destruct x as [[]|[]| |s m e Hb]; try discriminate. destruct s; [discriminate|].
  pose proof (abs_B2R_ge_emin 24 128 (B754_finite false m e Hb) eq_refl) as G.
  rewrite Rabs_pos_eq in G; [exact G|]. apply F2R_ge_0. cbn. lia.
Qed.
Lemma root_near (x : f32) : is_finite (f32_sqrt x) = true -> Bleb x (B754_zero false) = false ->
  is_finite x = true /\ 0 < B2R x /\ 0 < B2R (f32_sqrt x) /\
  Rabs (B2R x - B2R (f32_sqrt x) * B2R (f32_sqrt x)) <= 2.01 * u32 * (B2R (f32_sqrt x) * B2R (f32_sqrt x)).
Proof.
  intros F H. destruct (sqrt_exact x F) as (Fx & Px & E). pose proof (positive_pivot x Fx H) as G.
  pose proof (bpow_gt_0 radix2 (-149)) as P0.
  assert (S0 : bpow radix2 (-75) <= sqrt (B2R x)).
  { rewrite <- (sqrt_square (bpow radix2 (-75))) by apply bpow_ge_0. apply sqrt_le_1_alt. rewrite <- bpow_plus.
    apply Rle_trans with (bpow radix2 (-149)); [apply bpow_le; lia|exact G]. }
  pose proof (bpow_gt_0 radix2 (-75)) as P1.
  destruct (rnd32_big (sqrt (B2R x))) as (e & He & R1).
  { rewrite Rabs_pos_eq by lra. apply Rle_trans with (bpow radix2 (-75)); [apply bpow_le; lia|exact S0]. }
  rewrite R1 in E. pose proof (sqrt_sqrt _ Px) as Q. set (r := sqrt (B2R x)) in *. apply eps_bound in He.
  split; [exact Fx|]. split; [lra|]. rewrite E. split; [apply Rmult_lt_0_compat; unfold u32 in *; lra|].
  rewrite <- Q. replace (r * r - r * (1 + e) * (r * (1 + e))) with (r * r * - (2 * e + e * e)) by ring.
  replace (2.01 * u32 * (r * (1 + e) * (r * (1 + e)))) with (r * r * (2.01 * u32 * ((1 + e) * (1 + e)))) by ring.
  rewrite Rabs_mult, (Rabs_pos_eq (r * r)) by nra. apply Rmult_le_compat_l; [nra|].
  apply Rabs_le. unfold u32 in *. nra.
Qed.

Section Loop.
Variables (n : nat) (order : nat -> nat -> tree).
Hypothesis orders : forall i j, (j <= i < n)%nat -> order_of (S j) (order i j).

Definition reduced (M L : nat -> nat -> f32) i j : f32 := minus32 (order i j) (M i j) (fun l => f32_mul (L i l) (L j l)).
(** The copy before step [k] *)
Definition half_done32 (M L : nat -> nat -> f32) (k : nat) : Prop :=
  (forall i j, (k <= j)%nat -> L i j = M i j) /\
  (forall j, (j < k)%nat -> Bleb (reduced M L j j) (B754_zero false) = false /\ L j j = f32_sqrt (reduced M L j j)) /\
  (forall i j, (j < k)%nat -> (j < i < n)%nat -> L i j = f32_div (reduced M L i j) (L j j)).

Lemma column_left L k i j : j <> k -> llt_column32 order L k i j = L i j.
Proof. intros H. unfold llt_column32. destruct (Nat.eqb_spec j k); [contradiction|reflexivity]. Qed.
Lemma column_reduced M L k i j : (j <= k)%nat -> (j <= i < n)%nat -> reduced M (llt_column32 order L k) i j = reduced M L i j.
Proof.
  intros H Hi. apply (minus_ext _ j); [now apply orders|]. intros l Hl. rewrite !column_left by lia. reflexivity.
Qed.
Lemma pivot_reduced M L k : half_done32 M L k -> llt_pivot32 order L k = reduced M L k k.
Proof. intros (H & _). unfold llt_pivot32, reduced. now rewrite H. Qed.

Lemma half_step32 M L k : (k < n)%nat -> half_done32 M L k -> Bleb (llt_pivot32 order L k) (B754_zero false) = false ->
  half_done32 M (llt_column32 order L k) (S k).
Proof.
  intros Hk H P. pose proof (pivot_reduced _ _ _ H) as E. destruct H as (H1 & H2 & H3). split; [|split].
  - intros i j Hj. rewrite column_left by lia. apply H1. lia.
  - intros j Hj. rewrite column_reduced by lia. destruct (Nat.eq_dec j k) as [->|N].
    + rewrite <- E. split; [exact P|]. unfold llt_column32. now rewrite !Nat.eqb_refl.
    + rewrite column_left by assumption. apply H2. lia.
  - intros i j Hj Hi. rewrite column_reduced by lia. destruct (Nat.eq_dec j k) as [->|N].
    + unfold llt_column32 at 1 2. rewrite !Nat.eqb_refl. destruct (Nat.eqb_spec i k); [lia|].
      destruct (Nat.ltb_spec k i); [|lia]. unfold reduced. now rewrite H1 by lia.
    + rewrite !column_left by assumption. apply H3; lia.
Qed.
Lemma half_loop32 M : forall m k L, (k + m = n)%nat -> half_done32 M L k ->
  let out := llt_loop32 order (seq k m) L in
  (snd out = true /\ half_done32 M (fst out) n) \/
  (snd out = false /\ exists k, (k < n)%nat /\ half_done32 M (fst out) k /\
     Bleb (reduced M (fst out) k k) (B754_zero false) = true).
Proof.
  induction m as [|m IH]; intros k L E H; cbn [seq llt_loop32].
  - left. cbn. split; [reflexivity|]. replace n with k by lia. exact H.
  - destruct (Bleb _ _) eqn:P.
    + right. cbn. split; [reflexivity|]. exists k. split; [lia|]. split; [exact H|]. now rewrite <- (pivot_reduced _ _ _ H).
    + apply IH; [lia|]. apply half_step32; [lia|assumption|assumption].
Qed.
Lemma llt_cases32 M :
  (snd (llt32 n order M) = true /\ half_done32 M (fst (llt32 n order M)) n) \/
  (snd (llt32 n order M) = false /\ exists k, (k < n)%nat /\ half_done32 M (fst (llt32 n order M)) k /\
     Bleb (reduced M (fst (llt32 n order M)) k k) (B754_zero false) = true).
Proof.
  apply half_loop32; [lia|]. split; [reflexivity|]. split; intros; lia.
Qed.

(** ** The finished columns multiply up to nearly the matrix *)
Hypothesis small : (n <= 6)%nat.
(** a(i,j) = sum of l(i,l) l(j,l), l = 0 ... j *)
Definition gram (L : nat -> nat -> f32) i j : R := total (fun l => real L i l * real L j l) (seq 0 (S j)).
Definition gram_abs (L : nat -> nat -> f32) i j : R := total (fun l => Rabs (real L i l * real L j l)) (seq 0 (S j)).
Lemma total_last f m : total f (seq 0 (S m)) = total f (seq 0 m) + f m.
Proof. rewrite seq_S, total_app. cbn. lra. Qed.

Lemma entry_error M L k i j : half_done32 M L k -> (j < k)%nat -> (j <= i < n)%nat -> (k <= n)%nat ->
  is_finite (L i j) = true -> is_finite (L j j) = true ->
  is_finite (M i j) = true /\ 0 < real L j j /\
  Rabs (real M i j - gram L i j) <= u32 * (7.001 * Rabs (real M i j) + 10.02 * gram_abs L i j) + (7 + 2 * real L j j) * tiny.
Proof.
  intros (_ & H2 & H3) Hj Hi Hk Fi Fj. destruct (H2 j Hj) as [P Ej].
  rewrite Ej in Fj. destruct (root_near _ Fj P) as (Fp & Pp & Pl & Dp). rewrite <- Ej in Pl, Dp, Fj.
  change (B2R (L j j)) with (real L j j) in *.
  assert (S1 : Rabs (B2R (reduced M L i j) - real L i j * real L j j)
     <= u32 * (2.01 * Rabs (real L i j * real L j j)) + 2 * real L j j * tiny /\ is_finite (reduced M L i j) = true).
  { pose proof (bpow_gt_0 radix2 (-150)) as P0.
    destruct (Nat.eq_dec i j) as [->|N].
    - split; [|exact Fp]. eapply Rle_trans; [exact Dp|]. rewrite Rabs_pos_eq by nra. nra.
    - specialize (H3 i j Hj ltac:(lia)). unfold real at 1. rewrite H3 in Fi |- *.
      destruct (div_exact (reduced M L i j) (L j j) Fj) as [Fr Er]; [|exact Fi|].
      { change (real L j j <> 0). lra. }
      split; [|exact Fr]. rewrite Er. change (B2R (L j j)) with (real L j j).
      set (s := B2R (reduced M L i j)). set (x := real L j j) in *.
      assert (El : real L i j = rnd32 (s / x)) by (unfold real; rewrite H3; exact Er). rewrite El.
      destruct (rnd32_rel (s / x)) as (e & h & He & Hh & ->).
      replace (s - (s / x * (1 + e) + h) * x) with (- (s * e + h * x)) by (field; lra).
      rewrite Rabs_Ropp.
      assert (E1 : (s / x * (1 + e) + h) * x = s * (1 + e) + h * x) by (field; lra). rewrite E1.
      assert (B1 : Rabs (h * x) <= x * tiny).
      { rewrite Rabs_mult, (Rabs_pos_eq x), Rmult_comm by lra. apply Rmult_le_compat_l; lra. }
      assert (B2 : Rabs (s * e) <= Rabs s * u32).
      { rewrite Rabs_mult. apply Rmult_le_compat_l; [apply Rabs_pos|exact He]. }
      assert (B3 : Rabs s <= Rabs (s * (1 + e) + h * x) + Rabs (s * e) + Rabs (h * x)).
      { replace s with (s * (1 + e) + h * x + - (s * e) + - (h * x)) at 1 by ring.
        eapply Rle_trans; [apply Rabs_triang|]. rewrite Rabs_Ropp.
        apply Rplus_le_compat_r. eapply Rle_trans; [apply Rabs_triang|]. rewrite Rabs_Ropp. lra. }
      eapply Rle_trans; [apply Rabs_triang|].
      set (w := Rabs (s * (1 + e) + h * x)) in *. assert (0 <= w) by apply Rabs_pos.
      assert (0 <= x * tiny) by (apply Rmult_le_pos; lra).
      pose proof (Rabs_pos s). unfold u32 in *. lra. }
  destruct S1 as [S1 Fr].
  destruct (minus_error (order i j) j (M i j) (fun l => L i l) (fun l => L j l)) as (Fm & _ & D);
    [lia|apply orders; lia|exact Fr|].
  split; [exact Fm|]. split; [exact Pl|].
  change (minus32 (order i j) (M i j) (fun l => f32_mul (L i l) (L j l))) with (reduced M L i j) in D.
  unfold gram, gram_abs. rewrite !total_last.
  change (total (fun l => B2R (L i l) * B2R (L j l)) (seq 0 j)) with (total (fun l => real L i l * real L j l) (seq 0 j)) in D.
  change (total (fun l => Rabs (B2R (L i l) * B2R (L j l))) (seq 0 j))
    with (total (fun l => Rabs (real L i l * real L j l)) (seq 0 j)) in D.
  change (B2R (M i j)) with (real M i j) in D.
  set (T := total (fun l => Rabs (real L i l * real L j l)) (seq 0 j)) in *.
  set (Q := total (fun l => real L i l * real L j l) (seq 0 j)) in *.
  assert (0 <= T) by (apply total_nonneg; intros; apply Rabs_pos).
  pose proof (Rabs_pos (real L i j * real L j j)). pose proof (Rabs_pos (real M i j)).
  apply Rabs_le_inv in D, S1. apply Rabs_le. unfold u32 in *. lra.
Qed.

(** ** ... in terms of the diagonal of the matrix *)
Lemma cauchy_total (f g : nat -> R) l :
  total (fun i => Rabs (f i * g i)) l <= sqrt (total (fun i => f i * f i) l) * sqrt (total (fun i => g i * g i) l).
Proof.
  induction l as [|i l IH]; cbn [total].
  - rewrite sqrt_0. lra.
  - assert (A0 : 0 <= total (fun i => f i * f i) l) by (apply total_nonneg; intros; nra).
    assert (B0 : 0 <= total (fun i => g i * g i) l) by (apply total_nonneg; intros; nra).
    set (A := total (fun i => f i * f i) l) in *. set (B := total (fun i => g i * g i) l) in *.
    rewrite <- sqrt_mult in IH by assumption.
    rewrite <- sqrt_mult by nra.
    rewrite <- (sqrt_square (Rabs (f i * g i) + _)).
    2:{ assert (0 <= total (fun i => Rabs (f i * g i)) l) by (apply total_nonneg; intros; apply Rabs_pos).
        pose proof (Rabs_pos (f i * g i)). lra. }
    apply sqrt_le_1_alt.
    set (t := total (fun i => Rabs (f i * g i)) l) in *.
    assert (T0 : 0 <= t) by (apply total_nonneg; intros; apply Rabs_pos).
    assert (T2 : t * t <= A * B).
    { rewrite <- (sqrt_sqrt (A * B)) by nra. apply Rmult_le_compat; lra. }
    rewrite Rabs_mult. set (x := Rabs (f i)). set (y := Rabs (g i)).
    assert (Ex : f i * f i = x * x) by (unfold x; rewrite <- Rabs_mult; symmetry; apply Rabs_pos_eq; nra).
    assert (Ey : g i * g i = y * y) by (unfold y; rewrite <- Rabs_mult; symmetry; apply Rabs_pos_eq; nra).
    rewrite Ex, Ey. assert (X0 : 0 <= x) by apply Rabs_pos. assert (Y0 : 0 <= y) by apply Rabs_pos.
    assert (C : 2 * (x * y * t) <= x * x * B + y * y * A).
    { set (a := sqrt A). set (b := sqrt B).
      assert (Ea : a * a = A) by (apply sqrt_sqrt; assumption). assert (Eb : b * b = B) by (apply sqrt_sqrt; assumption).
      assert (t <= a * b) by (unfold a, b; rewrite <- sqrt_mult by assumption; exact IH).
      assert (x * y * t <= x * y * (a * b)) by (apply Rmult_le_compat_l; [nra|assumption]).
      rewrite <- Ea, <- Eb. pose proof (Rle_0_sqr (x * b - y * a)) as Sq. unfold Rsqr in Sq.
      replace ((x * b - y * a) * (x * b - y * a)) with (x * x * (b * b) + y * y * (a * a) - 2 * (x * y * (a * b))) in Sq by ring.
      lra. }
    nra.
Qed.

Lemma total_prefix f m k : (m <= k)%nat -> (forall i, 0 <= f i) -> total f (seq 0 m) <= total f (seq 0 k).
Proof.
  intros H P. replace k with (m + (k - m))%nat by lia. rewrite seq_app, total_app.
  assert (0 <= total f (seq (0 + m) (k - m))) by (apply total_nonneg; intros; apply P). lra.
Qed.
Lemma tiny_small a : bpow radix2 (-100) <= a -> 8 * tiny <= u32 * a / 1000.
Proof.
  intros H. replace tiny with (bpow radix2 (-50) * bpow radix2 (-100)) by (rewrite <- bpow_plus; f_equal; lia).
  assert (E : bpow radix2 (-50) <= / 1000000000000000) by (cbn; lra).
  pose proof (bpow_gt_0 radix2 (-50)). pose proof (bpow_gt_0 radix2 (-100)).
  assert (8 * (bpow radix2 (-50) * bpow radix2 (-100)) <= 8 * (/ 1000000000000000 * a)).
  { apply Rmult_le_compat_l; [lra|]. apply Rmult_le_compat; lra. }
  unfold u32. lra.
Qed.

(** The squares of a row of the factor add up to the variance. *)
Lemma row_bound M L k j : half_done32 M L k -> (j < k)%nat -> (k <= n)%nat -> is_finite (L j j) = true ->
  bpow radix2 (-100) <= real M j j ->
  total (fun l => real L j l * real L j l) (seq 0 (S j)) <= (1 + 18 * u32) * real M j j.
Proof.
  intros H Hj Hk Fj B. destruct (entry_error M L k j j H Hj ltac:(lia) Hk Fj Fj) as (_ & Px & D).
  assert (G : gram_abs L j j = gram L j j).
  { apply total_ext. intros l _. apply Rabs_pos_eq. nra. }
  rewrite G in D. unfold gram in D.
  assert (X : real L j j * real L j j <= total (fun l => real L j l * real L j l) (seq 0 (S j))).
  { rewrite total_last. assert (0 <= total (fun l => real L j l * real L j l) (seq 0 j)) by (apply total_nonneg; intros; nra).
    lra. }
  set (T := total (fun l => real L j l * real L j l) (seq 0 (S j))) in *. set (x := real L j j) in *. set (a := real M j j) in *.
  pose proof (bpow_gt_0 radix2 (-100)) as P1. pose proof (bpow_gt_0 radix2 (-150)) as P0.
  pose proof (Rle_0_sqr (x - 1)) as Sq. unfold Rsqr in Sq.
  assert (Y : (7 + 2 * x) * tiny <= (8 + T) * tiny) by (apply Rmult_le_compat_r; lra).
  pose proof (tiny_small a B) as S8.
  assert (T0 : 0 <= T) by (apply total_nonneg; intros; nra).
  assert (Z : T * tiny <= T * (u32 / 1000)).
  { apply Rmult_le_compat_l; [exact T0|]. apply Rle_trans with (bpow radix2 (-50)); [apply bpow_le; lia|].
    unfold u32. cbn. lra. }
  rewrite (Rabs_pos_eq a) in D by lra. apply Rabs_le_inv in D. unfold u32 in *. lra.
Qed.

Lemma factor_error M L k i j : half_done32 M L k -> (i < k)%nat -> (j <= i)%nat -> (k <= n)%nat ->
  is_finite (L i j) = true -> is_finite (L j j) = true -> is_finite (L i i) = true ->
  bpow radix2 (-100) <= real M i i -> bpow radix2 (-100) <= real M j j ->
  Rabs (real M i j - gram L i j) <= 18 * u32 * sqrt (real M i i * real M j j).
Proof.
  intros H Hi Hj Hk Fij Fj Fi Bi Bj.
  destruct (entry_error M L k i j H ltac:(lia) ltac:(lia) Hk Fij Fj) as (_ & Px & D).
  pose proof (row_bound M L k i H Hi Hk Fi Bi) as Ri. pose proof (row_bound M L k j H ltac:(lia) Hk Fj Bj) as Rj.
  pose proof (bpow_gt_0 radix2 (-100)) as P1. pose proof (bpow_gt_0 radix2 (-150)) as P0.
  assert (Ri' : total (fun l => real L i l * real L i l) (seq 0 (S j)) <= (1 + 18 * u32) * real M i i).
  { eapply Rle_trans; [|exact Ri]. apply total_prefix; [lia|]. intros; nra. }
  pose proof (cauchy_total (real L i) (real L j) (seq 0 (S j))) as C. fold (gram_abs L i j) in C.
  set (a := real M i i) in *. set (b := real M j j) in *.
  set (s := sqrt (a * b)).
  assert (Q0 : 0 < 1 + 18 * u32) by (unfold u32; lra).
  assert (G : gram_abs L i j <= (1 + 18 * u32) * s).
  { eapply Rle_trans; [exact C|].
    replace ((1 + 18 * u32) * s) with (sqrt ((1 + 18 * u32) * a) * sqrt ((1 + 18 * u32) * b)).
    - apply Rmult_le_compat; try apply sqrt_pos; apply sqrt_le_1_alt; assumption.
    - rewrite <- sqrt_mult by nra.
      replace ((1 + 18 * u32) * a * ((1 + 18 * u32) * b)) with ((1 + 18 * u32) * (1 + 18 * u32) * (a * b)) by ring.
      rewrite sqrt_mult by nra. rewrite sqrt_square by lra. reflexivity. }
  assert (X : real L j j * real L j j <= (1 + 18 * u32) * b).
  { eapply Rle_trans; [|exact Rj]. rewrite total_last.
    assert (0 <= total (fun l => real L j l * real L j l) (seq 0 j)) by (apply total_nonneg; intros; nra). lra. }
  set (x := real L j j) in *.
  assert (S1 : bpow radix2 (-50) * sqrt b <= s).
  { unfold s. rewrite sqrt_mult by lra. apply Rmult_le_compat_r; [apply sqrt_pos|].
    rewrite <- (sqrt_square (bpow radix2 (-50))) by apply bpow_ge_0. apply sqrt_le_1_alt. rewrite <- bpow_plus. exact Bi. }
  assert (S2 : bpow radix2 (-100) <= s).
  { unfold s. rewrite <- (sqrt_square (bpow radix2 (-100))) by apply bpow_ge_0. apply sqrt_le_1_alt.
    apply Rmult_le_compat; lra. }
  assert (X1 : x <= 2 * sqrt b).
  { apply Rsqr_incr_0_var; [|pose proof (sqrt_pos b); lra]. unfold Rsqr.
    assert (E : sqrt b * sqrt b = b) by (apply sqrt_sqrt; lra). unfold u32 in *. nra. }
  pose proof (tiny_small s S2) as S8.
  assert (X2 : x * tiny <= 2 * (bpow radix2 (-100) * s)).
  { apply Rle_trans with (2 * sqrt b * tiny); [apply Rmult_le_compat_r; lra|].
    replace tiny with (bpow radix2 (-100) * bpow radix2 (-50)) by (rewrite <- bpow_plus; f_equal; lia).
    assert (bpow radix2 (-100) * (bpow radix2 (-50) * sqrt b) <= bpow radix2 (-100) * s) by (apply Rmult_le_compat_l; lra).
    lra. }
  assert (X3 : bpow radix2 (-100) * s <= u32 / 1000 * s).
  { apply Rmult_le_compat_r; [lra|]. apply Rle_trans with (bpow radix2 (-50)); [apply bpow_le; lia|].
    unfold u32. cbn. lra. }
  assert (A : Rabs (gram L i j) <= gram_abs L i j) by apply total_abs.
  assert (A2 : Rabs (real M i j) <= Rabs (gram L i j) + Rabs (real M i j - gram L i j)).
  { replace (real M i j) with (gram L i j + (real M i j - gram L i j)) at 1 by ring. apply Rabs_triang. }
  set (r := Rabs (real M i j - gram L i j)) in *. set (g := gram_abs L i j) in *.
  assert (0 < s) by lra. unfold u32 in *. lra.
Qed.
End Loop.
