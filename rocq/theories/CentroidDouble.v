(** The sums and centroids of clusters in double precision. *)
From stdpp Require Import gmap strings.
From Coq Require Import ZArith Reals Lra Lia Psatz.
From Flocq Require Import Core IEEE754.BinarySingleNaN.
From Verif Require Import Base Uuid Float FloatProofs Motion RealArith DoubleArith DoubleThms SumSquares64 PiDouble TrigSpec AngleAccuracy MotionAccuracy
  Clustering ClusteringSpec ClusteringThms ClusteringCentroid.
Local Open Scope R_scope.

(** The conversion of a std::size_t to double, clustering.hpp:146 *)
Definition size64 (n : nat) : f64 := f64_of_Z (Z.of_nat n).

Section Sums.
  Context (sine cosine : f64 → f64) (phase : f64 → f64 → f64).
  Notation A64 := (doubles sine cosine phase).
  Context {D : Type} (d_uuid : D → uuid) (fields : D → point A64).

  Lemma held_added (h : list (op D)) u d : detections (run d_uuid fields h) !! u = Some d → Add d ∈ h.
  Proof.
    intros H. apply run_contents in H as [(a & b & -> & _) _].
    apply elem_of_app. right. left.
  Qed.
  Lemma members_total (c : cluster A64 D) l (g : D → R) : members c l → total g l = tot g (detections c) ∧ length l = size (detections c).
  Proof. intros H. split; [by apply total_perm|]. rewrite H, fmap_length. reflexivity. Qed.

  (** ** One coordinate *)
  Section Coordinate.
    Context (f : point A64 → f64).
    Context (f0 : f (point_zero (A := A64)) = f64_of_Z 0).
    Context (fadd : ∀ p d, f (element_wise_add (A := A64) fields p d) = Bplus mode_NE (f p) (f (fields d))).
    Context (fsub : ∀ p d, f (element_wise_subtract (A := A64) fields p d) = Bminus mode_NE (f p) (f (fields d))).
    Context (fdiv : ∀ p k, f (point_div (A := A64) p k) = Bdiv mode_NE (f p) k).
    Let val (d : D) : R := B2R (f (fields d)).

    Lemma sum_step (S : f64) (T r M : R) (K : nat) (z : f64) :
      (Z.of_nat (Datatypes.S K) <= 2 ^ 20)%Z → 0 <= M <= bpow radix2 900 →
      Rabs T <= INR K * M → Rabs (B2R S - T) <= INR K ^ 2 * u52 * M →
      ∀ v, Rabs v <= M → r = B2R S + v → B2R z = rnd64 r → is_finite z = true → (∃ e, Rabs e <= u64 ∧ rnd64 r = r * (1 + e)) →
      Rabs (T + v) <= INR (Datatypes.S K) * M ∧ Rabs (B2R z - (T + v)) <= INR (Datatypes.S K) ^ 2 * u52 * M.
    Proof.
      intros HK HM HT HE v Hv Er Ez Fz (e & He & Ee). rewrite S_INR.
      assert (0 <= INR K <= 1048576) as BK by (split; [apply pos_INR|]; rewrite INR_IZR_INZ; apply IZR_le; lia).
      set (k := INR K) in *. clearbody k.
      assert (Rabs (T + v) <= (k + 1) * M) as HT' by (eapply Rle_trans; [apply Rabs_triang|]; lra).
      split; [exact HT'|]. rewrite Ez, Ee, Er.
      replace ((B2R S + v) * (1 + e) - (T + v)) with ((B2R S - T) + ((B2R S - T) + (T + v)) * e) by ring.
      eapply Rle_trans; [apply Rabs_triang|]. rewrite Rabs_mult.
      assert (u64 = u52 / 2) as Eu by (unfold u64, u52; change (bpow radix2 (-53)) with (/ 9007199254740992); change (bpow radix2 (-52)) with (/ 4503599627370496); lra).
      assert (0 < u52 <= / 1000000000000) as Hu by (rewrite u52_value; lra).
      assert (Rabs (B2R S - T + (T + v)) * Rabs e <= (k ^ 2 * u52 * M + (k + 1) * M) * (u52 / 2)) as Q.
      { apply Rmult_le_compat; try apply Rabs_pos; [|by rewrite <- Eu]. eapply Rle_trans; [apply Rabs_triang|]. lra. }
      assert (k ^ 2 * u52 <= 2) as K2.
      { assert (k ^ 2 <= 1048576 ^ 2) by (apply pow_incr; lra). apply Rle_trans with (1048576 ^ 2 * / 1000000000000); [apply Rmult_le_compat; try lra; apply pow2_ge_0|lra]. }
      assert ((k ^ 2 * u52 * M + (k + 1) * M) * (u52 / 2) <= (2 * k + 1) * u52 * M).
      { replace ((k ^ 2 * u52 * M + (k + 1) * M) * (u52 / 2)) with ((k ^ 2 * u52 + (k + 1)) / 2 * (u52 * M)) by field.
        rewrite Rmult_assoc. apply Rmult_le_compat_r; [apply Rmult_le_pos; lra|]. 
        destruct (Rle_dec 1 k); [lra|]. assert (k ^ 2 <= 1) as K1 by (rewrite <- (pow1 2); apply pow_incr; lra).
        assert (k ^ 2 * u52 <= 1 * u52) by (apply Rmult_le_compat_r; lra). lra. }
      replace ((k + 1) ^ 2 * u52 * M) with (k ^ 2 * u52 * M + (2 * k + 1) * u52 * M) by ring. lra.
    Qed.

    Lemma sum_size (S : f64) (T M v : R) (K : nat) :
      (Z.of_nat K <= 2 ^ 20)%Z → 0 <= M <= bpow radix2 900 →
      Rabs T <= INR K * M → Rabs (B2R S - T) <= INR K ^ 2 * u52 * M → Rabs v <= M → Rabs (B2R S + v) <= bpow radix2 960.
    Proof.
      intros HK HM HT HE Hv.
      assert (0 <= INR K <= 1048576) as BK by (split; [apply pos_INR|]; rewrite INR_IZR_INZ; apply IZR_le; lia).
      set (k := INR K) in *. clearbody k.
      replace (B2R S + v) with ((B2R S - T) + (T + v)) by ring. eapply Rle_trans; [apply Rabs_triang|].
      assert (Rabs (T + v) <= (k + 1) * M) as HT' by (eapply Rle_trans; [apply Rabs_triang|]; lra).
      assert (0 < u52 <= / 1000000000000) as Hu by (rewrite u52_value; lra).
      assert (k ^ 2 * u52 <= 2) as K2.
      { assert (k ^ 2 <= 1048576 ^ 2) by (apply pow_incr; lra). apply Rle_trans with (1048576 ^ 2 * / 1000000000000); [apply Rmult_le_compat; try lra; apply pow2_ge_0|lra]. }
      assert (k ^ 2 * u52 * M <= 2 * M) by (apply Rmult_le_compat_r; lra).
      assert ((k + 1) * M <= 1048577 * M) by (apply Rmult_le_compat_r; lra).
      apply Rle_trans with (1152921504606846976 * M); [lra|].
      change 960%Z with (60 + 900)%Z. rewrite bpow_plus. change (bpow radix2 60) with 1152921504606846976.
      apply Rmult_le_compat_l; lra.
    Qed.

    Lemma sum_close (h : list (op D)) M : tidy d_uuid h → (Z.of_nat (length h) <= 2 ^ 20)%Z → 0 <= M <= bpow radix2 900 →
      (∀ d, Add d ∈ h → is_finite (f (fields d)) = true ∧ Rabs (val d) <= M) →
      let c := run d_uuid fields h in
      is_finite (f (state_sum c)) = true ∧
      Rabs (tot val (detections c)) <= INR (length h) * M ∧
      Rabs (B2R (f (state_sum c)) - tot val (detections c)) <= INR (length h) ^ 2 * u52 * M.
    Proof.
      induction h as [|o h IH] using rev_ind; intros Ht Hl HM Hd.
      - unfold run. cbn [foldl empty_cluster state_sum detections length]. rewrite tot_empty.
        destruct (int64_value 0) as [E F]; [cbn; lia|]. cbn zeta. change (state_sum (@empty_cluster A64 D)) with (point_zero (A := A64)).
        rewrite f0, E. split; [exact F|]. cbn [INR]. rewrite Rabs_R0. replace (0 - 0) with 0 by ring. rewrite Rabs_R0. lra.
      - apply tidy_snoc with (fields := fields) in Ht as (Ht & Hc & Ha).
        rewrite app_length in Hl. cbn [length] in Hl.
        destruct (IH Ht) as (F & B & E); [lia|done|intros d H; apply Hd, elem_of_app; by left|].
        assert (length (h ++ [o]) = Datatypes.S (length h)) as -> by (rewrite app_length; cbn; lia).
        rewrite run_snoc. pose proof (held_added h) as Held. remember (run d_uuid fields h) as c eqn:Ec.
        set (K := length h) in *. cbn zeta.
        assert (INR K * M <= INR (Datatypes.S K) * M) as W1 by (rewrite S_INR; pose proof (pos_INR K); apply Rmult_le_compat_r; lra).
        assert (INR K ^ 2 * u52 * M <= INR (Datatypes.S K) ^ 2 * u52 * M) as W2.
        { rewrite S_INR; pose proof (pos_INR K). apply Rmult_le_compat_r; [lra|]. apply Rmult_le_compat_r; [rewrite u52_value; lra|]. nra. }
        destruct o as [d|u|]; [| |done]; cbn [step].
        + specialize (Ha d eq_refl). unfold add_detection. cbn [state_sum detections]. rewrite Ha, fadd, tot_insert by done.
          destruct (Hd d) as [Fd Bd]; [apply elem_of_app; right; left|].
          pose proof (sum_size (f (state_sum c)) (tot val (detections c)) M (val d) K ltac:(lia) HM B E Bd) as L.
          destruct (plus64_value (f (state_sum c)) (f (fields d)) 960 ltac:(lia) F Fd L) as [Ez Fz]. split; [exact Fz|].
          destruct (rnd64_add (B2R (f (state_sum c))) (val d)) as (e & He & Ee); [apply generic_format_B2R..|].
          apply (sum_step (f (state_sum c)) _ _ M K _ ltac:(lia) HM B E (val d) Bd eq_refl Ez Fz). eauto.
        + unfold remove_detection. destruct (detections c !! u) as [d|] eqn:Hu.
          2:{ cbn [fst]. split; [exact F|]. split; lra. }
          cbn [fst state_sum detections]. rewrite fsub, (tot_delete _ _ _ _ Hu).
          destruct (Hd d) as [Fd Bd]; [apply elem_of_app; left; by apply (Held u)|].
          assert (Rabs (- val d) <= M) as Bd' by (by rewrite Rabs_Ropp).
          pose proof (sum_size (f (state_sum c)) (tot val (detections c)) M (- val d) K ltac:(lia) HM B E Bd') as L.
          destruct (minus64_value (f (state_sum c)) (f (fields d)) 960 ltac:(lia) F Fd L) as [Ez Fz]. split; [exact Fz|].
          destruct (rnd64_add (B2R (f (state_sum c))) (- val d)) as (e & He & Ee); [apply generic_format_B2R|apply generic_format_opp, generic_format_B2R|].
          apply (sum_step (f (state_sum c)) _ _ M K _ ltac:(lia) HM B E (- val d) Bd' eq_refl Ez Fz). eauto.
    Qed.

    Lemma centroid_close (h : list (op D)) M l q : tidy d_uuid h → (Z.of_nat (length h) <= 2 ^ 20)%Z → 0 <= M <= bpow radix2 900 →
      (∀ d, Add d ∈ h → is_finite (f (fields d)) = true ∧ Rabs (val d) <= M) →
      members (run d_uuid fields h) l → get_centroid (A := A64) size64 (run d_uuid fields h) = Ok q →
      is_finite (f q) = true ∧
      Rabs (B2R (f q) - total val l / INR (length l)) <= INR (length h) ^ 2 / INR (length l) * bpow radix2 (-51) * M + bpow radix2 (-1075).
    Proof.
      intros Ht Hl HM Hd Hm. destruct (sum_close h M Ht Hl HM Hd) as (F & B & E).
      destruct (members_total _ l val Hm) as [Et El]. unfold get_centroid. destruct (decide _) as [|Hne]; [done|]. intros [= <-].
      rewrite <- El, fdiv. rewrite <- Et in B, E. set (c := run d_uuid fields h) in *.
      assert (1 <= length l)%nat as L1.
      { rewrite El. destruct (size (detections c)) eqn:Es; [|lia]. by apply map_size_empty_inv in Es. }
      assert (length l <= length h)%nat as L2.
      { clear -Ht El. rewrite El. clear El. unfold c. clear c. induction h as [|o h IH] using rev_ind; [done|].
        apply tidy_snoc with (fields := fields) in Ht as (Ht & Hc & Ha). specialize (IH Ht). cbv zeta in IH. rewrite run_snoc, app_length. cbn [length].
        destruct o as [d|u|]; [| |done]; cbn [step].
        - unfold add_detection. cbn [detections]. rewrite (Ha d eq_refl), map_size_insert_None by (by apply Ha). clear -IH. lia.
        - unfold remove_detection. destruct (_ !! u) as [d|] eqn:Hu; cbn [fst detections]; [|lia].
          rewrite map_size_delete, Hu. clear -IH. lia. }
      destruct (int64_value (Z.of_nat (length l))) as [En Fn]; [lia|]. fold (size64 (length l)) in En, Fn.
      rewrite <- INR_IZR_INZ in En. set (n := INR (length l)) in *.
      assert (1 <= n) as N1 by (unfold n; change 1 with (INR 1); by apply le_INR).
      assert (1 <= INR (length h) <= 1048576) as BK.
      { split; [change 1 with (INR 1); apply le_INR; lia|]. rewrite INR_IZR_INZ. apply IZR_le. lia. }
      assert (Rabs (0 : R) <= M) as HZ by (rewrite Rabs_R0; lra).
      pose proof (sum_size (f (state_sum c)) (total val l) M 0 (length h) Hl HM B E HZ) as LS.
      set (k := INR (length h)) in *. clearbody k n. set (T := total val l) in *. set (s := f (state_sum c)) in *.
      assert (0 < u52 <= / 1000000000000) as Hu by (rewrite u52_value; lra).
      assert (u64 = u52 / 2) as Eu by (unfold u64, u52; change (bpow radix2 (-53)) with (/ 9007199254740992); change (bpow radix2 (-52)) with (/ 4503599627370496); lra).
      assert (bpow radix2 (-51) = 2 * u52) as -> by (unfold u52; change (bpow radix2 (-51)) with (/ 2251799813685248); change (bpow radix2 (-52)) with (/ 4503599627370496); lra).
      assert (Rabs (B2R s) <= (k + k ^ 2 * u52) * M) as BS.
      { replace (B2R s) with ((B2R s - T) + T) by ring. eapply Rle_trans; [apply Rabs_triang|]. lra. }
      assert (0 < / n <= 1) as In by (split; [apply Rinv_0_lt_compat; lra|]; rewrite <- Rinv_1; apply Rinv_le; lra).
      assert (Rabs (B2R s / n) <= Rabs (B2R s) * / n) as BD by (unfold Rdiv; rewrite Rabs_mult, (Rabs_pos_eq (/ n)); lra).
      destruct (div64_value s (size64 (length l)) 960 ltac:(lia) F) as [Eq Fq].
      { rewrite En. lra. }
      { rewrite En. eapply Rle_trans; [exact BD|]. apply Rle_trans with (Rabs (B2R s) * 1); [apply Rmult_le_compat_l; [apply Rabs_pos|lra]|].
        rewrite Rmult_1_r. replace (B2R s) with (B2R s + 0) by ring.
        exact LS. }
      split; [exact Fq|]. rewrite Eq, En.
      destruct (rnd64_rel (B2R s / n)) as (e & eta & He & Heta & ->).
      replace (B2R s / n * (1 + e) + eta - T / n) with ((B2R s - T) * / n + (B2R s / n * e + eta)) by (unfold Rdiv; ring).
      eapply Rle_trans; [apply Rabs_triang|]. rewrite Rabs_mult, (Rabs_pos_eq (/ n)) by lra.
      assert (Rabs (B2R s / n * e + eta) <= (k + k ^ 2 * u52) * M * / n * (u52 / 2) + bpow radix2 (-1075)) as Q.
      { eapply Rle_trans; [apply Rabs_triang|]. apply Rplus_le_compat; [|exact Heta]. rewrite Rabs_mult.
        apply Rmult_le_compat; try apply Rabs_pos; [|by rewrite <- Eu].
        eapply Rle_trans; [exact BD|]. apply Rmult_le_compat_r; lra. }
      assert (Rabs (B2R s - T) * / n <= k ^ 2 * u52 * M * / n) as Q1 by (apply Rmult_le_compat_r; lra).
      assert ((k + k ^ 2 * u52) * M * / n * (u52 / 2) <= k ^ 2 * u52 * M * / n) as Q2.
      { replace ((k + k ^ 2 * u52) * M * / n * (u52 / 2)) with ((k + k ^ 2 * u52) / 2 * (u52 * M * / n)) by (field; lra).
        replace (k ^ 2 * u52 * M * / n) with (k ^ 2 * (u52 * M * / n)) by ring.
        apply Rmult_le_compat_r; [apply Rmult_le_pos; [apply Rmult_le_pos; lra|lra]|].
        assert (k * 1 <= k * k) by (apply Rmult_le_compat_l; lra). assert (0 <= k ^ 2) by apply pow2_ge_0.
        assert (k ^ 2 * u52 <= k ^ 2 * 1) by (apply Rmult_le_compat_l; lra). replace (k ^ 2) with (k * k) in * by ring. lra. }
      unfold Rdiv. lra.
    Qed.
  End Coordinate.
End Sums.

(** ** Headings *)
Section Headings.
  Context (sine cosine : f64 → f64) (phase : f64 → f64 → f64) (ACC : accurate sine cosine phase).
  Notation A64 := (doubles sine cosine phase).
  Notation proper := (proper sine cosine phase).
  Notation ang z := (B2R (get_angle (z : angle A64) : f64)).
  Context {D : Type} (d_uuid : D → uuid) (fields : D → point A64).
  Let head (d : D) : R := ang (p_yaw (fields d)).

  Lemma turn_close_opp d x y : turn_close d x y → turn_close d (- x) (- y).
  Proof. intros [k H]. exists (- k)%Z. rewrite opp_IZR. replace (- x - (- y + - IZR k * (2 * PI))) with (- (x - (y + IZR k * (2 * PI)))) by ring. by rewrite Rabs_Ropp. Qed.

  Lemma heading_sum (h : list (op D)) : tidy d_uuid h → (∀ d, Add d ∈ h → proper (p_yaw (fields d))) →
    let c := run d_uuid fields h in
    proper (p_yaw (state_sum c)) ∧ turn_close ((INR (length h) + 1) * (12.1 * u52)) (ang (p_yaw (state_sum c))) (tot head (detections c)).
  Proof.
    assert (0 < u52) as Hu by (rewrite u52_value; lra).
    induction h as [|o h IH] using rev_ind; intros Ht Hd.
    - unfold run. cbn [foldl empty_cluster state_sum detections length]. rewrite tot_empty. cbn zeta.
      destruct (int64_value 0) as [E F]; [cbn; lia|].
      change (p_yaw (state_sum (@empty_cluster A64 D))) with (angle_of (A := A64) (f64_of_Z 0)).
      split; [by apply angle_of_proper|]. destruct (angle_roundtrip _ _ _ ACC _ F) as (_ & _ & H). rewrite E in H.
      eapply turn_close_le; [|exact H]. cbn [INR]. lra.
    - apply tidy_snoc with (fields := fields) in Ht as (Ht & Hc & Ha).
      destruct (IH Ht) as (P & E); [intros d H; apply Hd, elem_of_app; by left|].
      assert (length (h ++ [o]) = Datatypes.S (length h)) as -> by (rewrite app_length; cbn; lia). rewrite S_INR.
      rewrite run_snoc. pose proof (held_added _ _ _ d_uuid fields h) as Held. remember (run d_uuid fields h) as c eqn:Ec.
      set (K := INR (length h)) in *. cbn zeta.
      destruct o as [d|u|]; [| |done]; cbn [step].
      + specialize (Ha d eq_refl). unfold add_detection. cbn [state_sum detections]. rewrite Ha, tot_insert by done.
        assert (proper (p_yaw (fields d))) as Pd by (apply Hd, elem_of_app; right; left).
        destruct (angle_add_accurate _ _ _ ACC _ _ P Pd) as [Q T].
        change (p_yaw (element_wise_add fields (state_sum c) d)) with (angle_add (p_yaw (state_sum c)) (p_yaw (fields d))).
        split; [exact Q|]. eapply turn_close_le; [|exact (turn_close_trans2 _ _ _ _ _ T (turn_close_add _ _ _ _ _ _ E (turn_close_refl _)))]. lra.
      + unfold remove_detection. destruct (detections c !! u) as [d|] eqn:Hu'.
        2:{ cbn [fst]. split; [exact P|]. eapply turn_close_le; [|exact E]. lra. }
        cbn [fst state_sum detections]. rewrite (tot_delete _ _ _ _ Hu').
        assert (proper (p_yaw (fields d))) as Pd by (apply Hd, elem_of_app; left; by apply (Held u)).
        destruct (angle_sub_accurate _ _ _ ACC _ _ P Pd) as [Q T].
        change (p_yaw (element_wise_subtract fields (state_sum c) d)) with (angle_sub (p_yaw (state_sum c)) (p_yaw (fields d))).
        split; [exact Q|]. eapply turn_close_le; [|exact (turn_close_trans2 _ _ _ _ _ T (turn_close_add _ _ _ _ _ _ E (turn_close_refl _)))]. lra.
  Qed.

  Lemma heading_close (h : list (op D)) l q : tidy d_uuid h → (Z.of_nat (length l) <= 2 ^ 20)%Z →
    (∀ d, Add d ∈ h → proper (p_yaw (fields d))) →
    members (run d_uuid fields h) l → get_centroid (A := A64) size64 (run d_uuid fields h) = Ok q →
    proper (p_yaw q) ∧ ∃ w, 0 <= w <= 2 * B2R pi64 ∧ turn_close ((INR (length h) + 1) * bpow radix2 (-48)) w (total head l) ∧
      turn_close (bpow radix2 (-48)) (ang (p_yaw q)) (w / INR (length l)).
  Proof.
    intros Ht Hl Hd Hm. destruct (heading_sum h Ht Hd) as (P & E). destruct (members_total _ _ _ _ l head Hm) as [Et El].
    unfold get_centroid. destruct (decide _) as [|Hne]; [done|]. intros [= <-]. rewrite <- El. rewrite <- Et in E.
    set (c := run d_uuid fields h) in *. set (z := p_yaw (state_sum c)) in *.
    change (p_yaw (point_div (state_sum c) (size64 (length l)))) with (angle_of (A := A64) (Bdiv mode_NE (get_angle z) (size64 (length l)))).
    destruct P as [Fz Bz]. set (w := B2R (get_angle z : f64)) in *.
    assert (1 <= length l)%nat as L1.
    { rewrite El. destruct (size (detections c)) eqn:Es; [|lia]. by apply map_size_empty_inv in Es. }
    destruct (int64_value (Z.of_nat (length l))) as [En Fn]; [lia|]. fold (size64 (length l)) in En, Fn. rewrite <- INR_IZR_INZ in En.
    set (n := INR (length l)) in *.
    assert (1 <= n) as N1 by (unfold n; change 1 with (INR 1); by apply le_INR). clearbody n.
    assert (0 < / n <= 1) as In by (split; [apply Rinv_0_lt_compat; lra|]; rewrite <- Rinv_1; apply Rinv_le; lra).
    destruct pi64_value as [Ep _]. pose proof pi_real_bounds as PB.
    assert (0 <= w / n <= 8) as W8.
    { unfold Rdiv. split; [apply Rmult_le_pos; lra|]. replace 8 with (8 * 1) by ring. apply Rmult_le_compat; lra. }
    destruct (div64_value (get_angle z) (size64 (length l)) 3 ltac:(lia) Fz) as [Eq Fq].
    { rewrite En. lra. } { rewrite En. change (Rabs (w / n) <= 8). rewrite Rabs_pos_eq; lra. }
    split; [by apply angle_of_proper|]. exists w. split; [exact Bz|].
    assert (bpow radix2 (-48) = 16 * u52) as -> by (unfold u52; change (bpow radix2 (-48)) with (/ 281474976710656); change (bpow radix2 (-52)) with (/ 4503599627370496); lra).
    assert (0 < u52) as Hu by (rewrite u52_value; lra).
    split.
    { eapply turn_close_le; [|exact E]. pose proof (pos_INR (length h)). apply Rmult_le_compat_l; lra. }
    destruct (angle_roundtrip _ _ _ ACC _ Fq) as (_ & _ & T). rewrite Eq, En in T.
    change (B2R (get_angle z : f64)) with w in T.
    assert (Rabs (rnd64 (w / n) - w / n) <= 4 * u52) as R4.
    { pose proof (rnd64_near (w / n) 4) as Q. eapply Rle_trans; [apply Q; [change (bpow radix2 4) with 16; rewrite Rabs_pos_eq; lra|lia]|].
      unfold u52. change 4 with (bpow radix2 2). rewrite <- bpow_plus. apply bpow_le. lia. }
    eapply turn_close_le; [|exact (turn_close_trans _ _ _ _ _ T R4)]. lra.
  Qed.

  Lemma wrapped_total w t e : 0 <= w <= 2 * B2R pi64 → turn_close e w t → e < t → t < 2 * PI - e → Rabs (w - t) <= e.
  Proof.
    intros Hw [k H] H1 H2. pose proof pi_eighteen as P. pose proof pi_real_close as PC. destruct pi64_value as [Ep _]. rewrite Ep in Hw.
    assert (pi_real <= PI) as PL by lra.
    destruct (Z_lt_le_dec k 0) as [N|N]; [|destruct (Z_lt_le_dec 0 k) as [Q|Q]].
    - assert (IZR k <= -1) as Kk by (apply IZR_le; lia). apply Rabs_le_inv in H.
      assert (IZR k * (2 * PI) <= -1 * (2 * PI)) by (apply Rmult_le_compat_r; lra). lra.
    - assert (1 <= IZR k) as Kk by (apply IZR_le; lia). apply Rabs_le_inv in H.
      assert (1 * (2 * PI) <= IZR k * (2 * PI)) by (apply Rmult_le_compat_r; lra). lra.
    - assert (k = 0%Z) as -> by lia. by replace (w - t) with (w - (t + 0 * (2 * PI))) by ring.
  Qed.

  Lemma heading_mean (h : list (op D)) l q : tidy d_uuid h → (Z.of_nat (length l) <= 2 ^ 20)%Z →
    (∀ d, Add d ∈ h → proper (p_yaw (fields d))) →
    members (run d_uuid fields h) l → get_centroid (A := A64) size64 (run d_uuid fields h) = Ok q →
    (INR (length h) + 1) * bpow radix2 (-48) < total head l → total head l < 2 * PI - (INR (length h) + 1) * bpow radix2 (-48) →
    turn_close (((INR (length h) + 1) / INR (length l) + 1) * bpow radix2 (-48)) (ang (p_yaw q)) (total head l / INR (length l)).
  Proof.
    intros Ht Hl Hd Hm Hq B1 B2. destruct (heading_close h l q Ht Hl Hd Hm Hq) as (_ & w & Bw & Tw & Tq).
    pose proof (wrapped_total _ _ _ Bw Tw B1 B2) as H.
    assert (0 < INR (length l)) as N0.
    { destruct l as [|d l']; [|apply lt_0_INR; cbn; lia].
      exfalso. change (total head []) with 0 in B1. pose proof (pos_INR (length h)). pose proof (bpow_gt_0 radix2 (-48)).
      assert (0 <= (INR (length h) + 1) * bpow radix2 (-48)) by (apply Rmult_le_pos; lra). lra. }
    assert (Rabs (w / INR (length l) - total head l / INR (length l)) <= (INR (length h) + 1) / INR (length l) * bpow radix2 (-48)) as Q.
    { replace (w / INR (length l) - total head l / INR (length l)) with ((w - total head l) * / INR (length l)) by (field; lra).
      rewrite Rabs_mult, (Rabs_pos_eq (/ _)) by (left; by apply Rinv_0_lt_compat).
      replace ((INR (length h) + 1) / INR (length l) * bpow radix2 (-48)) with ((INR (length h) + 1) * bpow radix2 (-48) * / INR (length l)) by (field; lra).
      apply Rmult_le_compat_r; [left; by apply Rinv_0_lt_compat|exact H]. }
    eapply turn_close_le; [|exact (turn_close_trans _ _ _ _ _ Tq Q)]. lra.
  Qed.
End Headings.

(** ** Absorption *)
Lemma absorbed k x : (-900 <= k <= 1000)%Z → Rabs x <= bpow radix2 (k - 55) → rnd64 (x + bpow radix2 k) = bpow radix2 k.
Proof.
  intros Hk Hx. assert (format64 (bpow radix2 k)) as F by (apply fmt64_bpow; lia).
  pose proof (bpow_gt_0 radix2 k) as P. apply Rabs_le_inv in Hx.
  assert (bpow radix2 (k - 53) = 4 * bpow radix2 (k - 55)) as E1.
  { replace (k - 53)%Z with (2 + (k - 55))%Z by lia. rewrite bpow_plus. reflexivity. }
  assert (bpow radix2 (k - 52) = 8 * bpow radix2 (k - 55)) as E2.
  { replace (k - 52)%Z with (3 + (k - 55))%Z by lia. rewrite bpow_plus. reflexivity. }
  pose proof (bpow_gt_0 radix2 (k - 55)) as P'. unfold rnd64.
  apply Rle_antisym.
  - apply round_N_le_midp; [typeclasses eauto|exact F|]. rewrite succ_eq_pos by lra. rewrite ulp_bpow.
    replace (fexp64 (k + 1)) with (k - 52)%Z by (unfold SpecFloat.fexp, SpecFloat.emin; lia). lra.
  - apply round_N_ge_midp; [typeclasses eauto|exact F|]. rewrite pred_bpow.
    replace (fexp64 k) with (k - 53)%Z by (unfold SpecFloat.fexp, SpecFloat.emin; lia). lra.
Qed.

Section Outlier.
  Context (sine cosine : f64 → f64) (phase : f64 → f64 → f64).
  Notation A64 := (doubles sine cosine phase).
  Context {D : Type} (d_uuid : D → uuid) (fields : D → point A64).
  Lemma outlier (a b : D) k : (-900 <= k <= 1000)%Z → d_uuid a ≠ d_uuid b →
    is_finite (p_x (fields a) : f64) = true → is_finite (p_x (fields b) : f64) = true →
    Rabs (B2R (p_x (fields a) : f64)) <= bpow radix2 (k - 55) → B2R (p_x (fields b) : f64) = bpow radix2 k →
    let c := run d_uuid fields [Add a; Add b; Remove (d_uuid b)] in
    members c [a] ∧ ∃ q, get_centroid (A := A64) size64 c = Ok q ∧ is_finite (p_x q : f64) = true ∧ B2R (p_x q : f64) = 0.
  Proof.
    intros Hk Hne Fa Fb Ba Eb.
    set (s0 := f64_of_Z 0 : f64). destruct (int64_value 0) as [E0 F0]; [cbn; lia|]. fold s0 in E0, F0.
    set (xa := p_x (fields a) : f64) in *. set (xb := p_x (fields b) : f64) in *.
    assert (bpow radix2 (k - 55) <= bpow radix2 k) as Bk by (apply bpow_le; lia).
    pose proof (bpow_gt_0 radix2 k) as Pk.
    destruct (plus64_value s0 xa 1010 ltac:(lia) F0 Fa) as [E1 F1].
    { rewrite E0, Rplus_0_l. eapply Rle_trans; [exact Ba|]. apply bpow_le. lia. }
    rewrite E0, Rplus_0_l, rnd64_id in E1 by apply generic_format_B2R. set (s1 := Bplus mode_NE s0 xa) in *.
    destruct (plus64_value s1 xb 1010 ltac:(lia) F1 Fb) as [E2 F2].
    { rewrite E1, Eb. eapply Rle_trans; [apply Rabs_triang|]. rewrite (Rabs_pos_eq (bpow _ k)) by lra.
      apply Rle_trans with (bpow radix2 (k + 1)); [|apply bpow_le; lia]. rewrite bpow_plus. change (bpow radix2 1) with 2. lra. }
    rewrite E1, Eb, absorbed in E2 by done. set (s2 := Bplus mode_NE s1 xb) in *.
    destruct (minus64_value s2 xb 1010 ltac:(lia) F2 Fb) as [E3 F3].
    { rewrite E2, Eb, Rminus_diag_eq, Rabs_R0 by done. apply bpow_ge_0. }
    rewrite E2, Eb, Rminus_diag_eq, rnd64_id in E3 by (try done; apply generic_format_0). set (s3 := Bminus mode_NE s2 xb) in *.
    assert (run d_uuid fields [Add a; Add b; Remove (d_uuid b)] =
      Cluster (A := A64) (element_wise_subtract fields (element_wise_add fields (element_wise_add fields point_zero a) b) b) {[ d_uuid a := a ]}) as Er.
    { unfold run. cbn [foldl step]. unfold add_detection. cbn [state_sum detections empty_cluster].
      rewrite lookup_empty, lookup_insert_ne, lookup_empty by done.
      unfold remove_detection. cbn [detections state_sum]. rewrite lookup_insert. cbn [fst].
      rewrite delete_insert, insert_empty by (rewrite lookup_insert_ne by done; apply lookup_empty). reflexivity. }
    cbn zeta. rewrite Er. split.
    { unfold members. cbn [detections]. by rewrite map_to_list_singleton. }
    unfold get_centroid. cbn [detections state_sum]. rewrite decide_False by apply map_non_empty_singleton.
    eexists. split; [reflexivity|]. cbn [point_div p_x element_wise_subtract element_wise_add point_zero].
    rewrite map_size_singleton.
    destruct (int64_value 1) as [En Fn]; [cbn; lia|].
    destruct (div64_value s3 (size64 1) 1010 ltac:(lia) F3) as [E4 F4].
    { change (size64 1) with (f64_of_Z 1). rewrite En. lra. }
    { rewrite E3. unfold Rdiv. rewrite Rmult_0_l, Rabs_R0. apply bpow_ge_0. }
    change (is_finite (Bdiv mode_NE s3 (size64 1)) = true ∧ B2R (Bdiv mode_NE s3 (size64 1)) = 0).
    split; [exact F4|]. rewrite E4, E3. unfold Rdiv. rewrite Rmult_0_l. apply rnd64_id, generic_format_0.
  Qed.
End Outlier.

(** The clusters made by the loop have histories of additions. *)
Lemma loop_history {A : arith} {D M} (d_uuid : D → uuid) (fields : D → point A) (below : M → M → bool) thr metric ds cs :
  NoDup (d_uuid <$> ds) → cluster_loop d_uuid fields below thr metric (length ds) ds = Some cs →
  ∀ c l, c ∈ cs → members c l → ∃ g, c = run d_uuid fields (Add <$> g) ∧ tidy d_uuid (Add <$> g) ∧ (∀ d, d ∈ g → d ∈ ds) ∧ length g = length l ∧ (length g <= length ds)%nat.
Proof.
  intros Hn H c l Hc Hm. apply loop_sound in H as (gs & Hg & ->).
  apply elem_of_list_fmap in Hc as (g & -> & Hin). exists g.
  assert (E : build d_uuid fields g = run d_uuid fields (Add <$> g)).
  { unfold build, run. generalize (@empty_cluster A D). clear. induction g as [|d g IH]; intros c; [done|]. cbn. apply IH. }
  pose proof (grouping_perm _ _ _ Hg) as Hp.
  assert (∃ g1 g2, gs = g1 ++ g :: g2) as (g1 & g2 & ->) by (apply elem_of_list_split in Hin as (g1 & g2 & ->); eauto).
  assert (Hg' : NoDup (d_uuid <$> g)).
  { rewrite <- Hp in Hn. rewrite concat_app, fmap_app in Hn. apply NoDup_app in Hn as (_ & _ & Hn).
    cbn in Hn. rewrite fmap_app in Hn. by apply NoDup_app in Hn as (Hn & _ & _). }
  split; [exact E|]. split; [by apply tidy_adds|].
  split; [intros d Hd; rewrite <- Hp, concat_app; cbn; rewrite !elem_of_app; auto|].
  split.
  - unfold members in Hm. rewrite Hm, fmap_length. clear -Hg'. change (length g = size (detections (build d_uuid fields g))). unfold build.
    assert (∀ c : cluster A D, (∀ d, d ∈ g → detections c !! d_uuid d = None) →
      size (detections (foldl (add_detection d_uuid fields) c g)) = (length g + size (detections c))%nat) as Q.
    { induction g as [|d g IH]; intros c Hc; [done|]. cbn [foldl length]. cbn in Hg'. apply NoDup_cons in Hg' as [Hd Hg'].
      rewrite IH; [|done|].
      - unfold add_detection. cbn [detections]. rewrite (Hc d) by left. rewrite map_size_insert_None by (apply Hc; left). lia.
      - intros d' Hd'. unfold add_detection. cbn [detections]. rewrite (Hc d) by left. rewrite lookup_insert_ne; [apply Hc; by right|].
        intros Ee. apply Hd. rewrite Ee. by apply elem_of_list_fmap_1. }
    rewrite Q by (intros; apply lookup_empty). cbn. rewrite map_size_empty. lia.
  - rewrite <- Hp, concat_app. cbn. rewrite !app_length. lia.
Qed.
