(** Clustering in double precision: property C97. *)
From stdpp Require Import gmap strings.
From Coq Require Import Reals Lra Lia ZArith.
From Flocq Require Import Core IEEE754.BinarySingleNaN.
From Verif Require Import Base Uuid DynObj Motion Float DoubleArith DoubleThms Clustering ClusteringSpec ClusteringThms
  ClusterGroupsThms SumSquares64 ClusterDoubleThms.
Local Open Scope nat_scope.

Lemma zip_forall {T} (P : T → Prop) l : ∀ l', Forall P l → Forall P l' → Forall (λ p, P p.1 ∧ P p.2) (zip l l').
Proof. induction l as [|x l IH]; intros [|y l'] H H'; inversion H; inversion H'; subst; constructor; auto. Qed.
Lemma zip_exists {T} (f : T → bool) l : ∀ l', length l = length l' → forallb f l = false ∨ forallb f l' = false →
  List.Exists (λ p, f p.1 = false ∨ f p.2 = false) (zip l l').
Proof.
  induction l as [|x l IH]; intros [|y l'] E H; cbn in *; try done; [by destruct H|].
  destruct (f x) eqn:F; [|left; by left]. destruct (f y) eqn:G; [|left; by right]. right. apply IH; [lia|done].
Qed.

Section Double.
(** Any implementation of sine, cosine and phase, and any type of detections *)
Context (sine cosine : f64 → f64) (phase : f64 → f64 → f64).
Notation arith64 := (doubles sine cosine phase).
Context {D : Type} (d_uuid : D → uuid) (fields : D → point arith64).

(** The five numbers that are compared *)
Definition values (p : point arith64) : list f64 := [p_x p; p_y p; p_vel p; get_angle (p_yaw p); p_rate p].
Definition all_finite (d : D) : bool := forallb is_finite (values (fields d)).
(** Their squared distance, without rounding *)
Definition exact_distance (p : point arith64) (d : D) : R :=
  fold_right Rplus 0%R (zip_with (λ x y : f64, (B2R x - B2R y) * (B2R x - B2R y))%R (values p) (values (fields d))).
Notation clusters thr ds := (cluster_loop_default d_uuid fields thr (length ds) ds).
Notation exact_clusters thr ds := (cluster_loop d_uuid fields Rlt_bool thr exact_distance (length ds) ds).

Local Opaque Bplus Bminus Bmult get_angle f64_of_Z.
Lemma distance_sum p d : squared_euclidean_distance fields p d = sum64 (f64_of_Z 0) (zip (values p) (values (fields d))).
Proof. reflexivity. Qed.
Lemma exact_sum p d : exact_distance p d = sumR (zip (values p) (values (fields d))).
Proof. reflexivity. Qed.

(** C97: the clusters are those that exact arithmetic would give, if no distance
    is within a factor of 1 + 2^-48 of the threshold (and numbers are at most 2^500
    in absolute value) ... *)
Theorem C97_exact (thr : f64) (ds : list D) : is_finite thr = true →
  (∀ d, d ∈ ds → Forall (λ x : f64, is_finite x = true ∧ (Rabs (B2R x) <= bpow radix2 500)%R) (values (fields d))) →
  (∀ a b, a ∈ ds → b ∈ ds →
     (bpow radix2 (-48) * Rabs (B2R thr) + bpow radix2 (-1066) < Rabs (exact_distance (fields a) b - B2R thr))%R) →
  clusters thr ds = exact_clusters (B2R thr) ds.
Proof.
  intros Ft Hm Hd. apply loop_same. intros a b Ha Hb.
  change (Bltb (sum64 (f64_of_Z 0) (zip (values (fields a)) (values (fields b)))) thr = Rlt_bool (exact_distance (fields a) b) (B2R thr)).
  rewrite exact_sum. apply sum5_below; [cbn; lia| |done|rewrite <- exact_sum; by apply Hd].
  by apply zip_forall; apply Hm.
Qed.
(** Detections with a number that is not finite are alone in their clusters,
    and the others are clustered as if they were not there ... *)
Theorem C97_not_finite (thr : f64) (ds : list D) cs : clusters thr ds = Some cs →
  clusters thr (List.filter all_finite ds) = Some (filter (good_cluster all_finite) cs) ∧
  (∀ d, d ∈ ds → all_finite d = false → ∃ c, c ∈ cs ∧ detections c = {[d_uuid d := d]}) ∧
  (∀ c, c ∈ cs → good_cluster all_finite c ∨ ∃ d, d ∈ ds ∧ all_finite d = false ∧ detections c = {[d_uuid d := d]}).
Proof.
  apply loop_filter. intros a b H.
  change (Bltb (sum64 (f64_of_Z 0) (zip (values (fields a)) (values (fields b)))) thr = false).
  apply sum_never_below. by apply zip_exists.
Qed.
(** ... and a threshold that is not a number or not positive puts every detection
    in its own cluster. *)
Theorem C97_threshold (thr : f64) (ds : list D) cs : is_nan thr = true ∨ is_finite thr = true ∧ (B2R thr <= 0)%R →
  clusters thr ds = Some cs → detections <$> cs = reverse ((λ d, {[d_uuid d := d]}) <$> ds).
Proof. intros H. apply loop_none. intros a b _ _. by apply (sum_not_negative (zip (values (fields a)) (values (fields b)))). Qed.
End Double.
Print Assumptions C97_exact.
Print Assumptions C97_not_finite.
Print Assumptions C97_threshold.

(** Close to the threshold the clusters can differ: positions 0 and 1 + 3/2^28 have a
    squared distance below a threshold that the computed one reaches. *)
Notation toy := (doubles (λ _, f64_of_Z 0) (λ _, f64_of_Z 0) (λ _ _, f64_of_Z 0)).
Definition at_x (x : f64) : point toy := Point (A := toy) x (f64_of_Z 0) (f64_of_Z 0) (angle_of (A := toy) (f64_of_Z 0)) (f64_of_Z 0).
Definition f64_of (m e : Z) : f64 := binary_normalize 53 1024 _ _ mode_NE m e false.
Theorem C97_margin_refuted : ∃ (a b : string * point toy) (thr : f64),
  option_map length (cluster_loop_default (A := toy) fst snd thr 2 [a; b]) = Some 2 ∧
  option_map length (cluster_loop (A := toy) fst snd Rlt_bool (B2R thr) (exact_distance _ _ _ snd) 2 [a; b]) = Some 1.
Proof.
  exists ("a", at_x (f64_of_Z 0)), ("b", at_x (f64_of 268435459 (-28))),
    (f64_of 4503599728033793 (-52)).
  split; [vm_compute; reflexivity|].
  assert (E : Rlt_bool (exact_distance _ _ _ snd (at_x (f64_of 268435459 (-28))) ("a", at_x (f64_of_Z 0)))
    (B2R (f64_of 4503599728033793 (-52))) = true).
  { apply Rlt_bool_true. unfold exact_distance, values, at_x, f64_of. cbn [zip_with fold_right p_x p_y p_vel p_yaw p_rate snd].
    destruct (value_of_normal 268435459 (-28)) as [-> _]; try (cbn; lia).
    destruct (value_of_normal 4503599728033793 (-52)) as [-> _]; try (cbn; lia).
    change (B2R (f64_of_Z 0)) with 0%R. set (g := B2R (get_angle (A := toy) _ : f64)). clearbody g. 
    change (bpow radix2 (-28)) with (/ 268435456)%R. change (bpow radix2 (-52)) with (/ 4503599627370496)%R. lra. }
  cbn [cluster_loop last removelast absorb fst snd]. change uuid with string. rewrite E. reflexivity.
Qed.
Print Assumptions C97_margin_refuted.

Example C97_case :
  (* two detections a metre apart and one whose position is not a number *)
  option_map (fmap (λ c, (map_to_list (detections c)).*1))
    (cluster_loop_default (A := toy) fst snd (f64_of_Z 4) 3
      [("a", at_x (f64_of_Z 0)); ("n", at_x B754_nan); ("b", at_x (f64_of_Z 1))]) = Some [["b"; "a"]; ["n"]].
Proof. vm_compute. reflexivity. Qed.
(** Detections a metre apart and one ten metres away are far from the threshold. *)
Example C97_exact_case :
  let ds := [("a", at_x (f64_of_Z 0)); ("b", at_x (f64_of_Z 1)); ("c", at_x (f64_of_Z 10))] in
  let thr := f64_of_Z 4 in
  is_finite thr = true ∧
  (∀ d : string * point toy, d ∈ ds → Forall (λ x : f64, is_finite x = true ∧ (Rabs (B2R x) <= bpow radix2 500)%R) (values _ _ _ d.2)) ∧
  (∀ a b : string * point toy, a ∈ ds → b ∈ ds →
     (bpow radix2 (-48) * Rabs (B2R thr) + bpow radix2 (-1066) < Rabs (exact_distance _ _ _ snd a.2 b - B2R thr))%R).
Proof.
  intros ds thr.
  assert (Z0 : B2R (f64_of_Z 0) = 0%R) by (apply (int64_value 0); done).
  assert (W : ∀ n, values _ _ _ (at_x (f64_of_Z n)) = [f64_of_Z n; f64_of_Z 0; f64_of_Z 0; f64_of_Z 0; f64_of_Z 0]).
  { intros n. unfold values, at_x. cbn [p_x p_y p_vel p_yaw p_rate].
    assert (get_angle (A := toy) (angle_of (A := toy) (f64_of_Z 0)) = f64_of_Z 0) as -> by (vm_compute; reflexivity). done. }
  assert (I : ∀ d, d ∈ ds → ∃ n, (n = 0 ∨ n = 1 ∨ n = 10)%Z ∧ d.2 = at_x (f64_of_Z n)).
  { intros d H. unfold ds in H. rewrite !elem_of_cons, elem_of_nil in H.
    destruct H as [->|[->|[->|[]]]]; eexists; (split; [|reflexivity]); auto. }
  assert (V : ∀ n, (n = 0 ∨ n = 1 ∨ n = 10)%Z → B2R (f64_of_Z n) = IZR n ∧ is_finite (f64_of_Z n) = true).
  { intros n H. apply int64_value. lia. }
  assert (B : (16 <= bpow radix2 500)%R).
  { change 16%R with (bpow radix2 4). apply bpow_le. lia. }
  split; [apply int64_value; done|]. split.
  - intros d H. destruct (I d H) as (n & Hn & ->). rewrite W. destruct (V n Hn) as [E F].
    destruct (V 0%Z ltac:(lia)) as [E0 F0].
    repeat constructor; try done; rewrite ?E, ?E0; destruct Hn as [->|[->| ->]]; unfold Rabs; destruct (Rcase_abs _); lra.
  - intros a b Ha Hb. destruct (I a Ha) as (n & Hn & ->). destruct (I b Hb) as (k & Hk & Eb).
    unfold exact_distance. rewrite Eb, !W. cbn [zip_with fold_right]. destruct (V n Hn) as [-> _]. destruct (V k Hk) as [-> _].
    rewrite Z0. unfold thr. destruct (int64_value 4 ltac:(done)) as [-> _].
    assert (S1 : (bpow radix2 (-48) <= / 16)%R).
    { change (/ 16)%R with (bpow radix2 (-4)). apply bpow_le. lia. }
    assert (S2 : (bpow radix2 (-1066) <= / 16)%R).
    { change (/ 16)%R with (bpow radix2 (-4)). apply bpow_le. lia. }
    rewrite (Rabs_pos_eq 4) by lra.
    destruct Hn as [->|[->| ->]], Hk as [->|[->| ->]]; unfold Rabs; destruct (Rcase_abs _); lra.
Qed.
