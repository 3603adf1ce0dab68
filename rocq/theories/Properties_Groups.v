(** Clustering of detections in separate groups: property C89. *)
From stdpp Require Import gmap strings.
From Coq Require Import Reals Lra Lia.
From Verif Require Import Base Uuid DynObj Motion RealArith MotionThms PiBounds
  Clustering ClusteringSpec ClusteringThms ClusteringCentroid ClusteringExamples ClusterGroupsThms.
Local Open Scope nat_scope.

Section Any.
(** Any arithmetic, detection type, metric and comparison *)
Context {A : arith} {D M L : Type} (d_uuid : D → uuid) (fields : D → point A).
Context (below : M → M → bool) (thr : M) (metric : point A → D → M).
Notation cluster_detections ds := (cluster_loop d_uuid fields below thr metric (length ds) ds).

(** C89: when being below the threshold means having the same label, the clusters
    are the labels, one cluster each ... *)
Theorem C89_groups (lab : D → L) ds cs : NoDup (d_uuid <$> ds) →
  (∀ a b, a ∈ ds → b ∈ ds → below (metric (fields a) b) thr = true ↔ lab a = lab b) →
  cluster_detections ds = Some cs →
  ∃ ks : list L, NoDup ks ∧ (∀ k, k ∈ ks ↔ ∃ d, d ∈ ds ∧ lab d = k) ∧
    Forall2 (λ k c, ∀ u d, detections c !! u = Some d ↔ d ∈ ds ∧ d_uuid d = u ∧ lab d = k) ks cs.
Proof. exact (loop_labels d_uuid fields below thr metric lab ds (length ds) cs). Qed.
(** ... in whatever order the detections are given. *)
Theorem C89_order (lab : D → L) ds ds' cs cs' : NoDup (d_uuid <$> ds) → ds ≡ₚ ds' →
  (∀ a b, a ∈ ds → b ∈ ds → below (metric (fields a) b) thr = true ↔ lab a = lab b) →
  cluster_detections ds = Some cs → cluster_detections ds' = Some cs' →
  (detections <$> cs) ≡ₚ (detections <$> cs').
Proof.
  intros Hn Hp Hl H H'.
  destruct (C89_groups lab ds cs Hn Hl H) as (ks & N1 & K1 & F1).
  destruct (C89_groups lab ds' cs') as (ks' & N2 & K2 & F2); [by rewrite <- Hp| |done|].
  { intros a b. rewrite <- Hp. apply Hl. }
  by apply (labels_order d_uuid lab ds ds' cs cs' ks ks').
Qed.
(** Where nothing is below the threshold, not even the distance of a detection to
    itself (a threshold that is not positive or not a number), every detection
    has its own cluster. *)
Theorem C89_alone ds cs : (∀ a b, a ∈ ds → b ∈ ds → below (metric (fields a) b) thr = false) →
  cluster_detections ds = Some cs →
  detections <$> cs = reverse ((λ d, {[d_uuid d := d]}) <$> ds).
Proof. exact (loop_none d_uuid fields below thr metric ds (length ds) cs). Qed.
End Any.
Print Assumptions C89_groups.
Print Assumptions C89_order.
Print Assumptions C89_alone.

(** The distance of two points in the five dimensions *)
Definition gap5 (p q : point reals) : R :=
  sqrt ((p_x p - p_x q)² + (p_y p - p_y q)² + (p_vel p - p_vel q)²
        + (get_angle (p_yaw p) - get_angle (p_yaw q))² + (p_rate p - p_rate q)²)%R.

(** With the default metric: detections within [r] of their object, objects farther
    apart than sqrt(threshold) + 2r, and 2r < sqrt(threshold). *)
Theorem C89_objects {D L} `{EqDecision L} (d_uuid : D → uuid) (fields : D → point reals) (lab : D → L)
    (object : L → point reals) (r T : R) ds cs :
  NoDup (d_uuid <$> ds) → (0 <= T)%R → (2 * r < sqrt T)%R →
  (∀ d, d ∈ ds → (gap5 (object (lab d)) (fields d) <= r)%R) →
  (∀ a b, a ∈ ds → b ∈ ds → lab a ≠ lab b → (sqrt T + 2 * r <= gap5 (object (lab a)) (object (lab b)))%R) →
  cluster_loop_default d_uuid fields T (length ds) ds = Some cs →
  ∃ ks : list L, NoDup ks ∧ (∀ k, k ∈ ks ↔ ∃ d, d ∈ ds ∧ lab d = k) ∧
    Forall2 (λ k c, ∀ u d, detections c !! u = Some d ↔ d ∈ ds ∧ d_uuid d = u ∧ lab d = k) ks cs.
Proof.
  intros Hn HT Hr Hb Hs H. eapply (C89_groups d_uuid fields (nlt reals)); [done| |exact H].
  apply (balls_near fields lab object r T ds); [done..|]. intros a b _ _. apply decide, _.
Qed.
Print Assumptions C89_objects.

(** Without such a separation the order matters: for every positive threshold the same
    three detections form one cluster or two. *)
Theorem C89_order_refuted (T : R) : (0 < T)%R → ∃ ds ds' cs cs',
  NoDup (o_uuid <$> ds) ∧ ds ≡ₚ ds' ∧ clusters T ds = Some cs ∧ clusters T ds' = Some cs' ∧
  length cs = 1 ∧ length cs' = 2.
Proof.
  intros HT. pose proof (s_sq T HT) as E. pose proof (s_pos T HT) as P.
  pose (a := at_x uA (1.7 * sqrt T) 0). pose (b := at_x uB (0.9 * sqrt T) 0). pose (c := at_x uC 0 0).
  exists [a; c; b], [a; b; c], (build o_uuid pt <$> [[b; a; c]]), [build o_uuid pt [c; b]; build o_uuid pt [a]].
  split; [apply (bool_decide_unpack _); reflexivity|]. split; [apply Permutation_skip, Permutation_swap|].
  split; [|split; [exact (proj2 (three_separated T HT))|split; reflexivity]].
  assert (Hba : near_by T b a = true) by (apply lt_true; unfold a, b; rewrite distance2_line; nra).
  assert (Hbc : near_by T b c = true) by (apply lt_true; unfold b, c; rewrite distance2_line; nra).
  apply (clusters_of T [a; c; b] [[b; a; c]]).
  eapply (grouping_step' _ _ [a; c]); [done|cbn [List.filter]; by rewrite Hba, Hbc..|]. constructor.
Qed.
Print Assumptions C89_order_refuted.

(** Four detections of two objects at 0 and 10 with noise up to 1 and threshold 9 *)
Example C89_case :
  let ds := [at_x uA 0 0; at_x uB 9 0; at_x uC 1 0; at_x uD 11 0]%R in
  let lab (d : det) := bool_decide (o_uuid d = uB ∨ o_uuid d = uD) in
  let object (k : bool) := if k then pt (at_x uA 10 0) else pt (at_x uA 0 0) in
  NoDup (o_uuid <$> ds) ∧ (2 * 1 < sqrt 9)%R ∧
  (∀ d, d ∈ ds → (gap5 (object (lab d)) (pt d) <= 1)%R) ∧
  (∀ a b, a ∈ ds → b ∈ ds → lab a ≠ lab b → (sqrt 9 + 2 * 1 <= gap5 (object (lab a)) (object (lab b)))%R).
Proof.
  intros ds lab object.
  assert (S9 : sqrt 9 = 3%R) by (replace 9%R with (3 * 3)%R by lra; apply sqrt_square; lra).
  assert (G : ∀ u x u' x', gap5 (pt (at_x u x 0)) (pt (at_x u' x' 0)) = Rabs (x - x')).
  { intros u x u' x'. unfold gap5. rewrite <- sqrt_Rsqr_abs. f_equal.
    unfold pt, ctrv_point, at_x, Rsqr. cbn [p_x p_y p_vel p_yaw p_rate o_state v_x v_y v_vel v_yaw v_rate]. lra. }
  split; [apply (bool_decide_unpack _); reflexivity|]. split; [rewrite S9; lra|]. split.
  - intros d Hd. unfold ds in Hd. set_unfold in Hd.
    destruct Hd as [->|[->|[->|[->|[]]]]];
      match goal with |- context [lab ?d] => let v := eval vm_compute in (bool_decide (o_uuid d = uB ∨ o_uuid d = uD)) in
        change (lab d) with v end; cbn [object]; unfold object; rewrite G; apply Rabs_le; lra.
  - intros a b _ _ Hne. rewrite S9. destruct (lab a), (lab b); try done; unfold object; rewrite G.
    + rewrite Rabs_right; lra.
    + rewrite Rabs_left; lra.
Qed.
