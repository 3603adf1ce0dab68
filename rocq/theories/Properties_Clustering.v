(** Clustering: properties C42 to C49, C75 and C76. *)
From stdpp Require Import gmap strings.
From Coq Require Import Reals Lra Lia.
From Verif Require Import Base Uuid DynObj Motion RealArith MotionThms PiBounds
  Clustering ClusteringSpec ClusteringThms ClusteringCentroid ClusteringExamples.

Section Any.
(** Any arithmetic (also IEEE double, with values that are not numbers), any
    detection type, metric and comparison *)
Context {A : arith} {D M : Type} (d_uuid : D → uuid) (fields : D → point A).
Context (below : M → M → bool) (thr : M) (metric : point A → D → M).
Notation cluster_detections ds := (cluster_loop d_uuid fields below thr metric (length ds) ds).

(** C42: the loop ends after at most as many rounds as there are detections ... *)
Theorem C42_terminates (ds : list D) : ∃ cs, ∀ fuel, (length ds <= fuel)%nat →
  cluster_loop d_uuid fields below thr metric fuel ds = Some cs.
Proof. destruct (loop_spec d_uuid fields below thr metric ds) as (gs & _ & H). eauto. Qed.
(** ... and distributes the detections. *)
Theorem C42_partition ds cs : NoDup (d_uuid <$> ds) → cluster_detections ds = Some cs →
  (∀ c, c ∈ cs → detections c ≠ ∅) ∧
  (∀ c u d, c ∈ cs → detections c !! u = Some d → u = d_uuid d ∧ d ∈ ds) ∧
  (∀ d, d ∈ ds → ∃ i c, cs !! i = Some c ∧ detections c !! d_uuid d = Some d ∧
     ∀ j c', cs !! j = Some c' → is_Some (detections c' !! d_uuid d) → j = i).
Proof. exact (loop_partition d_uuid fields below thr metric ds cs). Qed.

(** C43: every cluster comes from a group of the input list with an origin, the
    last of the group in the list, and lists the group's uuids. *)
Theorem C43_geometry ds cs : cluster_detections ds = Some cs →
  ∃ gs : list (list D), concat gs ≡ₚ ds ∧
  Forall2 (λ g c, ∃ o rest, g = o :: rest ∧ rest ++ [o] `sublist_of` ds ∧
    Forall (λ d, below (metric (fields o) d) thr = true) rest ∧
    ∀ u, is_Some (detections c !! u) ↔ ∃ d, d ∈ g ∧ d_uuid d = u) gs cs ∧
  ∀ i j o rest g d, (i < j)%nat → gs !! i = Some (o :: rest) → gs !! j = Some g → d ∈ g →
    below (metric (fields o) d) thr = false.
Proof.
  intros H. destruct (loop_geometry d_uuid fields below thr metric ds cs H) as (gs & -> & Hp & Hf & Hl).
  exists gs. split; [done|]. split; [|done]. apply Forall2_fmap_r, Forall_Forall2_diag.
  eapply Forall_impl; [exact Hf|]. intros g (o & rest & E & H1 & H2). exists o, rest.
  split; [done|]. split; [done|]. split; [done|]. intros u. split.
  - intros [d Hd]. apply build_in in Hd. eauto.
  - intros (d & Hd & <-). by apply build_has.
Qed.
(** The result is determined by the grouping rule of ClusteringSpec.v. *)
Theorem C43_rule ds cs : cluster_detections ds = Some cs ↔
  ∃ gs, grouping (λ o d, below (metric (fields o) d) thr) ds gs ∧
        cs = (λ g, foldl (add_detection d_uuid fields) empty_cluster g) <$> gs.
Proof.
  split; [apply loop_sound|]. intros (gs & Hg & ->).
  destruct (loop_spec d_uuid fields below thr metric ds) as (gs' & Hg' & E).
  rewrite E by done. by rewrite (grouping_unique _ _ _ _ Hg Hg').
Qed.
End Any.
Print Assumptions C42_terminates.
Print Assumptions C42_partition.
Print Assumptions C43_geometry.
Print Assumptions C43_rule.
(** Three detections in two clusters, see three_separated *)
Example C42_case : let s := sqrt 4 in
  let ds := [at_x uA (1.7 * s) 0; at_x uB (0.9 * s) 0; at_x uC 0 0]%R in
  NoDup (o_uuid <$> ds) ∧ (∃ cs, clusters 4 ds = Some cs ∧ length cs = 2%nat).
Proof.
  intros s ds. split; [apply (bool_decide_unpack _); reflexivity|]. eexists.
  split; [exact (proj2 (three_separated 4 ltac:(lra)))|reflexivity].
Qed.

(** The groups of the same three detections: the last one with the second, and
    the first alone. *)
Example C43_case : let s := sqrt 4 in
  let a := at_x uA (1.7 * s) 0 in let b := at_x uB (0.9 * s) 0 in let c := at_x uC 0 0 in
  clusters 4 [a; b; c] = Some ((λ g, foldl (add_detection o_uuid pt) empty_cluster g) <$> [[c; b]; [a]]).
Proof. exact (proj2 (three_separated 4 ltac:(lra))). Qed.

(** C44: for every positive threshold there are detections within the threshold
    of each other that no cluster contains both. *)
Theorem C44_together_refuted (T : R) : (0 < T)%R → ∃ ds a b cs,
  NoDup (o_uuid <$> ds) ∧ a ∈ ds ∧ b ∈ ds ∧ (distance2 (pt a) b < T)%R ∧ clusters T ds = Some cs ∧
  ∀ c, c ∈ cs → ¬ (is_Some (detections c !! o_uuid a) ∧ is_Some (detections c !! o_uuid b)).
Proof.
  intros HT. destruct (three_separated T HT) as [H1 H2].
  eexists _, (at_x uA (1.7 * sqrt T) 0), (at_x uB (0.9 * sqrt T) 0), _.
  split; [|split; [|split; [|split; [exact H1|split; [exact H2|]]]]].
  - apply (bool_decide_unpack _); reflexivity.
  - left.
  - right. left.
  - intros c Hc [[x Hx] [y Hy]]. apply elem_of_cons in Hc as [->|Hc].
    + apply build_in in Hx as [Hx1 Hx2]. apply elem_of_cons in Hx1 as [->|Hx1]; [done|].
      apply elem_of_list_singleton in Hx1 as ->. done.
    + apply elem_of_list_singleton in Hc as ->.
      apply build_in in Hy as [Hy1 Hy2]. apply elem_of_list_singleton in Hy1 as ->. done.
Qed.
Print Assumptions C44_together_refuted.
Example C44_case : (0 < 1)%R.
Proof. lra. Qed.

(** C45: the cut-off distance is the square root of the threshold ... *)
Theorem C45_cutoff {D} (fields : D → point reals) (p : point reals) (d : D) (T : R) : (0 <= T)%R →
  let q := fields d in
  nlt reals (squared_euclidean_distance fields p d) T = true ↔
  (sqrt ((p_x p - p_x q)² + (p_y p - p_y q)² + (p_vel p - p_vel q)²
         + (get_angle (p_yaw p) - get_angle (p_yaw q))² + (p_rate p - p_rate q)²) < sqrt T)%R.
Proof.
  intros HT q. rewrite lt_true. unfold squared_euclidean_distance. fold q.
  cbn [nadd nsub nmul n0 reals]. unfold Rsqr. rewrite Rplus_0_l.
  set (e := (_ + _)%R). assert (0 <= e)%R.
  { unfold e. repeat apply Rplus_le_le_0_compat; apply Rle_0_sqr. }
  split; [intros; apply sqrt_lt_1; lra|intros; by apply sqrt_lt_0_alt].
Qed.
(** ... where the numbers compared are position, velocity, heading and turn rate of
    the two states, whatever their motion models ... *)
Theorem C45_states {U C1 C2} (a b : vobj U (ctrv_state reals) C1 (ctra_state reals) C2) (T : R) : (0 <= T)%R →
  nlt reals (squared_euclidean_distance v_point (v_point a) b) T = true ↔
  let values (d : vobj U (ctrv_state reals) C1 (ctra_state reals) C2) : list R := match d with
    | Ctrv (DynObj _ s _ _ _) => [v_x s; v_y s; v_vel s; get_angle (v_yaw s); v_rate s]
    | Ctra (DynObj _ s _ _ _) => [a_x s; a_y s; a_vel s; get_angle (a_yaw s); a_rate s]
    end in
  (sqrt (foldr Rplus 0 (zip_with (λ x y, (x - y)²) (values a) (values b))) < sqrt T)%R.
Proof.
  intros HT. rewrite (C45_cutoff v_point (v_point a) b T HT). cbv zeta.
  destruct a as [[]|[]], b as [[]|[]]; cbn -[get_angle sqrt Rsqr Rplus Rminus];
    cbn [num reals];
    match goal with |- (sqrt ?x < _)%R ↔ (sqrt ?y < _)%R =>
      assert (E : x = y) by (unfold Rsqr; ring); split; intros H; [rewrite <- E|rewrite E]; exact H end.
Qed.
(** ... so a threshold of three does not join two detections two metres apart,
    and 0.85 joins two that are 0.9 metres apart. *)
Theorem C45_distance_refuted :
  (∃ cs, clusters 3 [at_x uA 0 0; at_x uB 2 0] = Some cs ∧ length cs = 2%nat) ∧
  (∃ cs, clusters 0.85 [at_x uA 0 0; at_x uB 0.9 0] = Some cs ∧ length cs = 1%nat).
Proof.
  split.
  - assert (H : near_by 3 (at_x uB 2 0) (at_x uA 0 0) = false) by (apply lt_false; rewrite distance2_line; lra).
    eexists. split; [apply (clusters_of _ _ [[at_x uB 2 0]; [at_x uA 0 0]])|done].
    eapply (grouping_step' _ _ [at_x uA 0 0]); [done|cbn [List.filter]; by rewrite H..|].
    eapply (grouping_step' _ _ []); [done..|]. constructor.
  - assert (H : near_by 0.85 (at_x uB 0.9 0) (at_x uA 0 0) = true) by (apply lt_true; rewrite distance2_line; lra).
    eexists. split; [apply (clusters_of _ _ [[at_x uB 0.9 0; at_x uA 0 0]])|done].
    eapply (grouping_step' _ _ [at_x uA 0 0]); [done|cbn [List.filter]; by rewrite H..|]. constructor.
Qed.
Print Assumptions C45_cutoff.
Print Assumptions C45_states.
Print Assumptions C45_distance_refuted.
Example C45_case : (0 <= 3)%R.
Proof. lra. Qed.

(** C46 *)
Section Contents.
Context {A : arith} {D : Type} (d_uuid : D → uuid) (fields : D → point A) (of_size : nat → num A).
Notation after h := (run d_uuid fields h).
Theorem C46_contents (h : list (op D)) (u : uuid) (d : D) :
  detections (after h) !! u = Some d ↔ holds d_uuid h d ∧ d_uuid d = u.
Proof. apply run_contents. Qed.
Theorem C46_absent (h : list (op D)) (u : uuid) :
  detections (after h) !! u = None ↔ ¬ present d_uuid h u.
Proof. apply run_contents. Qed.
Theorem C46_is_empty (h : list (op D)) : is_empty (after h) = true ↔ ∀ u, ¬ present d_uuid h u.
Proof.
  unfold is_empty. rewrite Nat.eqb_eq, map_size_empty_iff, map_empty.
  split; intros H u; [by apply (C46_absent h u)|by apply (C46_absent h u)].
Qed.
Theorem C46_remove (h : list (op D)) (u : uuid) : let c := after h in
  (present d_uuid h u → (remove_detection fields c u).2 = Ok ()) ∧
  (¬ present d_uuid h u → remove_detection fields c u = (c, Throw out_of_range)).
Proof.
  intros c. pose proof (C46_absent h u) as H. fold c in H. unfold remove_detection.
  destruct (detections c !! u); split; intros P; try done.
  - by apply H in P.
  - by destruct (proj1 H eq_refl).
Qed.
Theorem C46_centroid (h : list (op D)) :
  (get_centroid of_size (after h) = Throw runtime_error ↔ ∀ u, ¬ present d_uuid h u) ∧
  ((∃ u, present d_uuid h u) → ∃ q, get_centroid of_size (after h) = Ok q).
Proof.
  unfold get_centroid. destruct (decide _) as [E|E]; split.
  - split; [|done]. intros _ u. apply (C46_absent h u). by rewrite E, lookup_empty.
  - intros (u & P). exfalso. apply (C46_absent h u); [|done]. by rewrite E, lookup_empty.
  - split; [done|]. intros H. exfalso. apply E, map_empty. intros u. by apply (C46_absent h u).
  - eauto.
Qed.
End Contents.
Print Assumptions C46_contents.
Print Assumptions C46_absent.
Print Assumptions C46_is_empty.
Print Assumptions C46_remove.
Print Assumptions C46_centroid.
(** Added twice, removed, added again: the third one is held. *)
Example C46_case : let d x := at_x uA x 0 in
  detections (run o_uuid pt [Add (d 1%R); Add (d 2%R); Remove uA; Add (d 3%R); Remove uB]) !! uA = Some (d 3%R).
Proof. reflexivity. Qed.

(** C47: the centroid is the mean of the members, in all entries but the heading ... *)
Theorem C47_mean {D} (d_uuid : D → uuid) (fields : D → point reals) (h : list (op D)) (l : list D) (q : point reals) :
  tidy d_uuid h → members (run d_uuid fields h) l → get_centroid (A := reals) INR (run d_uuid fields h) = Ok q →
  p_x q = (total (λ d, p_x (fields d)) l / INR (length l))%R ∧
  p_y q = (total (λ d, p_y (fields d)) l / INR (length l))%R ∧
  p_vel q = (total (λ d, p_vel (fields d)) l / INR (length l))%R ∧
  p_rate q = (total (λ d, p_rate (fields d)) l / INR (length l))%R.
Proof.
  intros H1 H2 H3. destruct (centroid_mean d_uuid fields h l q H1 H2 H3) as (E1 & E2 & E3 & E4 & _). auto.
Qed.
(** ... in particular for the clusters made by cluster_detections. *)
Theorem C47_clusters {D M} (d_uuid : D → uuid) (fields : D → point reals) (below : M → M → bool) thr metric ds cs :
  NoDup (d_uuid <$> ds) → cluster_loop d_uuid fields below thr metric (length ds) ds = Some cs →
  ∀ c q l, c ∈ cs → members c l → get_centroid (A := reals) INR c = Ok q →
  p_x q = (total (λ d, p_x (fields d)) l / INR (length l))%R ∧
  p_y q = (total (λ d, p_y (fields d)) l / INR (length l))%R ∧
  p_vel q = (total (λ d, p_vel (fields d)) l / INR (length l))%R ∧
  p_rate q = (total (λ d, p_rate (fields d)) l / INR (length l))%R.
Proof. exact (clusters_mean d_uuid fields below thr metric ds cs). Qed.
Print Assumptions C47_mean.
Print Assumptions C47_clusters.
Example C47_case : let h := [Add (at_x uA 1 0); Add (at_x uB 2 0); Remove uA; Add (at_x uC 4 0)]%R in
  tidy o_uuid h ∧ members (run o_uuid pt h) [at_x uB 2 0; at_x uC 4 0]%R.
Proof. split; [apply tidy_by; reflexivity|]. unfold members. first [reflexivity|apply Permutation_swap]. Qed.

(** C48: clear keeps the old sum, and adding a uuid twice counts twice. *)
Theorem C48_clear_refuted {D} (d_uuid : D → uuid) (fields : D → point reals) (d1 d2 : D) :
  let c := run d_uuid fields [Add d1; Clear; Add d2] in
  members c [d2] ∧ ∃ q, get_centroid (A := reals) INR c = Ok q ∧ p_x q = (p_x (fields d1) + p_x (fields d2))%R.
Proof. apply centroid_after_clear. Qed.
Theorem C48_duplicate_refuted {D} (d_uuid : D → uuid) (fields : D → point reals) (d1 d2 : D) :
  d_uuid d1 = d_uuid d2 → let c := run d_uuid fields [Add d1; Add d2] in
  members c [d1] ∧ ∃ q, get_centroid (A := reals) INR c = Ok q ∧ p_x q = (p_x (fields d1) + p_x (fields d2))%R.
Proof. apply centroid_after_duplicate. Qed.
Print Assumptions C48_clear_refuted.
Print Assumptions C48_duplicate_refuted.
Example C48_case : let d1 := at_x uA 7 0 in let d2 := at_x uA 1 0 in
  o_uuid d1 = o_uuid d2 ∧ (p_x (pt d1) + p_x (pt d2) ≠ p_x (pt d2))%R ∧ (p_x (pt d1) + p_x (pt d2) ≠ p_x (pt d1))%R.
Proof. cbn. repeat split; lra. Qed.

(** C49: the heading of the centroid is the wrapped sum divided by the number ... *)
Theorem C49_heading {D} (d_uuid : D → uuid) (fields : D → point reals) (h : list (op D)) (l : list D) (q : point reals) :
  tidy d_uuid h → members (run d_uuid fields h) l → get_centroid (A := reals) INR (run d_uuid fields h) = Ok q →
  ∃ w : R, (0 <= w < 2 * PI)%R ∧
    (∃ k : Z, w = (total (λ d, get_angle (p_yaw (fields d))) l + IZR k * (2 * PI))%R) ∧
    get_angle (p_yaw q) = (w / INR (length l))%R.
Proof.
  intros H1 H2 H3. destruct (centroid_mean d_uuid fields h l q H1 H2 H3) as (_ & _ & _ & _ & w & Hw & Hs & E). eauto.
Qed.
(** ... so detections with one heading have a centroid with another heading
    exactly when their headings add up to a turn or more. *)
Theorem C49_common_refuted {D} (d_uuid : D → uuid) (fields : D → point reals) (h : list (op D)) (l : list D)
    (q : point reals) (k : R) :
  tidy d_uuid h → members (run d_uuid fields h) l → get_centroid (A := reals) INR (run d_uuid fields h) = Ok q →
  (∀ d, d ∈ l → get_angle (p_yaw (fields d)) = k) → (0 <= k < 2 * PI)%R →
  get_angle (p_yaw q) ≠ k ↔ (2 * PI <= INR (length l) * k)%R.
Proof.
  intros H1 H2 H3 H4 H5. pose proof (common_heading d_uuid fields h l q k H1 H2 H3 H4 H5) as [E1 E2]. split.
  - intros Hn. destruct (Rlt_le_dec (INR (length l) * k) (2 * PI)); [by destruct (Hn (E2 r))|done].
  - intros Hle He. apply E1 in He. lra.
Qed.
Print Assumptions C49_heading.
Print Assumptions C49_common_refuted.
Example C49_case : let d u := at_x u 0 (3 * PI / 2) in
  ∃ q, get_centroid (A := reals) INR (run o_uuid pt [Add (d uA); Add (d uB)]) = Ok q ∧ get_angle (p_yaw q) = (PI / 2)%R.
Proof. exact two_south. Qed.

(** C75: the metric is documented as comparing the centroid of a cluster with a
    detection; members need not be within the threshold from the centroid. *)
Theorem C75_centroid_refuted (T : R) : (0 < T)%R → ∃ ds c u d q,
  NoDup (o_uuid <$> ds) ∧ clusters T ds = Some [c] ∧ detections c !! u = Some d ∧
  get_centroid (A := reals) INR c = Ok q ∧ (T < distance2 q d)%R.
Proof.
  intros HT. destruct (member_far_from_centroid T HT) as (q & H1 & H2 & H3 & H4).
  eexists _, _, uC, _, q. split; [|eauto]. apply (bool_decide_unpack _); reflexivity.
Qed.
Print Assumptions C75_centroid_refuted.
Example C75_case : (0 < 1)%R.
Proof. lra. Qed.

(** C76: the default metric does not know that headings wrap. *)
Theorem C76_seam_refuted (eps : R) : (0 < eps < 0.1)%R →
  let a := at_x uA 0 eps in let b := at_x uB 0 (- eps) in
  (get_angle (p_yaw (pt b)) = 2 * PI - eps ∧ get_angle (p_yaw (pt a)) = eps)%R ∧
  (36 < distance2 (pt a) b)%R ∧
  ∀ T, (T <= 36)%R → ∃ cs, clusters T [a; b] = Some cs ∧ length cs = 2%nat.
Proof. exact (seam_split eps). Qed.
Print Assumptions C76_seam_refuted.
Example C76_case : (0 < 0.01 < 0.1)%R.
Proof. lra. Qed.
