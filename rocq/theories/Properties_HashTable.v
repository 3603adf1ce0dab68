(** C121: the containers of the library as hash tables. *)
From stdpp Require Import gmap strings.
From Coq Require Import NArith ZArith Lia.
From Verif Require Import Base Uuid OrdMap OrdFacts DynObj TrackManager TrackManagerSpec TrackManagerProofs
  TrackManagerThms TrackManagerExamples Motion Clustering HashTable HashTableThms HashManager HashManagerThms HashTableSpec.

Lemma table_facts {A} string_hash grow (ops : list (table_op A)) :
  let t := table_after string_hash grow ops in
  wf string_hash t ∧ ∀ u, ht_map t !! u = expected ops u.
Proof.
  cbv zeta. induction ops as [|o ops [W IH]] using rev_ind.
  - split; [apply empty_wf|done].
  - unfold table_after, expected in *. rewrite !fold_left_app. cbn [fold_left].
    set (t := fold_left (table_step string_hash grow) ops ht_empty) in *. set (f := fold_left expect_step ops _) in *.
    destruct o as [k a|k a|k a|k|]; cbn [table_step expect_step].
    + destruct (set_facts string_hash grow t k a W) as [W1 E]. split; [done|]. intros u. rewrite E.
      case_decide; [subst; apply lookup_insert|]. by rewrite lookup_insert_ne.
    + destruct (emplace_facts string_hash grow t k a W) as [W1 E]. split; [done|]. intros u. rewrite E.
      case_decide as Hu.
      * subst. rewrite <- IH. destruct (ht_map t !! k) eqn:Ek; [by rewrite Ek|apply lookup_insert].
      * destruct (ht_map t !! k); [done|]. by rewrite lookup_insert_ne.
    + destruct (subscript_facts string_hash grow t k a W) as [W1 E]. split; [done|]. intros u.
      case_decide as Hu.
      * subst. rewrite <- IH. destruct (ht_map t !! k) eqn:Ek; [rewrite E; cbn; by rewrite Ek|].
        destruct E as [_ ->]. apply lookup_insert.
      * destruct (ht_map t !! k); [rewrite E; done|]. destruct E as [_ ->]. by rewrite lookup_insert_ne.
    + split; [by apply erase_wf|]. intros u. rewrite erase_map by done.
      case_decide; [subst; apply lookup_delete|]. by rewrite lookup_delete_ne.
    + split; [apply clear_facts|done].
Qed.

(** Whatever the hash function and the rehash policy, a table holds for every key what
    the operations put there last, finds it, and has one node for it. *)
Theorem C121_table : ∀ A string_hash grow (ops : list (table_op A)),
  let t := table_after string_hash grow ops in
  NoDup (map fst (ht_nodes t)) ∧
  (∀ k, ht_find string_hash k t = expected ops k) ∧
  (∀ k a, In (k, a) (ht_nodes t) ↔ expected ops k = Some a).
Proof.
  intros A string_hash grow ops t. destruct (table_facts string_hash grow ops) as [W E]. fold t in W, E.
  split; [apply W|]. split.
  - intros k. rewrite <- E. by apply ht_find_map.
  - intros k a. rewrite <- E, <- elem_of_list_In. by apply nodes_lookup with (string_hash := string_hash).
Qed.
Print Assumptions C121_table.

(** Erasing keeps the order of the other elements, through a key as through an
    iterator, which afterwards points to the next element; assigning to an element
    keeps the whole order. *)
Theorem C121_order : ∀ A string_hash grow (ops : list (table_op A)),
  let t := table_after string_hash grow ops in
  (∀ k, ht_nodes (ht_erase string_hash k t) = List.filter (fun x => negb (String.eqb (fst x) k)) (ht_nodes t)) ∧
  (∀ it k a, ht_at it t = Some (k, a) →
     ht_erase_at it t = ht_erase string_hash k t ∧ ht_at it (ht_erase_at it t) = ht_at (S it) t) ∧
  (∀ k a b, expected ops k = Some b → map fst (ht_nodes (ht_set string_hash grow k a t)) = map fst (ht_nodes t)).
Proof.
  intros A string_hash grow ops t. destruct (table_facts string_hash grow ops) as [W E]. fold t in W, E.
  split; [|split].
  - intros k. rewrite erase_nodes by done. induction (ht_nodes t) as [|[u a] l IH]; [done|]. cbn.
    destruct (String.eqb_spec u k) as [->|Hu]; cbn; [by rewrite decide_True|]. rewrite decide_False by done. by rewrite IH.
  - intros it k a H. unfold ht_at in H. pose proof (take_drop_middle _ _ _ H) as D.
    assert (it = length (take it (ht_nodes t))) as L.
    { rewrite take_length. apply lookup_lt_Some in H. lia. }
    split.
    + unfold ht_erase_at, ht_erase. f_equal. rewrite (seek_erase_eq string_hash) by apply W.
      rewrite <- (erase_at_without (ht_nodes t) _ _ _ _ (eq_sym D)) by apply W. by rewrite <- L.
    + unfold ht_at, ht_erase_at; cbn [ht_nodes].
      rewrite lookup_app_r by lia. rewrite <- L, Nat.sub_diag, lookup_drop. f_equal. lia.
  - intros k a b H. unfold ht_set. rewrite ht_find_map by done. rewrite E, H. by apply assign_keys.
Qed.
Print Assumptions C121_order.

(** The manager over hash tables reaches a state of the manager over finite maps after
    the same calls; all it answers is what that state answers for one iteration
    order. *)
Theorem C121_manager : ∀ string_hash grow (tt : track_type) p r (h : list (call tt)),
  (p < size_mod)%N → (r < size_mod)%N → Forall (valid_call tt) h →
  let s := fst (hrun string_hash grow tt h (hmgr_init tt p r)) in
  ∃ m, reached tt p r h m ∧
    hm_promo s = m_promo m ∧ hm_removal s = m_removal m ∧
    (∀ u, ht_find string_hash u (hm_tracks s) = m_tracks m !! u ∧
          ht_find string_hash u (hm_statuses s) = m_statuses m !! u ∧
          ht_find string_hash u (hm_occ s) = m_occ m !! u ∧
          hget_occurrences string_hash tt s u = Ok (get_occurrences tt m u)) ∧
    ∃ ord, order_of ord (m_tracks m) ∧
      hget_all_tracks tt s = get_all_tracks tt ord m ∧
      hget_confirmed_tracks string_hash tt s = get_confirmed_tracks tt ord m ∧
      hget_tentative_tracks string_hash tt s = get_tentative_tracks tt ord m.
Proof.
  intros string_hash grow tt p r h Hp Hr Hv s.
  destruct (hrun_refines string_hash grow h (hmgr_init tt p r) (init_ok string_hash p r) Hv) as [R O]. fold s in R, O.
  exists (abs s). split; [by split|]. split; [done|]. split; [done|].
  pose proof O as (O1 & O2 & O3).
  assert (∀ u t, (u, t) ∈ ht_nodes (hm_tracks s) → ht_map (hm_tracks s) !! u = Some t) as N.
  { intros u t Hu. by apply (nodes_lookup string_hash). }
  split.
  - intros u. rewrite !ht_find_map by done. split; [done|]. split; [done|]. split; [done|].
    unfold hget_occurrences, get_occurrences, ht_count. rewrite ht_find_map by done. cbn [abs m_occ].
    by destruct (ht_map (hm_occ s) !! u).
  - exists (ht_nodes (hm_tracks s)).*1. split; [by apply (order_keys string_hash)|]. split; [by apply all_refines|].
    split; by apply collect_refines.
Qed.
Print Assumptions C121_manager.

Lemma outcomes string_hash1 grow1 string_hash2 grow2 (tt : track_type) (h : list (call tt)) s1 s2 p r h0 :
  lawful tt → ok string_hash1 s1 → ok string_hash2 s2 → abs s1 = abs s2 → reached tt p r h0 (abs s1) →
  Forall (valid_call tt) h →
  snd (hrun string_hash1 grow1 tt h s1) = snd (hrun string_hash2 grow2 tt h s2) ∧
  ∀ o, In o (snd (hrun string_hash1 grow1 tt h s1)) → o ≠ UB.
Proof.
  intros L. revert s1 s2 h0. induction h as [|c h IH]; intros s1 s2 h0 O1 O2 E R Hv; [done|].
  apply Forall_cons in Hv as [Hc Hv]. cbn [hrun].
  destruct (step_refines string_hash1 grow1 c s1 O1) as [E1 O1'].
  destruct (step_refines string_hash2 grow2 c s2 O2) as [E2 O2'].
  pose proof (order_for_valid string_hash1 c s1 O1) as V1. pose proof (order_for_valid string_hash2 c s2 O2) as V2.
  destruct (hstep string_hash1 grow1 tt c s1) as [t1 r1]. destruct (hstep string_hash2 grow2 tt c s2) as [t2 r2].
  cbn [fst snd] in *. rewrite <- E in E2, V2.
  assert (reached tt p r (h0 ++ [c]) (abs t1)) as R1.
  { destruct R as (Hp & Hr & R). split; [done|]. split; [done|].
    replace (abs t1) with (fst (step tt (order_for c s1) c (abs s1))) by (by rewrite E1). by constructor. }
  assert (reached tt p r (h0 ++ [c]) (abs t2)) as R2.
  { destruct R as (Hp & Hr & R). split; [done|]. split; [done|].
    replace (abs t2) with (fst (step tt (order_for c s2) c (abs s1))) by (by rewrite E2). by constructor. }
  pose proof (order_irrelevant L _ _ _ _ _ R1 R2) as Ea.
  assert (reachable tt (abs s1)) as Re by (by exists p, r, h0).
  destruct (no_undefined L _ _ _ Re Hc V1) as [U1 Q1]. destruct (no_undefined L _ _ _ Re Hc V2) as [U2 Q2].
  assert (r1 = r2 ∧ r1 ≠ UB) as [-> Hub].
  { rewrite E1, E2 in *. cbn [snd] in *. split; [|done].
    destruct c; cbn [step] in *; try (rewrite Q1, Q2; done); congruence. }
  destruct (IH t1 t2 (h0 ++ [c])%list O1' O2' Ea R1 Hv) as [E3 U3].
  destruct (hrun string_hash1 grow1 tt h t1) as [? rs1]. destruct (hrun string_hash2 grow2 tt h t2) as [? rs2].
  cbn [snd] in *. subst. split; [done|]. intros o [<-|Ho]; [done|]. by apply U3.
Qed.

(** With any two hash functions and rehash policies, a history of calls ends the same
    way call by call, never in undefined behaviour, and leaves the same tracks,
    statuses and counters; the lists of tracks differ at most in their order. *)
Theorem C121_independent : ∀ string_hash1 grow1 string_hash2 grow2 (tt : track_type), lawful tt →
  ∀ p r (h : list (call tt)), (p < size_mod)%N → (r < size_mod)%N → Forall (valid_call tt) h →
  let (s1, o1) := hrun string_hash1 grow1 tt h (hmgr_init tt p r) in
  let (s2, o2) := hrun string_hash2 grow2 tt h (hmgr_init tt p r) in
  o1 = o2 ∧ (∀ o, In o o1 → o ≠ UB) ∧
  hm_promo s1 = hm_promo s2 ∧ hm_removal s1 = hm_removal s2 ∧
  (∀ u, ht_find string_hash1 u (hm_tracks s1) = ht_find string_hash2 u (hm_tracks s2) ∧
        ht_find string_hash1 u (hm_statuses s1) = ht_find string_hash2 u (hm_statuses s2) ∧
        ht_find string_hash1 u (hm_occ s1) = ht_find string_hash2 u (hm_occ s2) ∧
        hget_occurrences string_hash1 tt s1 u = hget_occurrences string_hash2 tt s2 u) ∧
  (∃ l1 l2, hget_all_tracks tt s1 = Ok l1 ∧ hget_all_tracks tt s2 = Ok l2 ∧ Permutation l1 l2) ∧
  (∃ l1 l2, hget_confirmed_tracks string_hash1 tt s1 = Ok l1 ∧ hget_confirmed_tracks string_hash2 tt s2 = Ok l2 ∧
            Permutation l1 l2) ∧
  (∃ l1 l2, hget_tentative_tracks string_hash1 tt s1 = Ok l1 ∧ hget_tentative_tracks string_hash2 tt s2 = Ok l2 ∧
            Permutation l1 l2).
Proof.
  intros string_hash1 grow1 string_hash2 grow2 tt L p r h Hp Hr Hv.
  pose proof (C121_manager string_hash1 grow1 tt p r h Hp Hr Hv) as (m1 & R1 & P1 & Q1 & F1 & ord1 & V1 & G1 & G2 & G3).
  pose proof (C121_manager string_hash2 grow2 tt p r h Hp Hr Hv) as (m2 & R2 & P2 & Q2 & F2 & ord2 & V2 & K1 & K2 & K3).
  pose proof (order_irrelevant L _ _ _ _ _ R1 R2) as <-.
  assert (reached tt p r [] (mgr_init tt p r)) as R0 by (split; [done|split; [done|constructor]]).
  pose proof (outcomes string_hash1 grow1 string_hash2 grow2 tt h (hmgr_init tt p r) (hmgr_init tt p r) p r []
                L (init_ok _ p r) (init_ok _ p r) eq_refl R0 Hv) as [O U].
  destruct (hrun string_hash1 grow1 tt h _) as [s1 o1]. destruct (hrun string_hash2 grow2 tt h _) as [s2 o2].
  cbn [fst snd] in *.
  split; [done|]. split; [done|]. split; [congruence|]. split; [congruence|]. split.
  - intros u. destruct (F1 u) as (-> & -> & -> & ->). destruct (F2 u) as (-> & -> & -> & ->). done.
  - rewrite G1, G2, G3, K1, K2, K3. assert (reachable tt m1) as Re by (by exists p, r, h).
    split; [|split]; (eapply (getter_orders L); [done|done|done|]); rewrite !elem_of_cons; auto.
Qed.
Print Assumptions C121_independent.

Definition habs {A : arith} {D} (c : hcluster A D) : cluster A D := Cluster (hc_sum c) (ht_map (hc_detections c)).

(** Clusters over hash tables, likewise *)
Theorem C121_clusters : ∀ string_hash grow (A : arith) (of_size : nat → num A) D (d_uuid : D → uuid) (fields : D → point A)
    (xs : list (cluster_call D)),
  let (c, o) := hcluster_run d_uuid fields string_hash grow xs hempty_cluster in
  let (m, o') := cluster_run d_uuid fields xs empty_cluster in
  o = o' ∧ hc_sum c = state_sum m ∧ (∀ u, ht_find string_hash u (hc_detections c) = detections m !! u) ∧
  (∀ u d, In (u, d) (ht_nodes (hc_detections c)) ↔ detections m !! u = Some d) ∧
  his_empty c = is_empty m ∧ hget_centroid of_size c = get_centroid of_size m.
Proof.
  intros string_hash grow A of_size D d_uuid fields xs.
  assert (∀ c, wf string_hash (hc_detections c) →
    wf string_hash (hc_detections (hcluster_run d_uuid fields string_hash grow xs c).1) ∧
    cluster_run d_uuid fields xs (habs c) =
      (habs (hcluster_run d_uuid fields string_hash grow xs c).1, (hcluster_run d_uuid fields string_hash grow xs c).2)) as H.
  { induction xs as [|x xs IH]; intros c W; [done|]. cbn [hcluster_run cluster_run].
    assert (wf string_hash (hc_detections (hcluster_step d_uuid fields string_hash grow c x).1) ∧
      cluster_step d_uuid fields (habs c) x =
      (habs (hcluster_step d_uuid fields string_hash grow c x).1, (hcluster_step d_uuid fields string_hash grow c x).2)) as [W1 E1].
    { destruct x as [d|u|]; cbn [hcluster_step cluster_step fst snd].
      - destruct (emplace_facts string_hash grow (hc_detections c) (d_uuid d) d W) as [W1 E]. split; [done|].
        unfold add_detection, habs, hadd_detection; cbn [hc_sum hc_detections state_sum detections]. by rewrite E.
      - unfold hremove_detection, remove_detection. rewrite ht_find_map by done. cbn [habs detections state_sum].
        destruct (ht_map (hc_detections c) !! u); [|done]. cbn [fst snd hc_detections]. split; [by apply erase_wf|].
        unfold habs; cbn [hc_sum hc_detections]. by rewrite erase_map.
      - split; [apply clear_facts|done]. }
    destruct (hcluster_step d_uuid fields string_hash grow c x) as [c1 r1]. cbn [fst snd] in *. rewrite E1.
    destruct (IH c1 W1) as [W2 E2]. rewrite E2.
    destruct (hcluster_run d_uuid fields string_hash grow xs c1) as [c2 r2]. cbn [fst snd] in *. done. }
  destruct (H hempty_cluster (empty_wf string_hash)) as [W E].
  change (habs hempty_cluster) with (empty_cluster (A := A) (D := D)) in E. rewrite E.
  destruct (hcluster_run d_uuid fields string_hash grow xs hempty_cluster) as [c o]. cbn [fst snd] in *. clear E H.
  split; [done|]. split; [done|]. split; [intros u; by apply ht_find_map|].
  split; [intros u d; rewrite <- elem_of_list_In; by apply (nodes_lookup string_hash)|].
  assert (his_empty c = is_empty (habs c)) as Ee.
  { unfold his_empty, is_empty. by rewrite (size_map string_hash). }
  split; [done|]. unfold hget_centroid, get_centroid. rewrite Ee. unfold is_empty.
  cbn [habs detections state_sum]. rewrite (size_map string_hash) by done.
  destruct (decide (ht_map (hc_detections c) = ∅)) as [->|Hne]; [done|].
  destruct (Nat.eqb_spec (size (ht_map (hc_detections c))) 0) as [Hs|Hs]; [|done].
  by apply map_size_empty_iff in Hs.
Qed.
Print Assumptions C121_clusters.

(** Two hash functions and policies that list the same tracks in different orders *)
Definition by_length (u : string) : N := N.of_nat (String.length u).
Definition first_char (u : string) : N := match u with String c _ => Ascii.N_of_ascii c | _ => 0%N end.
Definition one_bucket (_ _ : N) : N := 1%N.
Definition doubling (buckets elements : N) : N := if (buckets <=? elements)%N then (2 * buckets + 1)%N else buckets.
Definition growing (buckets elements : N) : N := (buckets + 1)%N.

Example C121_case :
  let ops := [OSet "a" 1%Z; OSet "bb" 2%Z; OEmplace "a" 7%Z; OSet "c" 3%Z; OErase "bb"; OSubscript "dd" 0%Z] in
  ht_find by_length "a" (table_after by_length one_bucket ops) = Some 1%Z ∧
  ht_find first_char "bb" (table_after first_char doubling ops) = None ∧
  map fst (ht_nodes (table_after by_length one_bucket ops)) = ["dd"; "c"; "a"] ∧
  map fst (ht_nodes (table_after first_char doubling ops)) = ["c"; "dd"; "a"].
Proof. vm_compute. done. Qed.

Example C121_manager_case : Forall (valid_call TZ) h_demo ∧
  let (s1, o1) := hrun by_length one_bucket TZ h_demo (hmgr_init TZ 3 0) in
  let (s2, o2) := hrun first_char growing TZ h_demo (hmgr_init TZ 3 0) in
  o1 = [Ok (); Ok (); Ok (); Ok (); Ok ()] ∧
  hget_all_tracks TZ s1 = Ok [trk "c"; trk "b"; trk "a"] ∧
  hget_all_tracks TZ s2 = Ok [trk "c"; trk "a"; trk "b"] ∧
  hget_confirmed_tracks first_char TZ s2 = Ok [trk "a"].
Proof. split; [apply h_demo_valid|]. vm_compute. done. Qed.

Example C121_clusters_case : ∀ (A : arith) (fields : uuid → point A),
  let (c, o) := hcluster_run (fun u => u) fields first_char doubling
                  [CAdd "a"; CAdd "b"; CAdd "a"; CRemove "x"; CRemove "b"] hempty_cluster in
  o = [Ok (); Ok (); Ok (); Throw out_of_range; Ok ()] ∧
  ht_nodes (hc_detections c) = [("a", "a")] ∧ his_empty c = false.
Proof. intros A fields. vm_compute. done. Qed.
