(** Property C71: one tracking cycle.

    [cycle] (Pipeline.v): list the tracks, predict them, score, gate, associate,
    update the track lists, fuse, store the fused tracks, add the detections
    without association.  [view s u]: track, status and counter stored under [u]
    (TrackManagerSpec.v).  [solver_ok]: contract of dlib's solver
    (MatchingSpec.v). *)
From stdpp Require Import gmap strings list.
From Coq Require Import NArith ZArith Reals Lra.
From Flocq Require Import IEEE754.BinarySingleNaN.
From Verif Require Import Base Uuid OrdMap DynObj Float DlibMatrix Scoring ScoringSpec Matching MatchingSpec
  MatchingExamples Fusing TrackManager TrackManagerSpec TrackManagerProofs TrackManagerThms TrackManagerExamples
  Pipeline PipelineAssoc PipelineThms RealArith StateVec FusionVisitor PipelineLibrary.
Local Open Scope nat_scope.
Local Open Scope list_scope.

(** The association map speaks about the given tracks and detections only: one
    entry per track, one detection per entry, no detection twice. *)
Theorem C71_uuids (Trk Det : Type) (tu : Trk → uuid) (du : Det → uuid) (metric : Trk → Det → option f32)
    (should_prune : f32 → bool) solve (tracks : list Trk) (detections : list Det) a :
  solver_ok solve → (N.of_nat (length tracks * length detections) < 2 ^ 63)%N →
  associate tu du metric should_prune solve tracks detections = Ok a →
  List.NoDup (map fst a) ∧ List.NoDup (concat (map snd a)) ∧
  ∀ t l, In (t, l) a → ∃ trk det, In trk tracks ∧ tu trk = t ∧ In det detections ∧ l = [du det].
Proof.
  intros S B H. destruct (associate_spec tu du metric should_prune solve tracks detections a S B H) as (W & [O1 O2] & P).
  split; [apply (OrdFacts.om_wf_nodup _ OrdFacts.bytes_total), W|]. split; [|exact P].
  assert (concat (map snd a) = map snd (assoc_pairs a)) as ->; [|exact O2].
  clear. unfold assoc_pairs. induction a as [|[t l] a IH]; [done|]. cbn. rewrite map_app, IH, map_map. cbn.
  by rewrite map_id.
Qed.

(** One fused track per association, with the uuid of its track. *)
Theorem C71_fused (Trk Det : Type) (tu : Trk → uuid) (du : Det → uuid) (metric : Trk → Det → option f32)
    (should_prune : f32 → bool) solve (visit : Trk → Det → result Trk)
    (tracks : list Trk) (detections : list Det) a fused :
  solver_ok solve → (N.of_nat (length tracks * length detections) < 2 ^ 63)%N →
  List.NoDup (map tu tracks) → List.NoDup (map du detections) →
  (∀ t d f, visit t d = Ok f → tu f = tu t) →
  associate tu du metric should_prune solve tracks detections = Ok a →
  fuse_associations tu du visit a tracks detections = Ok fused →
  map tu fused = map fst a ∧
  Forall2 (λ e f, ∃ trk det, In trk tracks ∧ In det detections ∧ e = (tu trk, [du det]) ∧ visit trk det = Ok f) a fused.
Proof.
  intros S B N M V H F. destruct (associate_spec tu du metric should_prune solve tracks detections a S B H) as (_ & _ & P).
  apply fuse_each in F; [|done|done|].
  - split.
    + induction F as [|e f a fused (t & d & (_ & _ & ->) & E) F IH]; [done|]. cbn. rewrite (V t d f E). f_equal.
      clear -F V. induction F as [|e f a fused (t & d & (_ & _ & ->) & E) F IH]; [done|]. cbn. by rewrite (V t d f E), IH.
    + eapply Forall2_impl; [exact F|]. intros e f (t & d & (Ht & Hd & E) & Hv). eauto 8.
  - intros [t l] Hin. apply P in Hin as (t' & d & Ht & <- & Hd & ->). exists t', d. done.
Qed.

(** HasAssociation separates the detections into those fused and the others. *)
Theorem C71_separates (Trk Det : Type) (tu : Trk → uuid) (du : Det → uuid) (metric : Trk → Det → option f32)
    (should_prune : f32 → bool) solve (tracks : list Trk) (detections : list Det) a :
  solver_ok solve → (N.of_nat (length tracks * length detections) < 2 ^ 63)%N →
  associate tu du metric should_prune solve tracks detections = Ok a →
  ∀ d, In d detections →
    (In d (left_over du a detections) ↔ ¬ ∃ trk, In trk tracks ∧ In (tu trk, [du d]) a).
Proof.
  intros S B H d Hd. destruct (associate_spec tu du metric should_prune solve tracks detections a S B H) as (_ & _ & P).
  rewrite left_over_spec. split.
  - intros [_ N] (t & _ & Hin). apply N. exists (tu t), [du d]. split; [done|]. by left.
  - intros N. split; [done|]. intros (t & l & Hin & Hl). destruct (P t l Hin) as (t' & d' & Ht & <- & Hd' & ->).
    destruct Hl as [E|[]]. apply N. exists t'. split; [done|]. by rewrite <- E.
Qed.

(** ** The whole cycle *)
Section Cycle.
  Context {trk : track_type} {Det : Type} (du : Det → uuid) (new_track : Det → trk) (predict : trk → trk)
    (metric : trk → Det → option f32) (should_prune : f32 → bool) (solve : mat Z → list Z)
    (visit : trk → Det → result trk).
  Let run_cycle := cycle trk du new_track predict metric should_prune solve visit.
  Let associated stored detections a :=
    associate tt_uuid du metric should_prune solve (map predict stored) detections = Ok a.

  (** What becomes of the entry [e] managed under [u]; [o] is what is managed
      after the cycle.  update_track copies the fused track [f] into the stored
      one. *)
  Definition becomes (s : mgr trk) (a : association_map) (detections : list Det) (u : uuid) (e : entry trk)
      (o : option (entry trk)) : Prop :=
    let p := m_promo s in let r := m_removal s in
    (In u (map fst a) → let n := N.min (e_count e + 1) p in
       ∃ d f, In d detections ∧ In (u, [du d]) a ∧ visit (predict (e_track e)) d = Ok f ∧
         o = Some (Entry (fst (run_steps trk (tt_copy f) (e_track e)))
                     (if decide (p ≤ n)%N then Confirmed else e_status e) n)) ∧
    (¬ In u (map fst a) → let n := (e_count e - 1)%N in
       o = if decide (n ≤ r)%N then None
           else Some (Entry (e_track e) (if decide (p ≤ n)%N then Confirmed else e_status e) n)).

  Theorem C71_cycle ord1 ord2 detections (s : mgr trk) stored a fused :
    lawful trk → solver_ok solve →
    (∀ d, tt_uuid (new_track d) = du d) → (∀ t, tt_uuid (predict t) = tt_uuid t) →
    (∀ t d f, visit (predict t) d = Ok f → tt_uuid f = tt_uuid t ∧ snd (run_steps trk (tt_copy f) t) = Ok ()) →
    reachable trk s → order_of ord1 (m_tracks s) → order_of ord2 (m_occ s) →
    List.NoDup (map du detections) → (∀ d, In d detections → view s (du d) = None) →
    (N.of_nat (length ord1 * length detections) < 2 ^ 63)%N →
    (m_removal s < m_promo s)%N → (∀ u e, view s u = Some e → (m_removal s ≤ e_count e < 2 ^ 64 - 1)%N) →
    get_all_tracks trk ord1 s = Ok stored → associated stored detections a →
    fuse_associations tt_uuid du visit a (map predict stored) detections = Ok fused →
    ∃ s', run_cycle ord1 ord2 detections s = (s', Ok ()) ∧ reachable trk s' ∧
      m_promo s' = m_promo s ∧ m_removal s' = m_removal s ∧
      (∀ u e, view s u = Some e → becomes s a detections u e (view s' u)) ∧
      (∀ d, In d detections →
         ((∃ u, In (u, [du d]) a) → view s' (du d) = None) ∧
         ((¬ ∃ u, In (u, [du d]) a) → view s' (du d) = Some (Entry (new_track d) Tentative 1%N))) ∧
      (∀ u, view s u = None → ¬ In u (map du detections) → view s' u = None).
  Proof.
    intros L S Hn Hp Hv Hr H1 H2 Nd Hnew B T C G A F.
    destruct (cycle_view L du new_track predict metric should_prune solve visit Hn Hp S
      ord1 ord2 detections s stored a fused Hr H1 H2) as (s' & E & Hr' & Ep & Er & V1 & V2 & V3); try done.
    { by apply nodup_list. }
    { intros d Hd. apply Hnew. by apply in_elem. }
    exists s'. split; [exact E|]. split; [done|]. split; [done|]. split; [done|]. split; [|split].
    - intros u e He. destruct (V1 u e He) as [W1 W2]. split.
      + intros Hu. apply in_elem in Hu. destruct (W1 Hu) as (d & f & Hd & Ha & Hf & ->).
        exists d, f. rewrite !in_elem. done.
      + intros Hu n. apply W2. by rewrite <- in_elem.
    - intros d Hd. apply in_elem in Hd. destruct (V2 d Hd) as [W1 W2]. split.
      + intros [u Hu]. apply W1. exists u. by apply in_elem.
      + intros N. apply W2. intros [u Hu]. apply N. exists u. by apply in_elem.
    - intros u Hu N. apply V3; [done|]. by rewrite <- in_elem.
  Qed.

  (** The steps are defined when the fusion visitor is, the remaining scores are
      finite and not negative, and one of them is positive. *)
  Theorem C71_defined ord detections (s : mgr trk) stored :
    lawful trk → solver_ok solve → (∀ t, tt_uuid (predict t) = tt_uuid t) →
    reachable trk s → order_of ord (m_tracks s) → List.NoDup (map du detections) →
    (N.of_nat (length ord * length detections) < 2 ^ 63)%N → get_all_tracks trk ord s = Ok stored →
    (∀ t d, In t stored → In d detections → ∃ f, visit (predict t) d = Ok f) →
    (∀ t d v, In t stored → In d detections → metric (predict t) d = Some v → should_prune v = false → ordinary v) →
    (∃ t d v, In t stored ∧ In d detections ∧ metric (predict t) d = Some v ∧ should_prune v = false ∧ (0 < B2R v)%R) →
    ∃ a fused, associated stored detections a ∧
      fuse_associations tt_uuid du visit a (map predict stored) detections = Ok fused.
  Proof.
    intros L S Hp Hr Ho Nd B G V O (t & d & v & Ht & Hd & P).
    apply (cycle_defined L du predict metric should_prune solve visit Hp S ord detections s stored); try done.
    - by apply nodup_list.
    - intros ? ? ? ?. apply V; by apply in_elem.
    - intros ? ? ? ? ?. apply O; by apply in_elem.
    - exists t, d, v. rewrite <- !in_elem. done.
  Qed.

  (** With a promotion threshold not above the removal threshold the cycle ends
      with an exception. *)
  Theorem C71_inverted_thresholds ord1 ord2 detections (s : mgr trk) stored a fused :
    lawful trk → solver_ok solve → (∀ t, tt_uuid (predict t) = tt_uuid t) →
    (∀ t d f, visit (predict t) d = Ok f → tt_uuid f = tt_uuid t) →
    reachable trk s → order_of ord1 (m_tracks s) → order_of ord2 (m_occ s) → List.NoDup (map du detections) →
    (N.of_nat (length ord1 * length detections) < 2 ^ 63)%N → (m_promo s ≤ m_removal s)%N →
    get_all_tracks trk ord1 s = Ok stored → associated stored detections a →
    fuse_associations tt_uuid du visit a (map predict stored) detections = Ok fused →
    ∃ s', run_cycle ord1 ord2 detections s = (s', Throw out_of_range).
  Proof.
    intros L S Hp Hv Hr H1 H2 Nd B T G A F.
    apply (cycle_inverted L du new_track predict metric should_prune solve visit Hp S
      ord1 ord2 detections s stored a fused); try done. by apply nodup_list.
  Qed.

  (** When gating leaves no pair, in particular when the manager is empty or there
      is no detection, the cycle is undefined. *)
  Theorem C71_no_pair_undefined ord1 ord2 detections (s : mgr trk) stored :
    get_all_tracks trk ord1 s = Ok stored →
    (∀ t d v, In t stored → In d detections → metric (predict t) d = Some v → should_prune v = true) →
    run_cycle ord1 ord2 detections s = (s, UB).
  Proof.
    intros G N. apply cycle_nothing with stored; [exact G|]. intros t d v Ht Hd. apply N; by apply in_elem.
  Qed.
End Cycle.

(** ** With the objects of the library
    [p1], [p2]: propagators of the two motion models; fusion by covariance
    intersection.  The fused track replaces the stored one. *)
Theorem C71_library p1 p2 (now : R) (metric : lib_track → lib_obj → option f32) should_prune solve
    ord1 ord2 (detections : list lib_obj) (s : mgr lib_track) stored :
  solver_ok solve → reachable lib_track s → order_of ord1 (m_tracks s) → order_of ord2 (m_occ s) →
  List.NoDup (map v_uuid detections) → (∀ d, In d detections → view s (v_uuid d) = None) →
  (N.of_nat (length ord1 * length detections) < 2 ^ 63)%N →
  (m_removal s < m_promo s)%N → (∀ u e, view s u = Some e → (m_removal s ≤ e_count e < 2 ^ 64 - 1)%N) →
  get_all_tracks lib_track ord1 s = Ok stored →
  let predict := lib_predict p1 p2 now in
  (∀ t d, In t stored → In d detections → same_model t d) →
  (∀ t d v, In t stored → In d detections → metric (predict t) d = Some v → should_prune v = false → ordinary v) →
  (∃ t d v, In t stored ∧ In d detections ∧ metric (predict t) d = Some v ∧ should_prune v = false ∧ (0 < B2R v)%R) →
  ∃ a s', associate v_uuid v_uuid metric should_prune solve (map predict stored) detections = Ok a ∧
    cycle lib_track v_uuid (λ d, d) predict metric should_prune solve lib_visit ord1 ord2 detections s = (s', Ok ()) ∧
    reachable lib_track s' ∧
    (∀ u e, view s u = Some e →
       (In u (map fst a) → let n := N.min (e_count e + 1) (m_promo s) in
          ∃ d f, In d detections ∧ In (u, [v_uuid d]) a ∧
            covariance_intersection_visitor (predict (e_track e)) d = Ok f ∧
            view s' u = Some (Entry (f : lib_track) (if decide (m_promo s ≤ n)%N then Confirmed else e_status e) n)) ∧
       (¬ In u (map fst a) → let n := (e_count e - 1)%N in
          view s' u = if decide (n ≤ m_removal s)%N then None
            else Some (Entry (e_track e) (if decide (m_promo s ≤ n)%N then Confirmed else e_status e) n))) ∧
    (∀ d, In d detections →
       ((∃ u, In (u, [v_uuid d]) a) → view s' (v_uuid d) = None) ∧
       ((¬ ∃ u, In (u, [v_uuid d]) a) → view s' (v_uuid d) = Some (Entry (d : lib_track) Tentative 1%N))) ∧
    (∀ u, view s u = None → ¬ In u (map v_uuid detections) → view s' u = None).
Proof.
  intros S Hr H1 H2 Nd Hnew B T C G predict M O X.
  pose proof (variant_lawful R ctrvR cov5 ctraR cov6) as L. fold lib_track in L.
  destruct (C71_defined (trk := lib_track) v_uuid predict metric should_prune solve lib_visit ord1 detections s stored)
    as (a & fused & A & F); try done.
  { intros t. apply lib_predict_uuid. }
  { intros t d Ht Hd. apply lib_defined. by apply M. }
  destruct (C71_cycle (trk := lib_track) v_uuid (λ d, d) predict metric should_prune solve lib_visit
    ord1 ord2 detections s stored a fused) as (s' & E & Hr' & _ & _ & V1 & V2 & V3); try done.
  { intros t. apply lib_predict_uuid. }
  { intros t d f V. apply lib_fused in V as (U & K & _). done. }
  exists a, s'. split; [exact A|]. split; [exact E|]. split; [done|]. split; [|done].
  intros u e He. destruct (V1 u e He) as [W1 W2]. split; [|exact W2].
  intros Hu n. destruct (W1 Hu) as (d & f & Hd & Ha & Hf & ->). exists d, f.
  split; [done|]. split; [done|]. split; [exact Hf|].
  apply lib_fused in Hf as (_ & _ & K). unfold copied in K. by rewrite K.
Qed.

(** ** Examples
    Two tracks at 0 and 10 on a line, three detections at 11, 1 and 50; the
    fused state is that of the detection, gating at 30. *)
Open Scope string_scope.
Definition at_ (u : uuid) (x : Z) : dyn_obj Z Z Z := DynObj 0%Z x 0%Z u kUnknown.
Definition far (t d : dyn_obj Z Z Z) : option f32 := Some (f32_of_Z (Z.abs (o_state t - o_state d))).
Definition above30 (v : f32) : bool := f32_gtb v (f32_of_Z 30).
Definition take_detection (t d : dyn_obj Z Z Z) : result (dyn_obj Z Z Z) :=
  Ok (set_timestamp (set_state t (o_state d)) (o_timestamp d)).
Definition two_tracks : mgr TZ := exec [Add (at_ "a" 0 : TZ); Add (at_ "b" 10 : TZ)] (mgr_init TZ 2 0).
Definition three_detections : list (dyn_obj Z Z Z) := [at_ "x" 11; at_ "y" 1; at_ "z" 50].
Definition one_cycle ord s := cycle TZ o_uuid (λ d, d) (λ t, t) far above30 try_all take_detection ord ord three_detections s.

Lemma two_tracks_reachable : reachable TZ two_tracks.
Proof. apply reachable_exec; [done|done|]. repeat constructor. Qed.
Definition ab : list uuid := (map_to_list (m_tracks two_tracks)).*1.
Lemma two_tracks_order : order_of ab (m_tracks two_tracks) ∧ order_of ab (m_occ two_tracks) ∧ ab ≡ₚ ["a"; "b"].
Proof.
  split; [apply some_order|]. split.
  - assert (ab = (map_to_list (m_occ two_tracks)).*1) as -> by (vm_compute; reflexivity). apply some_order.
  - vm_compute. first [reflexivity|apply Permutation_swap].
Qed.

Example C71_case :
  (∃ stored a fused, get_all_tracks TZ ab two_tracks = Ok stored ∧
     associate o_uuid o_uuid far above30 try_all stored three_detections = Ok a ∧
     a = [("a", ["y"]); ("b", ["x"])] ∧
     fuse_associations o_uuid o_uuid take_detection a stored three_detections = Ok fused) ∧
  left_over o_uuid [("a", ["y"]); ("b", ["x"])] three_detections = [at_ "z" 50] ∧
  (m_removal two_tracks < m_promo two_tracks)%N ∧
  snd (one_cycle ab two_tracks) = Ok () ∧
  let s' := fst (one_cycle ab two_tracks) in
  view s' "a" = Some (Entry (at_ "a" 1 : TZ) Confirmed 2%N) ∧
  view s' "b" = Some (Entry (at_ "b" 11 : TZ) Confirmed 2%N) ∧
  view s' "z" = Some (Entry (at_ "z" 50 : TZ) Tentative 1%N) ∧ view s' "x" = None ∧ view s' "y" = None.
Proof. split; [do 3 eexists; split; [reflexivity|]; vm_compute; done|]. vm_compute. done. Qed.

(** The same cycle with equal thresholds, and with a gate that no pair passes. *)
Example C71_bad_cases :
  let swapped := Mgr 2 2 (m_tracks two_tracks) (m_statuses two_tracks) (m_occ two_tracks) in
  snd (one_cycle ab swapped) = Throw out_of_range ∧
  cycle TZ o_uuid (λ d, d) (λ t, t) far (λ _, true) try_all take_detection ab ab three_detections two_tracks = (two_tracks, UB).
Proof. vm_compute. done. Qed.

(** The hypotheses of the library theorem can be met. *)
Example C71_library_case (o d : dyn_obj R ctrvR cov5) : o_uuid o = "a" → o_uuid d = "x" →
  let s := exec [Add (Ctrv o : lib_track)] (mgr_init lib_track 2 0) in
  let near := λ (_ : lib_track) (_ : lib_obj), Some (f32_of_Z 3) in
  reachable lib_track s ∧ (∃ st n, view s "a" = Some (Entry (Ctrv o : lib_track) st n)) ∧ view s "x" = None ∧
  (m_removal s < m_promo s)%N ∧
  (∃ ord, get_all_tracks lib_track ord s = Ok [Ctrv o : lib_track] ∧ order_of ord (m_tracks s) ∧ order_of ord (m_occ s)) ∧
  (∀ v, near (Ctrv o) (Ctrv d) = Some v → above30 v = false ∧ ordinary v ∧ (0 < B2R v)%R).
Proof.
  intros Ho Hd s near.
  assert (s = Mgr 2 0 (<["a" := Ctrv o : lib_track]> ∅) (<["a" := Tentative]> ∅) (<["a" := 1%N]> ∅)) as Es.
  { unfold s, exec. cbn [foldl]. unfold exec1. cbn [step]. unfold add_tentative_track.
    change (tt_uuid (Ctrv o : lib_track)) with (o_uuid o). rewrite Ho. unfold mgr_init. cbn [m_tracks m_promo m_removal m_statuses m_occ].
    rewrite lookup_empty. done. }
  assert (∀ u, view s u = if decide (u = "a") then Some (Entry (Ctrv o : lib_track) Tentative 1%N) else None) as Hv.
  { intros u. rewrite Es. unfold view. cbn [m_tracks m_statuses m_occ]. destruct (decide (u = "a")) as [->|N].
    - by rewrite !lookup_insert.
    - by rewrite !lookup_insert_ne by done. }
  assert (reachable lib_track s) as Hr by (apply reachable_exec; [done|done|]; repeat constructor).
  split; [done|]. split; [rewrite Hv; eauto|]. split; [rewrite Hv; done|]. split; [rewrite Es; done|]. split.
  - exists ["a"]. rewrite Es. cbn [get_all_tracks m_tracks m_occ]. rewrite lookup_insert. split; [done|].
    split; (split; [apply NoDup_singleton|]); intros u; rewrite elem_of_list_singleton; cbn;
      (split; [intros ->; rewrite lookup_insert; eauto|]); intros [x Hx];
      apply lookup_insert_Some in Hx as [[? _]|[_ Hx]]; done.
  - intros v H. assert (v = f32_of_Z 3) as -> by (exact (eq_sym (f_equal (λ o, default v o) H))). destruct (f32_small 3 ltac:(done)) as [E Fin].
    split; [vm_compute; done|]. split; [|rewrite E; lra]. split; [exact Fin|rewrite E; lra].
Qed.

Print Assumptions C71_uuids.
Print Assumptions C71_fused.
Print Assumptions C71_separates.
Print Assumptions C71_cycle.
Print Assumptions C71_defined.
Print Assumptions C71_inverted_thresholds.
Print Assumptions C71_no_pair_undefined.
Print Assumptions C71_library.
