(** Properties C102 and C103: gnn_associator with the solver of dlib (Assignment.v)
    instead of a solver that is assumed to meet its contract.

    [int_checked]: an addition or subtraction whose result is not an int is an
    overflow.  [int_wrapping]: it wraps around.  [max_assignment], [one_to_one],
    [total_score], [usable]: MatchingSpec.v. *)
From Coq Require Import String List ZArith NArith Permutation Arith Lia Bool Reals Lra.
From Flocq Require Import Core IEEE754.BinarySingleNaN.
From Verif Require Import Base Uuid OrdMap OrdFacts Float DlibMatrix Scoring Matching MatchingSpec
  Pipeline PipelineAssoc AssignProofs MatchingThms MatchingExamples Assignment AssignmentThms.
Import ListNotations.
Open Scope string_scope.
Open Scope list_scope.
Open Scope nat_scope.

(** ** C102.  The solver is right, and does not overflow, when the elements of the
    first rows are at least 0 and below 2^30 and all other rows are padded. *)
Theorem C102_solver : forall (m : mat Z) (rows : nat), rows <= nr m ->
  (forall i j, i < rows -> j < nr m -> exists z, elem m i j = Some z /\ (0 <= z < 2 ^ 30)%Z) ->
  (forall i j, rows <= i < nr m -> j < nr m -> elem m i j = Some int_lowest) ->
  exists s, dlib_solve int_checked m = Done (map Z.of_nat s) /\ max_assignment m s.
Proof.
  intros m rows H1 H2 H3. apply (dlib_solve_ok int_checked m rows (2 ^ 30 - 1)).
  - apply int_checked_ok.
  - exact H1.
  - lia.
  - intros i j Hi Hj. destruct (H2 i j Hi Hj) as (z & E & B). exists z. split; [exact E|lia].
  - exact H3.
Qed.
Print Assumptions C102_solver.

(** With no more tracks than detections the association is one that a solver meeting
    the contract gives: C26 - C30 and C72 hold for it. *)
Theorem C102_contract : forall scores : score_map f32, usable scores ->
  length (tracks_of scores) <= length (detections_of scores) ->
  exists solve, solver_ok solve /\ gnn_associator_dlib int_checked scores = gnn_associator solve scores.
Proof.
  intros scores Hu Hle. exists (dlib_or_try_all int_checked). split; [apply dlib_or_try_all_ok|].
  apply gnn_dlib_ok; [apply int_checked_ok|exact Hu|exact Hle].
Qed.
Print Assumptions C102_contract.

(** Spelled out *)
Theorem C102_one_to_one : forall scores : score_map f32, usable scores -> small_map scores ->
  length (tracks_of scores) <= length (detections_of scores) ->
  exists a, gnn_associator_dlib int_checked scores = Ok a /\
    one_to_one (assoc_pairs a) /\
    (forall t, In t (tracks_of scores) -> exists d, In (t, d) (assoc_pairs a) /\ In d (detections_of scores)) /\
    length (assoc_pairs a) = length (tracks_of scores).
Proof.
  intros scores Hu Hs Hle. destruct (C102_contract scores Hu Hle) as (solve & Hok & E).
  destruct (usable_defined solve scores Hok Hs Hu) as (a & Ea). exists a. split; [congruence|].
  destruct (gnn_one_to_one solve scores a Hok Hs Ea) as (_ & _ & H1 & H2 & H3 & H4).
  assert (L : length (assoc_pairs a) = length (tracks_of scores)) by lia.
  split; [exact H1|]. split; [|exact L]. intros t Ht.
  assert (In t (map fst (assoc_pairs a))) as Hin.
  { apply (NoDup_length_incl (l := map fst (assoc_pairs a)) (l' := tracks_of scores)); [apply H1|rewrite map_length; lia| |exact Ht].
    intros t' Ht'. apply in_map_iff in Ht' as ([t'' d] & <- & Hin). apply (H2 t'' d Hin). }
  apply in_map_iff in Hin as ([t' d] & <- & Hin). exists d. split; [exact Hin|]. apply (H2 t' d Hin).
Qed.
Print Assumptions C102_one_to_one.

Theorem C102_optimal : forall scores : score_map f32,
  small_map scores -> map_wf scores -> complete scores ->
  (forall k v, In (k, v) scores -> ordinary v) ->
  (exists k v, In (k, v) scores /\ (0 < B2R v)%R) ->
  length (tracks_of scores) <= length (detections_of scores) ->
  exists a, gnn_associator_dlib int_checked scores = Ok a /\
    forall l top,
      one_to_one l -> length l = length (assoc_pairs a) ->
      (forall t d, In (t, d) l -> exists v, In ((t, d), v) scores) ->
      (exists k v, In (k, v) scores /\ top = B2R v) ->
      (forall k v, In (k, v) scores -> (B2R v <= top)%R) ->
      (total_score scores (assoc_pairs a) <=
       total_score scores l + 21 / 100000000 * top * INR (length (assoc_pairs a)))%R.
Proof.
  intros scores Hs Hw Hc Ho Hp Hle.
  assert (Hu : usable scores).
  { split; [exact Hw|]. split; [destruct Hp as (k & v & H & _); intros ->; destruct H|]. split; [exact Ho|]. left. exact Hp. }
  destruct (C102_contract scores Hu Hle) as (solve & Hok & E).
  destruct (gnn_optimal solve scores Hok Hs Hw Hc Ho Hp) as (a & Ea & Ha). exists a. split; [congruence|exact Ha].
Qed.
Print Assumptions C102_optimal.

(** Scoring, gating and association with dlib's solver: as with some solver that
    meets the contract (C71), if there are no more tracks than detections and every
    detection has passed the gate with some track. *)
Theorem C102_scene (Trk Det : Type) (tu : Trk -> uuid) (du : Det -> uuid) (metric : Trk -> Det -> option f32)
    (should_prune : f32 -> bool) (tracks : list Trk) (detections : list Det) :
  NoDup (map tu tracks) -> NoDup (map du detections) ->
  (forall t d v, In t tracks -> In d detections -> metric t d = Some v -> should_prune v = false -> ordinary v) ->
  (exists t d v, In t tracks /\ In d detections /\ metric t d = Some v /\ should_prune v = false /\ (0 < B2R v)%R) ->
  (forall d, In d detections -> exists t v, In t tracks /\ metric t d = Some v /\ should_prune v = false) ->
  length tracks <= length detections ->
  exists solve, solver_ok solve /\
    gnn_associator_dlib int_checked
      (prune_track_and_detection_scores_if should_prune (score_tracks_and_detections tu du metric tracks detections)) =
    associate tu du metric should_prune solve tracks detections.
Proof.
  intros N1 N2 O P A L. apply (C102_contract (gated tu du metric should_prune tracks detections)).
  - now apply scene_usable.
  - pose proof (gated_tracks_le tu du metric should_prune tracks detections).
    pose proof (gated_detections_all tu du metric should_prune tracks detections N1 N2 A). lia.
Qed.
Print Assumptions C102_scene.
Example C102_case : usable full /\ length (tracks_of full) <= length (detections_of full) /\
  gnn_associator_dlib int_checked full = Ok [("t1", ["d2"]); ("t2", ["d1"])].
Proof.
  split; [|split; [cbn; lia|vm_compute; reflexivity]]. split; [exact wf_full|]. split; [discriminate|]. split; [apply full_ok|].
  left. exists ("t1", "d1"), (f32_of_Z 5). split; [left; reflexivity|]. rewrite (proj1 (f32_small 5 eq_refl)). lra.
Qed.

(** ** C103.  With more tracks than detections dlib overflows. *)
Theorem C103_overflow : forall (m : mat Z) j z j',
  j < nr m -> elem m 0 j = Some z -> (0 <= z)%Z -> j' < nr m -> elem m 0 j' = Some int_lowest ->
  dlib_solve int_checked m = Overflow.
Proof. intros m j z j' Hj Ej Hz Hj' Ej'. apply dlib_solve_overflow; eauto. Qed.
Print Assumptions C103_overflow.
Theorem C103_more_tracks_undefined : forall scores : score_map f32, usable scores ->
  length (detections_of scores) < length (tracks_of scores) ->
  gnn_associator_dlib int_checked scores = UB.
Proof. exact gnn_dlib_undefined. Qed.
Print Assumptions C103_more_tracks_undefined.

(** Scoring, gating and association: undefined if there are more tracks than
    detections and every track has passed the gate with some detection. *)
Theorem C103_scene (Trk Det : Type) (tu : Trk -> uuid) (du : Det -> uuid) (metric : Trk -> Det -> option f32)
    (should_prune : f32 -> bool) (tracks : list Trk) (detections : list Det) :
  NoDup (map tu tracks) -> NoDup (map du detections) ->
  (forall t d v, In t tracks -> In d detections -> metric t d = Some v -> should_prune v = false -> ordinary v) ->
  (exists t d v, In t tracks /\ In d detections /\ metric t d = Some v /\ should_prune v = false /\ (0 < B2R v)%R) ->
  (forall t, In t tracks -> exists d v, In d detections /\ metric t d = Some v /\ should_prune v = false) ->
  length detections < length tracks ->
  gnn_associator_dlib int_checked
    (prune_track_and_detection_scores_if should_prune (score_tracks_and_detections tu du metric tracks detections)) = UB.
Proof.
  intros N1 N2 O P A L. apply (C103_more_tracks_undefined (gated tu du metric should_prune tracks detections)).
  - now apply scene_usable.
  - pose proof (gated_detections_le tu du metric should_prune tracks detections).
    pose proof (gated_tracks_all tu du metric should_prune tracks detections N1 N2 A). lia.
Qed.
Print Assumptions C103_scene.

(** Two tracks near both detections, a third track far away. *)
Definition crowd : score_map f32 :=
  [(("t1", "d1"), f32_of_Z 0); (("t1", "d2"), f32_of_Z 1);
   (("t2", "d1"), f32_of_Z 0); (("t2", "d2"), f32_of_Z 1);
   (("t3", "d1"), f32_of_Z 10); (("t3", "d2"), f32_of_Z 10)].
Lemma crowd_ok k v : In (k, v) crowd -> ordinary v.
Proof.
  intros H. cbn [In crowd] in H.
  repeat (destruct H as [H|H]; [apply pair_equal_spec in H as [H <-]; clear H|]); [..|destruct H];
    match goal with |- ordinary (f32_of_Z ?z) => destruct (f32_small z ltac:(lia)) as [E F]; split; [exact F|rewrite E; lra] end.
Qed.
Lemma crowd_usable : usable crowd.
Proof.
  split; [repeat split|]. split; [discriminate|]. split; [exact crowd_ok|].
  left. exists ("t3", "d1"), (f32_of_Z 10). split; [cbn; auto 10|]. rewrite (proj1 (f32_small 10 eq_refl)). lra.
Qed.
Lemma crowd_complete : complete crowd.
Proof.
  intros t d Ht Hd. cbn in Ht, Hd.
  destruct Ht as [<-|[<-|[<-|[]]]], Hd as [<-|[<-|[]]]; eexists; cbn; eauto 10.
Qed.

(** The association is also wrong when overflow wraps around. *)
Theorem C103_optimal_with_more_tracks_refuted :
  exists (scores : score_map f32) a l,
    usable scores /\ complete scores /\ length (detections_of scores) < length (tracks_of scores) /\
    gnn_associator_dlib int_wrapping scores = Ok a /\
    one_to_one l /\ length l = length (assoc_pairs a) /\
    (forall t d, In (t, d) l -> exists v, In ((t, d), v) scores) /\
    (10 * total_score scores l <= total_score scores (assoc_pairs a))%R /\ (0 < total_score scores l)%R.
Proof.
  exists crowd, [("t1", ["d1"]); ("t3", ["d2"])], [("t1", "d1"); ("t2", "d2")].
  split; [exact crowd_usable|]. split; [exact crowd_complete|]. split; [cbn; lia|]. split; [vm_compute; reflexivity|].
  split; [split; repeat constructor; cbn; intuition discriminate|]. split; [reflexivity|].
  split; [intros t d [[= <- <-]|[[= <- <-]|[]]]; eexists; cbn; eauto|].
  change (10 * (B2R (f32_of_Z 0) + (B2R (f32_of_Z 1) + 0)) <= B2R (f32_of_Z 0) + (B2R (f32_of_Z 10) + 0) /\
    0 < B2R (f32_of_Z 0) + (B2R (f32_of_Z 1) + 0))%R.
  rewrite (proj1 (f32_small 0 eq_refl)), (proj1 (f32_small 1 eq_refl)), (proj1 (f32_small 10 eq_refl)). lra.
Qed.
Print Assumptions C103_optimal_with_more_tracks_refuted.
Example C103_case : usable crowd /\ length (detections_of crowd) < length (tracks_of crowd) /\
  gnn_associator_dlib int_checked crowd = UB /\
  gnn_associator try_all crowd = Ok [("t1", ["d1"]); ("t2", ["d2"])].
Proof. split; [exact crowd_usable|]. split; [cbn; lia|]. split; vm_compute; reflexivity. Qed.

Example C103_scene_case :
  let metric (t d : uuid) := Some (f32_of_Z 3) in
  gnn_associator_dlib int_checked (prune_track_and_detection_scores_if (fun _ => false)
    (score_tracks_and_detections (fun u => u) (fun u => u) metric ["t1"; "t2"; "t3"] ["d1"; "d2"])) = UB /\
  gnn_associator_dlib int_checked (prune_track_and_detection_scores_if (fun _ => false)
    (score_tracks_and_detections (fun u => u) (fun u => u) metric ["t1"; "t2"] ["d1"; "d2"])) = Ok [("t1", ["d1"]); ("t2", ["d2"])].
Proof. split; vm_compute; reflexivity. Qed.
