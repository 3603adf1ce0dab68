(** Scores that are not numbers: property C93 of properties.jsonl. *)
From Coq Require Import List ZArith Bool Reals Lra Lia Permutation String.
From Flocq Require Import Core IEEE754.BinarySingleNaN.
From Verif Require Import Base Uuid OrdMap DynObj Float Motion DoubleArith DlibMatrix Scoring
  Matching MatchingSpec MatchingThms FloatDistance NotFiniteThms ScoringSpec Properties_Scoring.
Import ListNotations.
Local Open Scope nat_scope.
Local Open Scope string_scope.
Local Open Scope list_scope.

(** ** C93: one score that is NaN or infinite makes the association undefined,
    whatever the other scores and whatever the assignment solver does. *)
Theorem C93_one_bad_score : forall solve (scores : score_map f32) k (v : f32),
  map_wf scores -> In (k, v) scores -> is_finite v = false -> gnn_associator solve scores = UB.
Proof. exact gnn_not_finite_ub. Qed.

(** Exactly when the association is defined, for scores that are not negative
    where they are numbers. *)
Theorem C93_defined_iff : forall solve (scores : score_map f32), solver_ok solve -> small_map scores -> map_wf scores ->
  (forall k v, In (k, v) scores -> is_finite v = true -> (0 <= B2R v)%R) ->
  let fine := scores <> [] /\ (forall k v, In (k, v) scores -> is_finite v = true) /\
    (missing_pair scores \/ exists k v, In (k, v) scores /\ (0 < B2R v)%R) in
  ((exists a, gnn_associator solve scores = Ok a) <-> fine) /\ (~ fine -> gnn_associator solve scores = UB).
Proof. exact gnn_defined_iff. Qed.

(** A coordinate or heading that is NaN (or infinite) in one of two poses makes
    their distance NaN (or not finite) in every order of summation. *)
Theorem C93_pose : forall (x y h x' y' h' : f64) (d : f32),
  pose_distance32 (x, y, h) (x', y', h') d ->
  (Exists (fun v : f64 => is_nan v = true) [x; y; h; x'; y'; h'] -> is_nan d = true) /\
  (Exists (fun v : f64 => is_finite v = false) [x; y; h; x'; y'; h'] -> is_finite d = false).
Proof.
  intros x y h x' y' h' d H. split; intros E; [exact (distance_nan (x, y, h) (x', y', h') d E H)|exact (distance_inf (x, y, h) (x', y', h') d E H)].
Qed.

Section Frame.
Context (sine cosine : f64 -> f64) (phase : f64 -> f64 -> f64).
Notation D := (doubles sine cosine phase).
Context {T C1 C2 : Type}.
Notation obj := (vobj T (ctrv_state D) C1 (ctra_state D) C2).
(** The position or the heading of the object is NaN. *)
Definition nan_pose (o : obj) : Prop :=
  match o with
  | Ctrv s => is_nan (v_x (o_state s) : f64) = true \/ is_nan (v_y (o_state s) : f64) = true \/ is_nan (get_angle (v_yaw (o_state s)) : f64) = true
  | Ctra s => is_nan (a_x (o_state s) : f64) = true \/ is_nan (a_y (o_state s) : f64) = true \/ is_nan (get_angle (a_yaw (o_state s)) : f64) = true
  end.

(** One track or detection with a NaN pose, and one object of the same motion
    model on the other side, make the whole frame undefined: the score passes
    every gate of the form score > threshold and the association cannot convert
    it. *)
Theorem C93_frame : forall dv da solve (threshold : f32) (tracks detections : list obj) t d,
  (forall s s', ctrv_euclidean32 sine cosine phase s s' (dv s s')) ->
  (forall s s', ctra_euclidean32 sine cosine phase s s' (da s s')) ->
  NoDup (map v_uuid tracks) -> NoDup (map v_uuid detections) ->
  In t tracks -> In d detections -> same_model t d -> nan_pose t \/ nan_pose d ->
  gnn_associator solve
    (prune_track_and_detection_scores_if (fun s => f32_gtb s threshold)
       (score_tracks_and_detections v_uuid v_uuid (euclidean_distance_score dv da) tracks detections)) = UB.
Proof.
  intros dv da solve threshold tracks detections t d Hv Ha N1 N2 Ht Hd Hm Hn.
  destruct (C19_score_map f32 obj obj v_uuid v_uuid (euclidean_distance_score dv da) tracks detections) as (Hw & _ & _ & Hu).
  specialize (Hu N1 N2 t d).
  assert (exists v, euclidean_distance_score dv da t d = Some v /\ is_nan v = true) as (v & Ev & Nv).
  { destruct t as [t|t], d as [d|d]; try contradiction; cbn in *; eexists; split; try reflexivity.
    - apply (C93_pose _ _ _ _ _ _ _ (Hv (o_state t) (o_state d))). destruct Hn as [[H|[H|H]]|[H|[H|H]]]; auto 10.
    - apply (C93_pose _ _ _ _ _ _ _ (Ha (o_state t) (o_state d))). destruct Hn as [[H|[H|H]]|[H|[H|H]]]; auto 10. }
  assert (Hin := proj2 (Hu v Ht Hd) Ev).
  apply (C93_one_bad_score solve _ (v_uuid t, v_uuid d) v).
  - apply C21_gating, Hw.
  - exact (C22_nan_survives _ threshold _ v Hw Hin Nv).
  - now destruct v.
Qed.
End Frame.

(** Two tracks and two detections of the first model, one of which has a NaN
    position: one bad score is enough. *)
Example C93_case : forall sine cosine phase solve,
  let D := doubles sine cosine phase in
  let dist p q := f32_sqrt (dot32 (differences p q)) in
  let dv s s' := dist (ctrv_pose64 sine cosine phase s) (ctrv_pose64 sine cosine phase s') in
  let da s s' := dist (ctra_pose64 sine cosine phase s) (ctra_pose64 sine cosine phase s') in
  let z (n : Z) : f64 := f64_of_Z n in
  let state x : ctrv_state D := @CtrvState D x (z 0%Z) (z 1%Z) (@MkAngle D (z 1%Z) (z 0%Z)) (z 0%Z) in
  let object u x : vobj nat (ctrv_state D) unit (ctra_state D) unit := Ctrv (DynObj 0 (state x) tt u kUnknown) in
  let tracks := [object "t1" (z 0%Z); object "t2" (z 50%Z)] in
  let detections := [object "d1" (z 1%Z); object "d2" B754_nan] in
  (forall s s', ctrv_euclidean32 sine cosine phase s s' (dv s s')) /\
  (forall s s', ctra_euclidean32 sine cosine phase s s' (da s s')) /\
  NoDup (map v_uuid tracks) /\ NoDup (map v_uuid detections) /\
  nan_pose sine cosine phase (object "d2" B754_nan) /\
  gnn_associator solve (prune_track_and_detection_scores_if (fun s => f32_gtb s (f32_of_Z 5))
    (score_tracks_and_detections v_uuid v_uuid (euclidean_distance_score dv da) tracks detections)) = UB.
Proof.
  intros sine cosine phase solve D dist dv da z state object tracks detections.
  assert (A1 : forall s s', ctrv_euclidean32 sine cosine phase s s' (dv s s'))
    by (intros s s'; exists (differences (ctrv_pose64 sine cosine phase s) (ctrv_pose64 sine cosine phase s')); split; reflexivity).
  assert (A2 : forall s s', ctra_euclidean32 sine cosine phase s s' (da s s'))
    by (intros s s'; exists (differences (ctra_pose64 sine cosine phase s) (ctra_pose64 sine cosine phase s')); split; reflexivity).
  assert (N1 : NoDup (map v_uuid tracks)) by (repeat constructor; cbn; intuition discriminate).
  assert (N2 : NoDup (map v_uuid detections)) by (repeat constructor; cbn; intuition discriminate).
  assert (N : nan_pose sine cosine phase (object "d2" B754_nan)) by (left; reflexivity).
  repeat (split; [assumption|]).
  apply (C93_frame sine cosine phase dv da solve (f32_of_Z 5) tracks detections (object "t1" (z 0%Z)) (object "d2" B754_nan));
    [exact A1|exact A2|exact N1|exact N2|now left|right; now left|exact I|now right].
Qed.

Print Assumptions C93_one_bad_score.
Print Assumptions C93_defined_iff.
Print Assumptions C93_pose.
Print Assumptions C93_frame.
