(** Specification vocabulary: observations of objects that are well separated. *)
From stdpp Require Import gmap strings list.
From Coq Require Import NArith ZArith Reals.
From Flocq Require Import Core IEEE754.BinarySingleNaN.
From Verif Require Import Base Uuid DynObj Float FloatDistance TrackManager TrackManagerSpec Assignment PipelineDlib PipelineThms.
Local Open Scope R_scope.

(** The numbers in a pose, and the distance of two poses (positions and headings). *)
Definition pose_value (p : pose64) : R * R * R := let '(x, y, h) := p in (B2R x, B2R y, B2R h).
Definition pose_distance (p q : R * R * R) : R :=
  let '(x, y, h) := p in let '(x', y', h') := q in sqrt ((x - x') ^ 2 + (y - y') ^ 2 + (h - h') ^ 2).
(** All numbers in the pose are finite and at most 2^e. *)
Definition pose_within (e : Z) (p : pose64) : Prop :=
  let '(x, y, h) := p in
  Forall (λ v : f64, is_finite v = true ∧ Rabs (B2R v) <= bpow radix2 e) [x; y; h].

(** Scores above [gate] are pruned. *)
Definition above_gate (gate : f32) (v : f32) : bool := Bltb gate v.

(** How the gate lies between the errors and the distances of objects: predictions
    are at most [a] and detections at most [b] from the true pose, true poses are at
    least [sep] apart, and coordinates are at most 2^e (the terms with 2^(e-23) and
    2^-21 are the rounding error of the score, C83). *)
Definition gate_between (gate : f32) (a b sep : R) (e : Z) : Prop :=
  (3 <= e <= 60)%Z ∧ is_finite gate = true ∧ 0 <= a ∧ 0 <= b ∧
  (1 + bpow radix2 (-21)) * (a + b) + bpow radix2 (e - 23) <= B2R gate ∧
  B2R gate + bpow radix2 (e - 23) < (1 - bpow radix2 (-21)) * (sep - (a + b)).

Section Identity.
  Context {trk : track_type} {Det Obj : Type} (du : Det → uuid).
  (** The object a track or a detection with this uuid belongs to.  (A new track takes
      the uuid of its detection.) *)
  Context (who : uuid → Obj) (track_pose : trk → pose64) (detection_pose : Det → pose64).
  Context (metric : trk → Det → option f32) (visit : trk → Det → result trk).
  Context (gate : f32) (a b sep : R) (e : Z).

  (** One set of detections of objects with the poses [truth]: new and distinct uuids,
      at most one detection per object; predicted tracks and detections lie near the
      true pose of their object; the true poses of different objects, tracked or
      detected, are at least [sep] apart; two tracked objects are detected; a track
      and a detection of the same object can be compared and fused. *)
  Record observation (predict : trk → trk) (truth : Obj → R * R * R) (s : mgr trk) (ds : list Det) : Prop := {
    ob_distinct : List.NoDup (map du ds);
    ob_fresh : ∀ d, In d ds → view s (du d) = None;
    ob_size : (N.of_nat (size (m_tracks s) * length ds) < 2 ^ 63)%N;
    ob_once : ∀ d d', In d ds → In d' ds → who (du d) = who (du d') → d = d';
    ob_tracks : ∀ u x, view s u = Some x →
      pose_within e (track_pose (predict (e_track x))) ∧
      pose_distance (pose_value (track_pose (predict (e_track x)))) (truth (who u)) <= a;
    ob_detections : ∀ d, In d ds →
      pose_within e (detection_pose d) ∧
      pose_distance (pose_value (detection_pose d)) (truth (who (du d))) <= b;
    ob_apart : ∀ u x d, view s u = Some x → In d ds → who u ≠ who (du d) →
      sep <= pose_distance (truth (who u)) (truth (who (du d)));
    ob_two : ∃ u x d u' x' d', u ≠ u' ∧ view s u = Some x ∧ view s u' = Some x' ∧
      In d ds ∧ In d' ds ∧ who u = who (du d) ∧ who u' = who (du d');
    ob_same : ∀ u x d, view s u = Some x → In d ds → who u = who (du d) →
      (∃ v, metric (predict (e_track x)) d = Some v) ∧ (∃ f, visit (predict (e_track x)) d = Ok f)
  }.

  (** No object has two tracks. *)
  Definition one_track_each (s : mgr trk) : Prop :=
    ∀ u x u' x', view s u = Some x → view s u' = Some x' → who u = who u' → u = u'.

  Context (new_track : Det → trk).
  (** [observed_run u s bs s']: cycles with such observations, in none of which a
      detection has uuid [u], lead from [s] to [s']; [bs] tells for each whether the
      object of track [u] was detected.  Times, and so predictions, and true poses
      differ from cycle to cycle. *)
  Inductive observed_run (u : uuid) (s : mgr trk) : list bool → mgr trk → Prop :=
  | observed_nil : observed_run u s [] s
  | observed_snoc bs seen s1 predict truth ds ord1 ord2 s2 :
      observed_run u s bs s1 →
      (∀ t, tt_uuid (predict t) = tt_uuid t) →
      (∀ t d f, visit (predict t) d = Ok f → tt_uuid f = tt_uuid t ∧ copies f t) →
      observation predict truth s1 ds → u ∉ map du ds →
      order_of ord1 (m_tracks s1) → order_of ord2 (m_occ s1) →
      (seen = true ↔ ∃ d, In d ds ∧ who (du d) = who u) →
      fst (cycle_dlib int_checked trk du new_track predict metric (above_gate gate) visit ord1 ord2 ds s1) = s2 →
      observed_run u s (bs ++ [seen]) s2.
End Identity.
