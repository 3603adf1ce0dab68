(** Specification vocabulary: sightings of objects that are well separated, for the cycle
    of LibraryCycle.v. *)
From stdpp Require Import gmap strings list.
From Coq Require Import NArith ZArith Reals.
From Flocq Require Import Core IEEE754.BinarySingleNaN.
From Verif Require Import Base Uuid DynObj Float FloatDistance FloatPredict FloatFusion Propagation TrackManager TrackManagerSpec
  PipelineThms IdentitySpec LibraryCycle.
Local Open Scope R_scope.

Inductive motion := Turning | Accelerating.
Definition motion_of {A B} (x : var2 A B) : motion := match x with Ctrv _ => Turning | Ctra _ => Accelerating end.

(** A track predicted to [now] and fused with a detection: uuid and class of the track,
    time stamp of the detection. *)
Definition updated_as (ST : state_type64) (o : summation) (o' : fusion_orders) (now : f64)
    (t d : dyn_obj f64 (s_car ST) (nat → nat → f32)) : dyn_obj f64 (s_car ST) (nat → nat → f32) :=
  let '(s, P) := default_unscented_transform32 ST o (o_state t) (o_cov t) (f64_sub now (o_timestamp t)) in
  let '(s', P') := fuse32 ST o' s P (o_state d) (o_cov d) in
  DynObj (o_timestamp d) s' P' (o_uuid t) (o_class t).

Section Spec.
  Context (p : platform) {Obj : Type} (who : uuid → Obj) (model : Obj → motion).
  Context (a b sep : R) (e : Z).
  Notation pose x := (object_pose p x).
  Notation id := (@v_uuid _ _ _ _ _).

  (** Detections [ds] at time [now] of objects with the poses [truth]: new and distinct
      uuids, at most one detection per object, in the motion model of that object; the
      tracks, predicted to [now], and the detections lie near the true pose of their
      object; the true poses of different objects are at least [sep] apart; two tracked
      objects are detected. *)
  Record sighting (now : f64) (truth : Obj → R * R * R) (s : mgr (track64 p)) (ds : list (object64 p)) : Prop := {
    si_distinct : List.NoDup (map id ds);
    si_fresh : ∀ d, In d ds → view s (id d) = None;
    si_size : (N.of_nat (size (m_tracks s) * length ds) < 2 ^ 63)%N;
    si_once : ∀ d d', In d ds → In d' ds → who (id d) = who (id d') → d = d';
    si_model : ∀ d, In d ds → motion_of d = model (who (id d));
    si_tracks : ∀ u x, view s u = Some x →
      pose_within e (pose (predict64 p now (e_track x))) ∧
      pose_distance (pose_value (pose (predict64 p now (e_track x)))) (truth (who u)) <= a;
    si_detections : ∀ d, In d ds →
      pose_within e (pose d) ∧ pose_distance (pose_value (pose d)) (truth (who (id d))) <= b;
    si_apart : ∀ u x d, view s u = Some x → In d ds → who u ≠ who (id d) →
      sep <= pose_distance (truth (who u)) (truth (who (id d)));
    si_two : ∃ u x d u' x' d', u ≠ u' ∧ view s u = Some x ∧ view s u' = Some x' ∧
      In d ds ∧ In d' ds ∧ who u = who (id d) ∧ who u' = who (id d')
  }.

  (** Every track is in the motion model of its object. *)
  Definition models_right (s : mgr (track64 p)) : Prop := ∀ u x, view s u = Some x → motion_of (e_track x) = model (who u).

  (** Track [t], predicted to [now], fused with detection [d] of the same motion model. *)
  Definition updated (now : f64) (t d : object64 p) : option (object64 p) :=
    match t, d with
    | Ctrv t, Ctrv d => Some (Ctrv (updated_as (ctrv_p p) (p_sum5 p) (p_fuse5 p) now t d))
    | Ctra t, Ctra d => Some (Ctra (updated_as (ctra_p p) (p_sum6 p) (p_fuse6 p) now t d))
    | _, _ => None
    end.

  Context (gate : f32).
  (** [sighted_run u s bs s']: cycles with such sightings, in none of which a detection has
      uuid [u], lead from [s] to [s']; [bs] tells for each whether the object of track [u]
      was detected. *)
  Inductive sighted_run (u : uuid) (s : mgr (track64 p)) : list bool → mgr (track64 p) → Prop :=
  | sighted_nil : sighted_run u s [] s
  | sighted_snoc bs seen s1 now truth ds ord1 ord2 :
      sighted_run u s bs s1 →
      sighting now truth s1 ds → u ∉ map id ds →
      order_of ord1 (m_tracks s1) → order_of ord2 (m_occ s1) →
      (seen = true ↔ ∃ d, In d ds ∧ who (id d) = who u) →
      sighted_run u s (bs ++ [seen]) (fst (cycle64 p now (above_gate gate) ord1 ord2 ds s1)).
End Spec.
