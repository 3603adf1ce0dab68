(** The tracking cycle of Pipeline.v with the solver of dlib (Assignment.v). *)
From Coq Require Import List ZArith.
From Verif Require Import Base Uuid DynObj Float DlibMatrix Scoring Matching Fusing TrackManager Pipeline Assignment.

(** Scoring (scoring.hpp:92-112), gating (gating.hpp:31-45) and association
    (track_matching.hpp:234-257) one after the other *)
Definition associate_dlib {Trk Det : Type} (norm : Z -> outcome Z) (tu : Trk -> uuid) (du : Det -> uuid)
    (metric : Trk -> Det -> option f32) (should_prune : f32 -> bool) (tracks : list Trk) (detections : list Det)
    : result association_map :=
  gnn_associator_dlib norm
    (prune_track_and_detection_scores_if should_prune (score_tracks_and_detections tu du metric tracks detections)).

(** One cycle, as in Pipeline.v *)
Definition cycle_dlib (norm : Z -> outcome Z) (trk : track_type) {Det : Type} (du : Det -> uuid) (new_track : Det -> trk)
    (predict : trk -> trk) (metric : trk -> Det -> option f32) (should_prune : f32 -> bool)
    (visit : trk -> Det -> result trk)
    : list uuid -> list uuid -> list Det -> mgr trk -> mgr trk * result unit :=
  cycle_with trk du new_track predict visit (associate_dlib norm tt_uuid du metric should_prune).
