(** Model of include/multiple_object_tracking/scoring.hpp and gating.hpp. *)
From Coq Require Import List.
From Verif Require Import Base Uuid OrdMap DynObj.
Import ListNotations.

(** using ScoreMap = std::map<std::pair<Uuid, Uuid>, float>, scoring.hpp:90.
    [F] is the type of scores; it is IEEE binary32 in Matching.v. *)
Definition score_map (F : Type) : Type := list ((uuid * uuid) * F).

Section Scoring.
  Context {F Trk Det : Type} (trk_uuid : Trk -> uuid) (det_uuid : Det -> uuid)
    (metric : Trk -> Det -> option F).

  (** Inner loop body, scoring.hpp:102-107 *)
  Definition score_pair (track : Trk) (scores : score_map F) (detection : Det) : score_map F :=
    match metric track detection with
    | Some score => om_set pair_compare (trk_uuid track, det_uuid detection) score scores
    | None => scores
    end.

  (** Outer loop body, scoring.hpp:98-108 *)
  Definition score_track (detections : list Det) (scores : score_map F) (track : Trk) : score_map F :=
    fold_left (score_pair track) detections scores.

  (** score_tracks_and_detections, scoring.hpp:92-112 *)
  Definition score_tracks_and_detections (tracks : list Trk) (detections : list Det) : score_map F :=
    fold_left (score_track detections) tracks [].
End Scoring.

(** euclidean_distance_score, scoring.hpp:39-59, on library variants: std::visit
    over both variants; `if constexpr (is_same_v<...>)` compares the state types.
    [d1], [d2] are euclidean_distance for the two motion models. *)
Definition euclidean_distance_score {F T S1 C1 S2 C2} (d1 : S1 -> S1 -> F) (d2 : S2 -> S2 -> F)
    (track detection : vobj T S1 C1 S2 C2) : option F :=
  match track, detection with
  | Ctrv t, Ctrv d => Some (d1 (o_state t) (o_state d))
  | Ctra t, Ctra d => Some (d2 (o_state t) (o_state d))
  | _, _ => None
  end.

(** mahalanobis_distance_score, scoring.hpp:61-83, likewise. *)
Definition mahalanobis_distance_score {F T S1 C1 S2 C2}
    (d1 : S1 -> C1 -> S1 -> F) (d2 : S2 -> C2 -> S2 -> F)
    (track detection : vobj T S1 C1 S2 C2) : option F :=
  match track, detection with
  | Ctrv t, Ctrv d => Some (d1 (o_state t) (o_cov t) (o_state d))
  | Ctra t, Ctra d => Some (d2 (o_state t) (o_cov t) (o_state d))
  | _, _ => None
  end.

Section Gating.
  Context {F : Type} (should_prune : F -> bool).

  (** First loop, gating.hpp:34-40 *)
  Definition keys_to_prune (scores : score_map F) : list (uuid * uuid) :=
    fold_left (fun keys '(key, score) => if should_prune score then keys ++ [key] else keys) scores [].

  (** prune_track_and_detection_scores_if, gating.hpp:31-45.  The predicate is
      assumed pure.  Scores are updated in place in the code; here the new map is
      returned. *)
  Definition prune_track_and_detection_scores_if (scores : score_map F) : score_map F :=
    fold_left (fun m key => om_erase pair_compare key m) (keys_to_prune scores) scores.
End Gating.
