(** One cycle of a tracker built from the library: score, gate, associate, update
    the track lists, fuse, store the fused tracks, and add the detections without
    association as new tracks.

    docs/multiple_object_tracking_overview.md:5-12 gives the stages in this order,
    but the library leaves the composition to its users; there is no such
    function in /repo.  The detections are already aligned to the current time.
    Every step is the model of the library function, in TrackManager.v,
    Scoring.v, Matching.v and Fusing.v.  Clustering the left-over detections
    before adding them is left out. *)
From Coq Require Import List Bool ZArith.
From Verif Require Import Base Uuid DynObj Float DlibMatrix Scoring Matching Fusing TrackManager.
Import ListNotations.

(** Scoring (scoring.hpp:92-112), gating (gating.hpp:31-45) and association
    (track_matching.hpp:234-257) one after the other *)
Definition associate {Trk Det : Type} (tu : Trk -> uuid) (du : Det -> uuid) (metric : Trk -> Det -> option f32)
    (should_prune : f32 -> bool) (solve : mat Z -> list Z) (tracks : list Trk) (detections : list Det)
    : result association_map :=
  gnn_associator solve
    (prune_track_and_detection_scores_if should_prune (score_tracks_and_detections tu du metric tracks detections)).

(** The detections for which HasAssociation (track_matching.hpp:62-66) says no *)
Definition left_over {Det : Type} (du : Det -> uuid) (a : association_map) (detections : list Det) : list Det :=
  filter (fun d => negb (set_count (du d) (associated_detections (make_has_association a)))) detections.

Section Cycle.
  Context (trk : track_type) {Det : Type} (du : Det -> uuid).
  Context (new_track : Det -> trk)                         (* make_track *)
    (predict : trk -> trk)                                  (* predict_track_to_time *)
    (metric : trk -> Det -> option f32) (should_prune : f32 -> bool)
    (solve : mat Z -> list Z) (visit : trk -> Det -> result trk).

  (** for (track : fused) manager.update_track(get_uuid(track), track) *)
  Fixpoint store_fused (fused : list trk) (s : mgr trk) : mgr trk * result unit :=
    match fused with
    | [] => (s, Ok tt)
    | t :: rest =>
        match update_track_from trk (tt_uuid t) t s with
        | (s', Ok _) => store_fused rest s'
        | (s', Throw e) => (s', Throw e)
        | (s', UB) => (s', UB)
        end
    end.

  (** for (detection : left_over) manager.add_tentative_track(make_track(detection)) *)
  Fixpoint add_new (detections : list Det) (s : mgr trk) : mgr trk * result unit :=
    match detections with
    | [] => (s, Ok tt)
    | d :: rest =>
        match add_tentative_track trk (new_track d) s with
        | (s', Ok _) => add_new rest s'
        | (s', Throw e) => (s', Throw e)
        | (s', UB) => (s', UB)
        end
    end.

  (** The cycle; [ord1], [ord2] are the iteration orders of the two loops over
      the manager's maps, [assoc] does scoring, gating and association. *)
  Definition cycle_with (assoc : list trk -> list Det -> result association_map)
      (ord1 ord2 : list uuid) (detections : list Det) (s : mgr trk) : mgr trk * result unit :=
    match get_all_tracks trk ord1 s with
    | Ok stored =>
        let tracks := map predict stored in
        match assoc tracks detections with
        | Ok a =>
            match update_track_lists trk ord2 a s with
            | (s1, Ok _) =>
                match fuse_associations tt_uuid du visit a tracks detections with
                | Ok fused =>
                    match store_fused fused s1 with
                    | (s2, Ok _) => add_new (left_over du a detections) s2
                    | failed => failed
                    end
                | Throw e => (s1, Throw e)
                | UB => (s1, UB)
                end
            | failed => failed
            end
        | Throw e => (s, Throw e)
        | UB => (s, UB)
        end
    | Throw e => (s, Throw e)
    | UB => (s, UB)
    end.
  Definition cycle : list uuid -> list uuid -> list Det -> mgr trk -> mgr trk * result unit :=
    cycle_with (associate tt_uuid du metric should_prune solve).
End Cycle.
