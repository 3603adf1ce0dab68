(** The tracking cycle of Pipeline.v and LibraryCycle.v over the track manager with hash
    tables (HashManager.v): the tables give the iteration orders. *)
From stdpp Require Import gmap strings.
From Coq Require Import NArith ZArith.
From Verif Require Import Base Uuid DynObj Float DlibMatrix Scoring Matching Fusing TrackManager HashTable HashManager
  Pipeline Assignment PipelineDlib LibraryCycle.

Section Cycle.
  Context (string_hash : string → N) (grow : N → N → N).
  Context (trk : track_type) {Det : Type} (du : Det → uuid) (new_track : Det → trk) (predict : trk → trk)
    (visit : trk → Det → result trk).

  (** [store_fused] and [add_new] of Pipeline.v; update_track and add_tentative_track,
      track_management.hpp:95-106, 193-202 *)
  Fixpoint hstore_fused (fused : list trk) (s : hmgr trk) : hmgr trk * result unit :=
    match fused with
    | [] => (s, Ok ())
    | t :: rest =>
        match hmodify_track string_hash trk (tt_uuid t) (tt_copy t) s with
        | (s', Ok _) => hstore_fused rest s'
        | failed => failed
        end
    end.
  Fixpoint hadd_new (detections : list Det) (s : hmgr trk) : hmgr trk * result unit :=
    match detections with
    | [] => (s, Ok ())
    | d :: rest =>
        match hadd_tentative_track string_hash grow trk (new_track d) s with
        | (s', Ok _) => hadd_new rest s'
        | failed => failed
        end
    end.

  (** One cycle as docs/multiple_object_tracking_overview.md:5-12 describes it; [cycle_with] of
      Pipeline.v with the iteration orders of the tables *)
  Definition hcycle_with (assoc : list trk → list Det → result association_map) (detections : list Det) (s : hmgr trk)
      : hmgr trk * result unit :=
    match hget_all_tracks trk s with
    | Ok stored =>
        let tracks := map predict stored in
        match assoc tracks detections with
        | Ok a =>
            match hupdate_track_lists string_hash trk a s with
            | (s1, Ok _) =>
                match fuse_associations tt_uuid du visit a tracks detections with
                | Ok fused =>
                    match hstore_fused fused s1 with
                    | (s2, Ok _) => hadd_new (left_over du a detections) s2
                    | failed => failed
                    end
                | Throw e => (s1, Throw e)
                | UB => (s1, UB)
                end
            | failed => failed
            end
        | Throw e => (s, Throw e)
        | UB => (s, UB)
        end
    | Throw e => (s, Throw e)
    | UB => (s, UB)
    end.
End Cycle.

(** [cycle64] of LibraryCycle.v (docs/multiple_object_tracking_overview.md:5-12, with the
    functions of the library), and cycles one after the other, each with its time and its
    detections; how each of them ended *)
Section Library.
  Context (string_hash : string → N) (grow : N → N → N) (p : platform) (prune : f32 → bool).
  Definition hcycle64 (now : f64) : list (object64 p) → hmgr (track64 p) → hmgr (track64 p) * result unit :=
    hcycle_with string_hash grow (track64 p) (@v_uuid _ _ _ _ _) (λ d : object64 p, d : track64 p) (predict64 p now) (visit64 p)
      (associate_dlib int_checked (@tt_uuid (track64 p)) (@v_uuid _ _ _ _ _) (score64 p) prune).
  Fixpoint hcycles (script : list (f64 * list (object64 p))) (s : hmgr (track64 p)) : hmgr (track64 p) * list (result unit) :=
    match script with
    | [] => (s, [])
    | (now, ds) :: rest =>
        let '(s1, r) := hcycle64 now ds s in
        let '(s2, rs) := hcycles rest s1 in (s2, r :: rs)
    end.
End Library.
