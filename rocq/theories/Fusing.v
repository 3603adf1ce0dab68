(** Model of fuse_associations, include/multiple_object_tracking/fusing.hpp:151-180. *)
From Coq Require Import List Bool.
From Verif Require Import Base Uuid Matching.
Import ListNotations.

Section Fuse.
  (** [Trk] and [Det] are the element types of the two containers, [tu] and [du]
      the overloads of get_uuid for them, [visit] is std::visit of the fusion
      visitor, which may throw or be undefined. *)
  Context {Trk Det : Type} (tu : Trk -> uuid) (du : Det -> uuid) (visit : Trk -> Det -> result Trk).

  (** std::find(...) != end(), fusing.hpp:166-169 *)
  Definition listed (u : uuid) (uuids : list uuid) : bool := existsb (fun v => uuid_eqb v u) uuids.

  (** Innermost loop, fusing.hpp:164-173; [out] is the container fused_tracks. *)
  Fixpoint fuse_detections (ids : list uuid) (track : Trk) (detections : list Det) (out : list Trk)
      : result (list Trk) :=
    match detections with
    | [] => Ok out
    | detection :: rest =>
        if listed (du detection) ids then
          let* fused := visit track detection in
          fuse_detections ids track rest (out ++ [fused])
        else fuse_detections ids track rest out
    end.

  (** Loop over the tracks, fusing.hpp:161-175 *)
  Fixpoint fuse_tracks (key : uuid) (ids : list uuid) (tracks : list Trk) (detections : list Det)
      (out : list Trk) : result (list Trk) :=
    match tracks with
    | [] => Ok out
    | track :: rest =>
        if uuid_eqb (tu track) key then
          let* out' := fuse_detections ids track detections out in
          fuse_tracks key ids rest detections out'
        else fuse_tracks key ids rest detections out
    end.

  (** Loop over the associations, fusing.hpp:159-177 *)
  Fixpoint fuse_loop (associations : association_map) (tracks : list Trk) (detections : list Det)
      (out : list Trk) : result (list Trk) :=
    match associations with
    | [] => Ok out
    | (key, ids) :: rest =>
        let* out' := fuse_tracks key ids tracks detections out in
        fuse_loop rest tracks detections out'
    end.

  (** fuse_associations, fusing.hpp:151-180 *)
  Definition fuse_associations (associations : association_map) (tracks : list Trk)
      (detections : list Det) : result (list Trk) :=
    fuse_loop associations tracks detections [].
End Fuse.
