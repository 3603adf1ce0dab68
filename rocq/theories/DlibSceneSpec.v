(** Specification vocabulary: runs of tracking cycles with dlib's solver. *)
From stdpp Require Import gmap strings list.
From Coq Require Import ZArith.
From Verif Require Import Base Uuid DynObj Float TrackManager TrackManagerSpec Assignment PipelineDlib SceneSpec.

Section Run.
  Context {trk : track_type} {Det : Type} (norm : Z → outcome Z) (du : Det → uuid) (new_track : Det → trk) (predict : trk → trk)
    (metric : trk → Det → option f32) (should_prune : f32 → bool) (visit : trk → Det → result trk).

  (** As [clear_run] (SceneSpec.v), with [cycle_dlib] instead of [cycle]. *)
  Inductive clear_run_dlib (u : uuid) (s : mgr trk) : list bool → mgr trk → Prop :=
  | dlib_nil : clear_run_dlib u s [] s
  | dlib_snoc bs b s1 ds ord1 ord2 s2 :
      clear_run_dlib u s bs s1 → clear_scene du predict metric should_prune visit s1 ds → u ∉ map du ds →
      order_of ord1 (m_tracks s1) → order_of ord2 (m_occ s1) →
      (b = true ↔ ∃ e d, view s1 u = Some e ∧ In d ds ∧ within predict metric should_prune (e_track e) d) →
      fst (cycle_dlib norm trk du new_track predict metric should_prune visit ord1 ord2 ds s1) = s2 →
      clear_run_dlib u s (bs ++ [b]) s2.
End Run.
