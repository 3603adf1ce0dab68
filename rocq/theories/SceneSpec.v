(** Specification vocabulary: scenes in which the gate leaves no ambiguity. *)
From stdpp Require Import gmap strings list.
From Coq Require Import NArith ZArith Reals.
From Flocq Require Import IEEE754.BinarySingleNaN.
From Verif Require Import Base Uuid DynObj Float DlibMatrix Scoring Matching MatchingSpec TrackManager TrackManagerSpec Pipeline.
Local Open Scope nat_scope.

Section Scene.
  Context {trk : track_type} {Det : Type} (du : Det → uuid) (new_track : Det → trk) (predict : trk → trk)
    (metric : trk → Det → option f32) (should_prune : f32 → bool) (solve : mat Z → list Z)
    (visit : trk → Det → result trk).

  (** The gate lets the pair pass. *)
  Definition within (t : trk) (d : Det) : Prop :=
    ∃ v, metric (predict t) d = Some v ∧ should_prune v = false.

  (** The detections have new, distinct uuids; every track is within the gate of
      at most one detection and every detection within that of at most one track;
      at least two pairs pass the gate, or one with a positive score; the scores of
      the passing pairs are finite, not negative and at most 2^100; passing pairs
      can be fused. *)
  Record clear_scene (s : mgr trk) (ds : list Det) : Prop := {
    cs_distinct : List.NoDup (map du ds);
    cs_fresh : ∀ d, In d ds → view s (du d) = None;
    cs_size : (N.of_nat (size (m_tracks s) * length ds) < 2 ^ 63)%N;
    cs_one_detection : ∀ u e d d', view s u = Some e → In d ds → In d' ds →
      within (e_track e) d → within (e_track e) d' → d = d';
    cs_one_track : ∀ u e u' e' d, view s u = Some e → view s u' = Some e' → In d ds →
      within (e_track e) d → within (e_track e') d → u = u';
    cs_some :
      (∃ u e d u' e' d', u ≠ u' ∧ view s u = Some e ∧ view s u' = Some e' ∧
         In d ds ∧ In d' ds ∧ within (e_track e) d ∧ within (e_track e') d') ∨
      (∃ u e d v, view s u = Some e ∧ In d ds ∧ metric (predict (e_track e)) d = Some v ∧
         should_prune v = false ∧ (0 < B2R v)%R);
    cs_scores : ∀ u e d v, view s u = Some e → In d ds → metric (predict (e_track e)) d = Some v →
      should_prune v = false → ordinary v ∧ small_score v;
    cs_fusable : ∀ u e d, view s u = Some e → In d ds → within (e_track e) d →
      ∃ f, visit (predict (e_track e)) d = Ok f
  }.

  (** [clear_run u s bs s']: cycles with clear scenes, in none of which a detection
      has uuid [u], lead from [s] to [s']; [bs] tells for each whether track [u]
      was within the gate of a detection. *)
  Inductive clear_run (u : uuid) (s : mgr trk) : list bool → mgr trk → Prop :=
  | clear_nil : clear_run u s [] s
  | clear_snoc bs b s1 ds ord1 ord2 s2 :
      clear_run u s bs s1 → clear_scene s1 ds → u ∉ map du ds →
      order_of ord1 (m_tracks s1) → order_of ord2 (m_occ s1) →
      (b = true ↔ ∃ e d, view s1 u = Some e ∧ In d ds ∧ within (e_track e) d) →
      fst (cycle trk du new_track predict metric should_prune solve visit ord1 ord2 ds s1) = s2 →
      clear_run u s (bs ++ [b]) s2.
End Scene.
