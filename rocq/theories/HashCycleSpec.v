(** Specification vocabulary for cycles over hash tables. *)
From stdpp Require Import gmap strings list.
From Coq Require Import NArith ZArith Reals.
From Verif Require Import Base Uuid DynObj Float TrackManager TrackManagerSpec HashTable HashManager IdentitySpec LibraryCycle LibraryCycleSpec
  HashCycle.

(** What the tables hold for a uuid: track, status and counter *)
Definition contents {trk : track_type} (string_hash : string → N) (s : hmgr trk) (u : uuid) : option (entry trk) :=
  match ht_find string_hash u (hm_tracks s), ht_find string_hash u (hm_statuses s), ht_find string_hash u (hm_occ s) with
  | Some t, Some st, Some n => Some (Entry t st n)
  | _, _, _ => None
  end.
(** The finite maps with the elements of the tables *)
Definition as_maps {trk : track_type} (s : hmgr trk) : mgr trk :=
  Mgr (hm_promo s) (hm_removal s) (list_to_map (ht_nodes (hm_tracks s))) (list_to_map (ht_nodes (hm_statuses s)))
    (list_to_map (ht_nodes (hm_occ s))).

(** Each of the cycles has a sighting (LibraryCycleSpec.v), for some true poses. *)
Section Script.
  Context (string_hash : string → N) (grow : N → N → N) (p : platform) {Obj : Type} (who : uuid → Obj) (model : Obj → motion).
  Context (a b sep : R) (e : Z) (gate : f32).
  Fixpoint all_sighted (script : list (f64 * list (object64 p))) (s : hmgr (track64 p)) : Prop :=
    match script with
    | [] => True
    | (now, ds) :: rest =>
        (∃ truth, sighting p who model a b sep e now truth (as_maps s) ds) ∧
        all_sighted rest (fst (hcycle64 string_hash grow p (above_gate gate) now ds s))
    end.
End Script.

(** Cycles over finite maps, one after the other, all successful, each with some iteration
    orders *)
Inductive map_cycles (p : platform) (gate : f32) : list (f64 * list (object64 p)) → mgr (track64 p) → mgr (track64 p) → Prop :=
| map_cycles_nil s : map_cycles p gate [] s s
| map_cycles_cons now ds rest s ord1 ord2 s1 s2 :
    order_of ord1 (m_tracks s) → order_of ord2 (m_occ s) →
    cycle64 p now (above_gate gate) ord1 ord2 ds s = (s1, Ok ()) →
    map_cycles p gate rest s1 s2 → map_cycles p gate ((now, ds) :: rest) s s2.
