(** Model of include/multiple_object_tracking/track_management.hpp
    (class FixedThresholdTrackManager).

    The three std::unordered_map members are finite maps.  Every loop over one of
    them takes the iteration order as an argument [ord]; the standard leaves this
    order unspecified.  Erasing during iteration does not change the order of the
    remaining elements, and assignment to mapped values does not change it
    either, so one order per call is enough.  Dereferencing an iterator whose key
    is not in the map is [UB]; it cannot happen for a valid order.  Allocation
    failure is not modelled. *)
From stdpp Require Import gmap strings.
From Coq Require Import NArith ZArith.
From Verif Require Import Base Uuid OrdMap DynObj.

(** using AssociationMap = std::map<Uuid, std::vector<Uuid>>, track_matching.hpp:43 *)
Definition assoc_map : Type := list (uuid * list uuid).

(** enum class TrackStatus, track_management.hpp:44-48 *)
Inductive status := Confirmed | Tentative.

(** std::size_t arithmetic (64 bit, wrapping) *)
Definition size_mod : N := (2 ^ 64)%N.
Definition size_incr (n : N) : N := ((n + 1) mod size_mod)%N.
Definition size_decr (n : N) : N := ((n + (size_mod - 1)) mod size_mod)%N.

(** static_cast<int>(size_t) with 32-bit int (modular, as GCC and Clang define it) *)
Definition size_to_int (n : N) : Z :=
  let x := (Z.of_N n mod 2 ^ 32)%Z in
  if (x <? 2 ^ 31)%Z then x else (x - 2 ^ 32)%Z.

Section Manager.
  Context (tt : track_type).

  (** The data members, track_management.hpp:204-209 *)
  Record mgr := Mgr {
    m_promo : N;
    m_removal : N;
    m_tracks : gmap uuid tt;
    m_statuses : gmap uuid status;
    m_occ : gmap uuid N
  }.

  (** Constructor, track_management.hpp:51-55 *)
  Definition mgr_init (p r : N) : mgr := Mgr p r ∅ ∅ ∅.

  (** get_occurrences, track_management.hpp:57-64 *)
  Definition get_occurrences (s : mgr) (u : uuid) : Z :=
    match m_occ s !! u with
    | None => 0%Z
    | Some n => size_to_int n
    end.

  (** First loop of update_track_lists, track_management.hpp:68-74 *)
  Fixpoint count_loop (a : assoc_map) (p : N) (ord : list uuid) (occ : gmap uuid N)
    : result (gmap uuid N) :=
    match ord with
    | [] => Ok occ
    | u :: ord' =>
        match occ !! u with
        | None => UB
        | Some n =>
            let n' := if om_mem bytes_compare u a then N.min (size_incr n) p
                      else size_decr n in
            count_loop a p ord' (<[u := n']> occ)
        end
    end.

  (** Second loop of update_track_lists, track_management.hpp:76-92 *)
  Fixpoint sweep_loop (ord : list uuid) (s : mgr) : mgr * result unit :=
    match ord with
    | [] => (s, Ok ())
    | u :: ord' =>
        match m_occ s !! u with
        | None => (s, UB)
        | Some n =>
            if (n <=? m_removal s)%N then
              sweep_loop ord'
                (Mgr (m_promo s) (m_removal s) (delete u (m_tracks s))
                   (delete u (m_statuses s)) (delete u (m_occ s)))
            else if (m_promo s <=? n)%N then
              match m_statuses s !! u with
              | None => (s, Throw out_of_range)       (* statuses_.at(uuid) *)
              | Some _ =>
                  sweep_loop ord'
                    (Mgr (m_promo s) (m_removal s) (m_tracks s)
                       (<[u := Confirmed]> (m_statuses s)) (m_occ s))
              end
            else sweep_loop ord' s
        end
    end.

  (** update_track_lists, track_management.hpp:66-93 *)
  Definition update_track_lists (ord : list uuid) (a : assoc_map) (s : mgr) : mgr * result unit :=
    match count_loop a (m_promo s) ord (m_occ s) with
    | Ok occ' =>
        sweep_loop ord (Mgr (m_promo s) (m_removal s) (m_tracks s) (m_statuses s) occ')
    | Throw e => (s, Throw e)
    | UB => (s, UB)
    end.

  (** add_tentative_track, track_management.hpp:95-106 *)
  Definition add_tentative_track (t : tt) (s : mgr) : mgr * result unit :=
    let u := tt_uuid t in
    match m_tracks s !! u with
    | Some _ => (s, Throw logic_error)
    | None =>
        (Mgr (m_promo s) (m_removal s) (<[u := t]> (m_tracks s))
           (<[u := Tentative]> (m_statuses s)) (<[u := 1%N]> (m_occ s)), Ok ())
    end.

  (** unordered_map::operator[] on the counters: inserts 0 when absent. *)
  Definition occ_subscript (u : uuid) (occ : gmap uuid N) : N * gmap uuid N :=
    match occ !! u with
    | Some n => (n, occ)
    | None => (0%N, <[u := 0%N]> occ)
    end.

  (** Loop of set_promotion_threshold_and_update, track_management.hpp:149-155.
      The two operator[] calls on occurrences_ return the same value. *)
  Fixpoint promo_loop (ord : list uuid) (s : mgr) : mgr * result unit :=
    match ord with
    | [] => (s, Ok ())
    | u :: ord' =>
        match m_tracks s !! u with
        | None => (s, UB)
        | Some _ =>
            let '(n, occ') := occ_subscript u (m_occ s) in
            let st := if (m_promo s <=? n)%N then Confirmed else Tentative in
            promo_loop ord'
              (Mgr (m_promo s) (m_removal s) (m_tracks s) (<[u := st]> (m_statuses s)) occ')
        end
    end.

  (** set_promotion_threshold_and_update, track_management.hpp:145-156 *)
  Definition set_promotion (ord : list uuid) (p : N) (s : mgr) : mgr * result unit :=
    promo_loop ord (Mgr p (m_removal s) (m_tracks s) (m_statuses s) (m_occ s)).

  (** Loop of set_removal_threshold_and_update, track_management.hpp:167-177 *)
  Fixpoint removal_loop (ord : list uuid) (s : mgr) : mgr * result unit :=
    match ord with
    | [] => (s, Ok ())
    | u :: ord' =>
        match m_occ s !! u with
        | None => (s, UB)
        | Some n =>
            if (n <=? m_removal s)%N then
              removal_loop ord'
                (Mgr (m_promo s) (m_removal s) (delete u (m_tracks s))
                   (delete u (m_statuses s)) (delete u (m_occ s)))
            else removal_loop ord' s
        end
    end.

  (** set_removal_threshold_and_update, track_management.hpp:163-178 *)
  Definition set_removal (ord : list uuid) (r : N) (s : mgr) : mgr * result unit :=
    removal_loop ord (Mgr (m_promo s) r (m_tracks s) (m_statuses s) (m_occ s)).

  (** Run in-place modifications on a track, stopping at the first exception; the
      modifications made before stay. *)
  Fixpoint run_steps (steps : list (tt -> result tt)) (t : tt) : tt * result unit :=
    match steps with
    | [] => (t, Ok ())
    | f :: steps' =>
        match f t with
        | Ok t' => run_steps steps' t'
        | Throw e => (t, Throw e)
        | UB => (t, UB)
        end
    end.

  (** tracks_.at(id) followed by in-place modifications *)
  Definition modify_track (id : uuid) (steps : list (tt -> result tt)) (s : mgr)
    : mgr * result unit :=
    match m_tracks s !! id with
    | None => (s, Throw out_of_range)
    | Some t =>
        let '(t', r) := run_steps steps t in
        (Mgr (m_promo s) (m_removal s) (<[id := t']> (m_tracks s)) (m_statuses s) (m_occ s), r)
    end.

  (** update_track(track_id, timestamp, state, covariance), track_management.hpp:185-195 *)
  Definition update_track_fields (id : uuid) (arg : tt_arg tt) (s : mgr) : mgr * result unit :=
    modify_track id (tt_set arg) s.

  (** update_track(track_id, track), track_management.hpp:197-202 *)
  Definition update_track_from (id : uuid) (t : tt) (s : mgr) : mgr * result unit :=
    modify_track id (tt_copy t) s.

  (** get_tentative_tracks (track_management.hpp:108-119) and get_confirmed_tracks
      (121-132): the loop is the same up to the status asked for. *)
  Definition is_status (want st : status) : bool :=
    match want, st with
    | Confirmed, Confirmed => true
    | Tentative, Tentative => true
    | _, _ => false
    end.
  Fixpoint collect (want : status) (ord : list uuid) (s : mgr) : result (list tt) :=
    match ord with
    | [] => Ok []
    | u :: ord' =>
        match m_tracks s !! u with
        | None => UB
        | Some t =>
            match m_statuses s !! u with
            | None => Throw out_of_range               (* statuses_.at(uuid) *)
            | Some st =>
                let* l := collect want ord' s in
                Ok (if is_status want st then t :: l else l)
            end
        end
    end.
  Definition get_tentative_tracks (ord : list uuid) (s : mgr) : result (list tt) :=
    collect Tentative ord s.
  Definition get_confirmed_tracks (ord : list uuid) (s : mgr) : result (list tt) :=
    collect Confirmed ord s.

  (** get_all_tracks, track_management.hpp:134-143 *)
  Fixpoint get_all_tracks (ord : list uuid) (s : mgr) : result (list tt) :=
    match ord with
    | [] => Ok []
    | u :: ord' =>
        match m_tracks s !! u with
        | None => UB
        | Some t => let* l := get_all_tracks ord' s in Ok (t :: l)
        end
    end.

  (** get_promotion_threshold (158-161), get_removal_threshold (180-183) *)
  Definition get_promotion_threshold (s : mgr) : N := m_promo s.
  Definition get_removal_threshold (s : mgr) : N := m_removal s.

  (** * Histories *)

  (** The modifying public calls. *)
  Inductive call :=
  | Add (t : tt)
  | UpdateLists (a : assoc_map)
  | SetPromotion (p : N)
  | SetRemoval (r : N)
  | UpdateFields (id : uuid) (arg : tt_arg tt)
  | UpdateFrom (id : uuid) (t : tt).

  Definition step (ord : list uuid) (c : call) (s : mgr) : mgr * result unit :=
    match c with
    | Add t => add_tentative_track t s
    | UpdateLists a => update_track_lists ord a s
    | SetPromotion p => set_promotion ord p s
    | SetRemoval r => set_removal ord r s
    | UpdateFields id arg => update_track_fields id arg s
    | UpdateFrom id t => update_track_from id t s
    end.

  (** [ord] is a possible iteration order of a map with the keys of [m]. *)
  Definition order_of {A} (ord : list uuid) (m : gmap uuid A) : Prop :=
    NoDup ord ∧ ∀ u, u ∈ ord ↔ is_Some (m !! u).

  (** The order must be one of the container the call iterates over. *)
  Definition valid_order (ord : list uuid) (c : call) (s : mgr) : Prop :=
    match c with
    | UpdateLists _ | SetRemoval _ => order_of ord (m_occ s)
    | SetPromotion _ => order_of ord (m_tracks s)
    | _ => True
    end.

  (** Arguments that exist in C++: thresholds are std::size_t values, association
      maps are std::map values (sorted). *)
  Definition valid_call (c : call) : Prop :=
    match c with
    | UpdateLists a => om_wf bytes_compare a
    | SetPromotion p => (p < size_mod)%N
    | SetRemoval r => (r < size_mod)%N
    | _ => True
    end.

  (** [run s h s']: the calls of [h], each with some valid iteration order, lead
      from [s] to [s'].  A call that throws leaves whatever state it leaves and
      the history goes on (the caller catches the exception). *)
  Inductive run (s : mgr) : list call -> mgr -> Prop :=
  | run_nil : run s [] s
  | run_snoc h c s1 ord :
      run s h s1 -> valid_call c -> valid_order ord c s1 ->
      run s (h ++ [c]) (fst (step ord c s1)).

  (** States of a manager constructed with thresholds [p], [r] after history [h]. *)
  Definition reached (p r : N) (h : list call) (s : mgr) : Prop :=
    (p < size_mod)%N ∧ (r < size_mod)%N ∧ run (mgr_init p r) h s.
  Definition reachable (s : mgr) : Prop := ∃ p r h, reached p r h s.
End Manager.

Arguments Mgr {tt}.
Arguments m_promo {tt}. Arguments m_removal {tt}. Arguments m_tracks {tt}.
Arguments m_statuses {tt}. Arguments m_occ {tt}.
Arguments Add {tt}. Arguments UpdateLists {tt}. Arguments SetPromotion {tt}.
Arguments SetRemoval {tt}. Arguments UpdateFields {tt}. Arguments UpdateFrom {tt}.
