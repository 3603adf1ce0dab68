(** track_management.hpp (class FixedThresholdTrackManager) and clustering.hpp (class
    Cluster) once more, with their std::unordered_map members as hash tables
    (HashTable.v) and with the iterators of the code.  TrackManager.v and Clustering.v
    have finite maps instead. *)
From stdpp Require Import gmap strings.
From Coq Require Import NArith ZArith.
From Verif Require Import Base Uuid OrdMap DynObj TrackManager Motion Clustering HashTable.

Section HashManager.
  Context (string_hash : string → N) (grow : N → N → N) (tt : track_type).
  Local Notation find := (ht_find string_hash).
  Local Notation assign := (ht_assign string_hash).
  Local Notation set_ := (ht_set string_hash grow).
  Local Notation erase := (ht_erase string_hash).
  Local Notation subscript := (ht_subscript string_hash grow).

  (** The data members, track_management.hpp:204-209 *)
  Record hmgr := HMgr {
    hm_promo : N;
    hm_removal : N;
    hm_tracks : htab tt;
    hm_statuses : htab status;
    hm_occ : htab N
  }.

  (** Constructor, track_management.hpp:51-55 *)
  Definition hmgr_init (p r : N) : hmgr := HMgr p r ht_empty ht_empty ht_empty.

  (** get_occurrences, track_management.hpp:57-64 *)
  Definition hget_occurrences (s : hmgr) (u : uuid) : result Z :=
    if Nat.eqb (ht_count string_hash u (hm_occ s)) 0 then Ok 0%Z
    else match find u (hm_occ s) with
         | Some n => Ok (size_to_int n)
         | None => Throw out_of_range
         end.

  (** First loop of update_track_lists, track_management.hpp:68-74: the range-based for
      follows the list of nodes. *)
  Definition hcount (a : assoc_map) (p : N) (t : htab N) : htab N :=
    HTab (ht_buckets t)
      (map (fun '(u, n) =>
              (u, if om_mem bytes_compare u a then N.min (size_incr n) p else size_decr n))
         (ht_nodes t)).

  (** Second loop of update_track_lists, track_management.hpp:76-92, with a bound on the
      number of rounds; [UB] when it is reached. *)
  Fixpoint hsweep (fuel : nat) (it : nat) (s : hmgr) : hmgr * result unit :=
    match ht_at it (hm_occ s) with
    | None => (s, Ok ())                               (* it == std::end(occurrences_) *)
    | Some (u, n) =>
        match fuel with
        | O => (s, UB)
        | S fuel' =>
            if (n <=? hm_removal s)%N then
              hsweep fuel' it
                (HMgr (hm_promo s) (hm_removal s) (erase u (hm_tracks s))
                   (erase u (hm_statuses s)) (ht_erase_at it (hm_occ s)))
            else if (hm_promo s <=? n)%N then
              match find u (hm_statuses s) with
              | None => (s, Throw out_of_range)
              | Some _ =>
                  hsweep fuel' (S it)
                    (HMgr (hm_promo s) (hm_removal s) (hm_tracks s)
                       (assign u Confirmed (hm_statuses s)) (hm_occ s))
              end
            else hsweep fuel' (S it) s
        end
    end.

  (** update_track_lists, track_management.hpp:66-93 *)
  Definition hupdate_track_lists (a : assoc_map) (s : hmgr) : hmgr * result unit :=
    hsweep (ht_size (hm_occ s)) 0
      (HMgr (hm_promo s) (hm_removal s) (hm_tracks s) (hm_statuses s) (hcount a (hm_promo s) (hm_occ s))).

  (** add_tentative_track, track_management.hpp:95-106 *)
  Definition hadd_tentative_track (t : tt) (s : hmgr) : hmgr * result unit :=
    let u := tt_uuid t in
    if Nat.eqb (ht_count string_hash u (hm_tracks s)) 0 then
      (HMgr (hm_promo s) (hm_removal s) (set_ u t (hm_tracks s))
         (set_ u Tentative (hm_statuses s)) (set_ u 1%N (hm_occ s)), Ok ())
    else (s, Throw logic_error).

  (** Loop of set_promotion_threshold_and_update, track_management.hpp:149-155; [l] are
      the nodes of tracks_ still to come. *)
  Fixpoint hpromo_loop (l : list (uuid * tt)) (s : hmgr) : hmgr :=
    match l with
    | [] => s
    | (u, _) :: l' =>
        let '(n, occ1) := subscript 0%N u (hm_occ s) in
        let s1 :=
          if (hm_promo s <=? n)%N then
            HMgr (hm_promo s) (hm_removal s) (hm_tracks s) (set_ u Confirmed (hm_statuses s)) occ1
          else
            let '(n2, occ2) := subscript 0%N u occ1 in
            if (n2 <? hm_promo s)%N then
              HMgr (hm_promo s) (hm_removal s) (hm_tracks s) (set_ u Tentative (hm_statuses s)) occ2
            else HMgr (hm_promo s) (hm_removal s) (hm_tracks s) (hm_statuses s) occ2 in
        hpromo_loop l' s1
    end.
  (** set_promotion_threshold_and_update, track_management.hpp:145-156 *)
  Definition hset_promotion (p : N) (s : hmgr) : hmgr * result unit :=
    (hpromo_loop (ht_nodes (hm_tracks s))
       (HMgr p (hm_removal s) (hm_tracks s) (hm_statuses s) (hm_occ s)), Ok ()).

  (** Loop of set_removal_threshold_and_update, track_management.hpp:167-177, with a
      bound on the number of rounds as above *)
  Fixpoint hremoval (fuel : nat) (it : nat) (s : hmgr) : hmgr * result unit :=
    match ht_at it (hm_occ s) with
    | None => (s, Ok ())
    | Some (u, n) =>
        match fuel with
        | O => (s, UB)
        | S fuel' =>
            if (n <=? hm_removal s)%N then
              hremoval fuel' it
                (HMgr (hm_promo s) (hm_removal s) (erase u (hm_tracks s))
                   (erase u (hm_statuses s)) (ht_erase_at it (hm_occ s)))
            else hremoval fuel' (S it) s
        end
    end.
  (** set_removal_threshold_and_update, track_management.hpp:163-178 *)
  Definition hset_removal (r : N) (s : hmgr) : hmgr * result unit :=
    hremoval (ht_size (hm_occ s)) 0 (HMgr (hm_promo s) r (hm_tracks s) (hm_statuses s) (hm_occ s)).

  (** The two update_track functions, track_management.hpp:185-202: tracks_.at(track_id)
      and modifications of the track in its node *)
  Definition hmodify_track (id : uuid) (steps : list (tt → result tt)) (s : hmgr) : hmgr * result unit :=
    match find id (hm_tracks s) with
    | None => (s, Throw out_of_range)
    | Some t =>
        let '(t', r) := run_steps tt steps t in
        (HMgr (hm_promo s) (hm_removal s) (assign id t' (hm_tracks s)) (hm_statuses s) (hm_occ s), r)
    end.

  (** get_tentative_tracks (track_management.hpp:108-119), get_confirmed_tracks
      (121-132); [l] are the nodes of tracks_ still to come. *)
  Fixpoint hcollect (want : status) (l : list (uuid * tt)) (s : hmgr) : result (list tt) :=
    match l with
    | [] => Ok []
    | (u, t) :: l' =>
        match find u (hm_statuses s) with
        | None => Throw out_of_range
        | Some st =>
            let* r := hcollect want l' s in
            Ok (if is_status want st then t :: r else r)
        end
    end.
  Definition hget_tentative_tracks (s : hmgr) := hcollect Tentative (ht_nodes (hm_tracks s)) s.
  Definition hget_confirmed_tracks (s : hmgr) := hcollect Confirmed (ht_nodes (hm_tracks s)) s.
  (** get_all_tracks, track_management.hpp:134-143 *)
  Definition hget_all_tracks (s : hmgr) : result (list tt) := Ok (map snd (ht_nodes (hm_tracks s))).

  (** The public calls, as in TrackManager.v *)
  Definition hstep (c : call tt) (s : hmgr) : hmgr * result unit :=
    match c with
    | Add t => hadd_tentative_track t s
    | UpdateLists a => hupdate_track_lists a s
    | SetPromotion p => hset_promotion p s
    | SetRemoval r => hset_removal r s
    | UpdateFields id arg => hmodify_track id (tt_set arg) s
    | UpdateFrom id t => hmodify_track id (tt_copy t) s
    end.

  (** A history of calls, and how each of them ended *)
  Fixpoint hrun (h : list (call tt)) (s : hmgr) : hmgr * list (result unit) :=
    match h with
    | [] => (s, [])
    | c :: h' => let '(s1, r) := hstep c s in let '(s2, rs) := hrun h' s1 in (s2, r :: rs)
    end.
End HashManager.

Arguments HMgr {tt}. Arguments hm_promo {tt}. Arguments hm_removal {tt}. Arguments hm_tracks {tt}.
Arguments hm_statuses {tt}. Arguments hm_occ {tt}.

Section HashCluster.
  Context (string_hash : string → N) (grow : N → N → N).
  Context {A : arith} (of_size : nat → num A) {D : Type} (d_uuid : D → uuid) (fields : D → point A).

  (** class Cluster, clustering.hpp:116-151 *)
  Record hcluster := HCluster { hc_sum : point A; hc_detections : htab D }.
  Definition hempty_cluster : hcluster := HCluster point_zero ht_empty.
  (** is_empty, clustering.hpp:120 *)
  Definition his_empty (c : hcluster) : bool := Nat.eqb (ht_size (hc_detections c)) 0.
  (** clear, clustering.hpp:121 *)
  Definition hclear (c : hcluster) : hcluster := HCluster (hc_sum c) (ht_clear (hc_detections c)).
  (** add_detection, clustering.hpp:123-127 *)
  Definition hadd_detection (c : hcluster) (d : D) : hcluster :=
    HCluster (element_wise_add fields (hc_sum c) d)
      (ht_emplace string_hash grow (d_uuid d) d (hc_detections c)).
  (** remove_detection, clustering.hpp:129-133 *)
  Definition hremove_detection (c : hcluster) (u : uuid) : hcluster * result unit :=
    match ht_find string_hash u (hc_detections c) with
    | None => (c, Throw out_of_range)
    | Some d => (HCluster (element_wise_subtract fields (hc_sum c) d)
                   (ht_erase string_hash u (hc_detections c)), Ok ())
    end.
  (** get_centroid, clustering.hpp:140-147 *)
  Definition hget_centroid (c : hcluster) : result (point A) :=
    if his_empty c then Throw runtime_error
    else Ok (point_div (hc_sum c) (of_size (ht_size (hc_detections c)))).
End HashCluster.
Arguments hcluster A D : clear implicits.
