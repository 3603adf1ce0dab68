(** Model of include/multiple_object_tracking/track_matching.hpp. *)
From Coq Require Import List ZArith NArith Bool.
From Verif Require Import Base Uuid OrdMap DynObj Float DlibMatrix Scoring.
Import ListNotations.

(** using AssociationMap = std::map<Uuid, std::vector<Uuid>>, track_matching.hpp:43 *)
Definition association_map : Type := list (uuid * list uuid).

(** class HasAssociation, track_matching.hpp:45-77.  The two std::unordered_set
    members are only used through insert and count; they are lists here. *)
Record has_association := HasAssociation {
  associated_tracks : list uuid;
  associated_detections : list uuid
}.
(** Constructor, track_matching.hpp:48-54 *)
Definition make_has_association (associations : association_map) : has_association :=
  fold_left (fun h '(track_uuid, detection_uuids) =>
    HasAssociation (track_uuid :: associated_tracks h) (detection_uuids ++ associated_detections h))
    associations (HasAssociation [] []).
(** unordered_set::count(u) != 0 *)
Definition set_count (u : uuid) (s : list uuid) : bool := existsb (uuid_eqb u) s.
(** operator() on tracks (56-60), on detections (62-66) and on variants (68-72);
    the object is a track or a detection by its static type. *)
Definition ha_track {T S C} (h : has_association) (track : dyn_obj T S C) : bool :=
  set_count (o_uuid track) (associated_tracks h).
Definition ha_detection {T S C} (h : has_association) (detection : dyn_obj T S C) : bool :=
  set_count (o_uuid detection) (associated_detections h).
Definition ha_track_variant {T S1 C1 S2 C2} (h : has_association) (track : vobj T S1 C1 S2 C2) : bool :=
  match track with Ctrv o => ha_track h o | Ctra o => ha_track h o end.
Definition ha_detection_variant {T S1 C1 S2 C2} (h : has_association) (detection : vobj T S1 C1 S2 C2) : bool :=
  match detection with Ctrv o => ha_detection h o | Ctra o => ha_detection h o end.

(** First loop of score_matrix_from_score_map, track_matching.hpp:94-98; the
    vector `values` it also fills is never used. *)
Definition uuid_sets (scores : score_map f32) : list uuid * list uuid :=
  fold_left (fun '(track_set, detection_set) pair =>
    (os_insert bytes_compare (fst (fst pair)) track_set,
     os_insert bytes_compare (snd (fst pair)) detection_set)) scores ([], []).

(** score_matrix_from_score_map, track_matching.hpp:87-126.  Returns the matrix and
    the two sets (out parameters in the code, empty at the only call). *)
Definition score_matrix_from_score_map (scores : score_map f32)
    : result (mat f32 * list uuid * list uuid) :=
  let '(track_set, detection_set) := uuid_sets scores in
  let m0 := mat_fill flt_max (mat_new (length track_set) (length detection_set)) in
  let* m := for_range 0 (nr m0) (fun r m =>
              for_range 0 (nc m0) (fun c m =>
                match nth_error track_set r, nth_error detection_set c with
                | Some track_uuid, Some detection_uuid =>
                    match om_find pair_compare (track_uuid, detection_uuid) scores with
                    | Some score => mat_set m r c score
                    | None => Ok m
                    end
                | _, _ => UB                       (* std::next past the end *)
                end) m) m0 in
  Ok (m, track_set, detection_set).

(** dlib::max of a matrix: starts with m(0,0), replaces the candidate by every
    larger element, row by row.  Undefined for an empty matrix. *)
Definition dlib_max (m : mat f32) : result f32 :=
  let* v0 := mat_get m 0 0 in
  for_range 0 (nr m) (fun r v =>
    for_range 0 (nc m) (fun c v =>
      let* x := mat_get m r c in Ok (if f32_gtb x v then x else v)) v) v0.

(** Body of the loop of cost_matrix_from_score_matrix, track_matching.hpp:150-160:
    float division; `1.0 - normalized_score` in double, stored to a float; the
    product with the int 100000000 in float. *)
Definition normalized_score (score max_score : f32) : f32 := f32_div score max_score.
Definition cost_value (score max_score : f32) : f32 :=
  f32_of_f64 (f64_sub (f64_of_Z 1) (f64_of_f32 (normalized_score score max_score))).
Definition scaled_cost (score max_score : f32) : result Z :=
  int_of_f32 (f32_mul (cost_value score max_score) (f32_of_Z 100000000)).

(** cost_matrix_from_score_matrix, track_matching.hpp:134-166 *)
Definition cost_matrix_from_score_matrix (score_matrix : mat f32) : result (mat Z) :=
  let* max_score := dlib_max score_matrix in
  for_range 0 (nr score_matrix) (fun r m =>
    for_range 0 (nc score_matrix) (fun c m =>
      let* score := mat_get score_matrix r c in
      let* cost := scaled_cost score max_score in
      mat_set m r c cost) m) (mat_new (nr score_matrix) (nc score_matrix)).

(** get_element_at, track_matching.hpp:176-190.  The index is a std::size_t. *)
Definition get_element_at {A} (s : list A) (index : N) : result A :=
  if (N.of_nat (length s) <=? index)%N then Throw out_of_range
  else match nth_error s (N.to_nat index) with Some x => Ok x | None => UB end.

(** Conversion of a long to std::size_t *)
Definition size_of_long (z : Z) : N := Z.to_N (z mod 2 ^ 64).

(** associations[k].push_back(v) *)
Definition assoc_push (k v : uuid) (a : association_map) : association_map :=
  om_set bytes_compare k
    ((match om_find bytes_compare k a with Some l => l | None => [] end) ++ [v]) a.

(** association_map_from_score_map, track_matching.hpp:201-226: the loop from index
    [i] on.  (The parameter `scores` is not used by the code.) *)
Fixpoint association_loop (i : nat) (assignments : list Z) (track_set detection_set : list uuid)
    (associations : association_map) : result association_map :=
  match assignments with
  | [] => Ok associations
  | a :: rest =>
      if (N.of_nat (length detection_set) <=? size_of_long a)%N then
        association_loop (S i) rest track_set detection_set associations
      else
        let* track_uuid := get_element_at track_set (N.of_nat i) in
        let* detection_uuid := get_element_at detection_set (size_of_long a) in
        association_loop (S i) rest track_set detection_set
          (assoc_push track_uuid detection_uuid associations)
  end.
Definition association_map_from_score_map (assignments : list Z) (track_set detection_set : list uuid)
    : result association_map :=
  association_loop 0 assignments track_set detection_set [].

(** std::numeric_limits<int>::lowest() *)
Definition int_lowest : Z := (- 2 ^ 31)%Z.

(** gnn_associator, track_matching.hpp:234-257.  [solve] stands for
    dlib::max_cost_assignment; the theorems assume only its documented contract
    (MatchingSpec.v).  The iterator range is undefined when the solver returns
    fewer entries than there are tracks. *)
Definition gnn_associator (solve : mat Z -> list Z) (scores : score_map f32) : result association_map :=
  let* (score_matrix, track_set, detection_set) := score_matrix_from_score_map scores in
  let* costs := cost_matrix_from_score_matrix score_matrix in
  let* cost_matrix := make_square_matrix costs int_lowest in
  let results := solve cost_matrix in
  if (length results <? length track_set)%nat then UB
  else association_map_from_score_map (firstn (length track_set) results) track_set detection_set.

(** associate_detections_to_tracks, track_matching.hpp:301-309: std::visit on a
    one-alternative variant calls the visitor on the score map. *)
Definition associate_detections_to_tracks {A} (gated_scores : score_map f32)
    (association_visitor : score_map f32 -> A) : A := association_visitor gated_scores.
