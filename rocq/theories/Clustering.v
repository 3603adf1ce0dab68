(** Model of include/multiple_object_tracking/clustering.hpp, for any arithmetic
    (see Motion.v). *)
From stdpp Require Import gmap strings.
From Verif Require Import Base Uuid DynObj Motion.

Section Points.
Context {A : arith} (of_size : nat → num A).
Local Notation "x + y" := (nadd A x y).
Local Notation "x - y" := (nsub A x y).
Local Notation "x / y" := (ndiv A x y).

(** struct Point, clustering.hpp:34-41 *)
Record point := Point { p_x : num A; p_y : num A; p_vel : num A; p_yaw : angle A; p_rate : num A }.
(** Its default member initialisers *)
Definition point_zero : point := Point (n0 A) (n0 A) (n0 A) (angle_of (n0 A)) (n0 A).
(** operator/, clustering.hpp:43-52.  [of_size] is the conversion of the
    std::size_t argument to double. *)
Definition point_div (p : point) (scalar : num A) : point :=
  Point (p_x p / scalar) (p_y p / scalar) (p_vel p / scalar) (angle_div (p_yaw p) scalar)
    (p_rate p / scalar).

(** detail::make_point for the two motion models, clustering.hpp:185-191, and for a
    variant of the two, clustering.hpp:193-210.  These are also the five members
    of detection.state that the functions below read. *)
Definition ctrv_point {T C} (d : dyn_obj T (ctrv_state A) C) : point :=
  Point (v_x (o_state d)) (v_y (o_state d)) (v_vel (o_state d)) (v_yaw (o_state d)) (v_rate (o_state d)).
Definition ctra_point {T C} (d : dyn_obj T (ctra_state A) C) : point :=
  Point (a_x (o_state d)) (a_y (o_state d)) (a_vel (o_state d)) (a_yaw (o_state d)) (a_rate (o_state d)).
Definition v_point {T C1 C2} (d : vobj T (ctrv_state A) C1 (ctra_state A) C2) : point :=
  match d with Ctrv a => ctrv_point a | Ctra b => ctra_point b end.

(** The detection type: how to get its uuid, and the five members of its state. *)
Context {D : Type} (d_uuid : D → uuid) (fields : D → point).

(** detail::element_wise_add_fn, clustering.hpp:56-81.  Other alternatives than the
    two motion models (std::runtime_error) are not modelled. *)
Definition element_wise_add (p : point) (d : D) : point :=
  Point (p_x p + p_x (fields d)) (p_y p + p_y (fields d)) (p_vel p + p_vel (fields d))
    (angle_add (p_yaw p) (p_yaw (fields d))) (p_rate p + p_rate (fields d)).
(** detail::element_wise_subtract_fn, clustering.hpp:85-112 *)
Definition element_wise_subtract (p : point) (d : D) : point :=
  Point (p_x p - p_x (fields d)) (p_y p - p_y (fields d)) (p_vel p - p_vel (fields d))
    (angle_sub (p_yaw p) (p_yaw (fields d))) (p_rate p - p_rate (fields d)).
(** detail::squared_euclidean_distance_fn, clustering.hpp:155-183.  std::pow(x, 2) is
    x * x. *)
Definition squared_euclidean_distance (p : point) (d : D) : num A :=
  let sq x := nmul A x x in
  n0 A + sq (p_x p - p_x (fields d)) + sq (p_y p - p_y (fields d)) + sq (p_vel p - p_vel (fields d))
  + sq (get_angle (p_yaw p) - get_angle (p_yaw (fields d))) + sq (p_rate p - p_rate (fields d)).

(** class Cluster, clustering.hpp:116-151.  The std::unordered_map is a finite map. *)
Record cluster := Cluster { state_sum : point; detections : gmap uuid D }.
Definition empty_cluster : cluster := Cluster point_zero ∅.
(** is_empty, clustering.hpp:120 *)
Definition is_empty (c : cluster) : bool := Nat.eqb (size (detections c)) 0.
(** clear, clustering.hpp:121 *)
Definition clear (c : cluster) : cluster := Cluster (state_sum c) ∅.
(** add_detection, clustering.hpp:123-127; emplace keeps an existing entry. *)
Definition add_detection (c : cluster) (d : D) : cluster :=
  Cluster (element_wise_add (state_sum c) d)
    (match detections c !! d_uuid d with
     | Some _ => detections c
     | None => <[d_uuid d := d]> (detections c)
     end).
(** remove_detection, clustering.hpp:129-133; detections_.at throws before the
    assignment to state_sum_. *)
Definition remove_detection (c : cluster) (u : uuid) : cluster * result unit :=
  match detections c !! u with
  | None => (c, Throw out_of_range)
  | Some d => (Cluster (element_wise_subtract (state_sum c) d) (delete u (detections c)), Ok ())
  end.
(** get_centroid, clustering.hpp:140-147 *)
Definition get_centroid (c : cluster) : result point :=
  if decide (detections c = ∅) then Throw runtime_error
  else Ok (point_div (state_sum c) (of_size (size (detections c)))).

(** cluster_detections, clustering.hpp:227-256, for a metric without side effects;
    [below] is operator< on its values. *)
Section Loop.
Context {M : Type} (below : M → M → bool) (distance_threshold : M) (metric : point → D → M).
(** The for loop, clustering.hpp:243-250: the cluster and what remains in the vector *)
Fixpoint absorb (origin_point : point) (c : cluster) (ds : list D) : cluster * list D :=
  match ds with
  | [] => (c, [])
  | d :: ds' =>
      if below (metric origin_point d) distance_threshold
      then absorb origin_point (add_detection c d) ds'
      else let '(c', rest) := absorb origin_point c ds' in (c', d :: rest)
  end.
(** The while loop, clustering.hpp:233-253, with a bound on the number of rounds;
    [None] when the bound is reached. *)
Fixpoint cluster_loop (fuel : nat) (ds : list D) : option (list cluster) :=
  match last ds with
  | None => Some []
  | Some origin_detection =>
      match fuel with
      | O => None
      | S fuel' =>
          let '(c, rest) := absorb (fields origin_detection)
            (add_detection empty_cluster origin_detection) (removelast ds) in
          cs ← cluster_loop fuel' rest; Some (c :: cs)
      end
  end.
End Loop.
(** The overload without metric, clustering.hpp:269-273 *)
Definition cluster_loop_default (distance_threshold : num A) : nat → list D → option (list cluster) :=
  cluster_loop (nlt A) distance_threshold squared_euclidean_distance.
End Points.
Arguments point A : clear implicits.
Arguments cluster A D : clear implicits.
