(** Model of include/multiple_object_tracking/dynamic_object.hpp. *)
From Coq Require Import List String.
From Verif Require Import Base Uuid.
Import ListNotations.

(** enum class SemanticClass, dynamic_object.hpp:29-36 *)
Inductive semantic_class :=
| kUnknown | kSmallVehicle | kLargeVehicle | kPedestrian | kMotorcycle.

(** struct DynamicObject, dynamic_object.hpp:38-50.  [T] is the type of time
    stamps (units::time::second_t), [S] of states, [C] of covariances.  The tag
    parameter only distinguishes tracks from detections at compile time and is
    not represented. *)
Record dyn_obj (T S C : Type) := DynObj {
  o_timestamp : T;
  o_state : S;
  o_cov : C;
  o_uuid : uuid;
  o_class : semantic_class
}.
Arguments DynObj {T S C} o_timestamp o_state o_cov o_uuid o_class.
Arguments o_timestamp {T S C} d.
Arguments o_state {T S C} d.
Arguments o_cov {T S C} d.
Arguments o_uuid {T S C} d.
Arguments o_class {T S C} d.

(** std::variant<Ctrv..., Ctra...>: the two motion models of the library. *)
Inductive var2 (A B : Type) :=
| Ctrv (a : A)
| Ctra (b : B).
Arguments Ctrv {A B} a.
Arguments Ctra {A B} b.

Section Plain.
  Context {T S C : Type}.
  Implicit Types o dst src : dyn_obj T S C.

  (** set_timestamp, dynamic_object.hpp:64-69 *)
  Definition set_timestamp o (t : T) : dyn_obj T S C :=
    DynObj t (o_state o) (o_cov o) (o_uuid o) (o_class o).
  (** set_uuid, dynamic_object.hpp:111-115 *)
  Definition set_uuid o (u : uuid) : dyn_obj T S C :=
    DynObj (o_timestamp o) (o_state o) (o_cov o) u (o_class o).
  (** set_semantic_class, dynamic_object.hpp:135-140 *)
  Definition set_semantic_class o (c : semantic_class) : dyn_obj T S C :=
    DynObj (o_timestamp o) (o_state o) (o_cov o) (o_uuid o) c.
  (** set_state, dynamic_object.hpp:163-169 *)
  Definition set_state o (s : S) : dyn_obj T S C :=
    DynObj (o_timestamp o) s (o_cov o) (o_uuid o) (o_class o).
  (** set_state_covariance, dynamic_object.hpp:241-248 *)
  Definition set_state_covariance o (c : C) : dyn_obj T S C :=
    DynObj (o_timestamp o) (o_state o) c (o_uuid o) (o_class o).
  (** copy_state, dynamic_object.hpp:193-199 *)
  Definition copy_state dst src : dyn_obj T S C := set_state dst (o_state src).
  (** copy_state_covariance, dynamic_object.hpp:278-284 *)
  Definition copy_state_covariance dst src : dyn_obj T S C :=
    set_state_covariance dst (o_cov src).

  (** make_track(detection, uuid), dynamic_object.hpp:320-325 *)
  Definition make_track_with_uuid (d : dyn_obj T S C) (u : uuid) : dyn_obj T S C :=
    DynObj (o_timestamp d) (o_state d) (o_cov d) u (o_class d).
  (** make_track(detection), dynamic_object.hpp:327-331 *)
  Definition make_track (d : dyn_obj T S C) : dyn_obj T S C :=
    make_track_with_uuid d (o_uuid d).
End Plain.

(** Overloads for std::variant objects.  make_track on a variant
    (dynamic_object.hpp:333-337) can only be instantiated when every alternative
    converts to one plain track type, so it is not modelled separately. *)
Section Variant.
  Context {T S1 C1 S2 C2 : Type}.
  Definition vobj : Type := var2 (dyn_obj T S1 C1) (dyn_obj T S2 C2).
  Implicit Types o dst src : vobj.

  (** get_timestamp, dynamic_object.hpp:58-62 *)
  Definition v_timestamp o : T :=
    match o with Ctrv a => o_timestamp a | Ctra b => o_timestamp b end.
  (** get_uuid, dynamic_object.hpp:105-109 *)
  Definition v_uuid o : uuid :=
    match o with Ctrv a => o_uuid a | Ctra b => o_uuid b end.
  (** get_semantic_class, dynamic_object.hpp:129-133 *)
  Definition v_class o : semantic_class :=
    match o with Ctrv a => o_class a | Ctra b => o_class b end.
  (** set_timestamp, dynamic_object.hpp:71-77 *)
  Definition v_set_timestamp o (t : T) : vobj :=
    match o with Ctrv a => Ctrv (set_timestamp a t) | Ctra b => Ctra (set_timestamp b t) end.
  (** set_uuid, dynamic_object.hpp:117-121 *)
  Definition v_set_uuid o (u : uuid) : vobj :=
    match o with Ctrv a => Ctrv (set_uuid a u) | Ctra b => Ctra (set_uuid b u) end.
  (** set_semantic_class, dynamic_object.hpp:142-149 *)
  Definition v_set_semantic_class o (c : semantic_class) : vobj :=
    match o with Ctrv a => Ctrv (set_semantic_class a c) | Ctra b => Ctra (set_semantic_class b c) end.

  (** set_state through detail::set_state_visitor, dynamic_object.hpp:171-191.
      The state argument has one of the two state types. *)
  Definition v_set_state o (s : var2 S1 S2) : result vobj :=
    match o, s with
    | Ctrv a, Ctrv x => Ok (Ctrv (set_state a x))
    | Ctra b, Ctra y => Ok (Ctra (set_state b y))
    | _, _ => Throw runtime_error
    end.
  (** set_state_covariance through its visitor, dynamic_object.hpp:250-276.
      (With the fixed-size Eigen types of the library the mismatching case is
      rejected by the compiler; the run-time check is what the visitor says.) *)
  Definition v_set_state_covariance o (c : var2 C1 C2) : result vobj :=
    match o, c with
    | Ctrv a, Ctrv x => Ok (Ctrv (set_state_covariance a x))
    | Ctra b, Ctra y => Ok (Ctra (set_state_covariance b y))
    | _, _ => Throw runtime_error
    end.
  (** copy_state through detail::copy_state_visitor, dynamic_object.hpp:201-227 *)
  Definition v_copy_state dst src : result vobj :=
    match dst, src with
    | Ctrv a, Ctrv x => Ok (Ctrv (copy_state a x))
    | Ctra b, Ctra y => Ok (Ctra (copy_state b y))
    | _, _ => Throw runtime_error
    end.
  (** copy_state_covariance through its visitor, dynamic_object.hpp:286-312 *)
  Definition v_copy_state_covariance dst src : result vobj :=
    match dst, src with
    | Ctrv a, Ctrv x => Ok (Ctrv (copy_state_covariance a x))
    | Ctra b, Ctra y => Ok (Ctra (copy_state_covariance b y))
    | _, _ => Throw runtime_error
    end.
End Variant.
Arguments vobj : clear implicits.

(** What the track manager needs from its template argument [Track]: the uuid and
    the two bodies of update_track, each a sequence of in-place modifications
    that may throw in the middle. *)
Record track_type := TrackType {
  tt_car :> Type;
  tt_arg : Type;                                             (* timestamp, state, covariance *)
  tt_uuid : tt_car -> uuid;                                  (* get_uuid *)
  tt_set : tt_arg -> list (tt_car -> result tt_car);         (* track_management.hpp:192-194 *)
  tt_copy : tt_car -> list (tt_car -> result tt_car)         (* track_management.hpp:199-201 *)
}.
Arguments tt_uuid {t}.
Arguments tt_set {t}.
Arguments tt_copy {t}.

(** Track = DynamicObject<...> *)
Definition plain_track (T S C : Type) : track_type := {|
  tt_car := dyn_obj T S C;
  tt_arg := T * S * C;
  tt_uuid := o_uuid;
  tt_set := fun '(t, s, c) =>
    [ fun o => Ok (set_timestamp o t);
      fun o => Ok (set_state o s);
      fun o => Ok (set_state_covariance o c) ];
  tt_copy := fun src =>
    [ fun o => Ok (set_timestamp o (o_timestamp src));
      fun o => Ok (copy_state o src);
      fun o => Ok (copy_state_covariance o src) ]
|}.

(** Track = std::variant<DynamicObject<...>, DynamicObject<...>> *)
Definition variant_track (T S1 C1 S2 C2 : Type) : track_type := {|
  tt_car := vobj T S1 C1 S2 C2;
  tt_arg := T * var2 S1 S2 * var2 C1 C2;
  tt_uuid := v_uuid;
  tt_set := fun '(t, s, c) =>
    [ fun o => Ok (v_set_timestamp o t);
      fun o => v_set_state o s;
      fun o => v_set_state_covariance o c ];
  tt_copy := fun src =>
    [ fun o => Ok (v_set_timestamp o (v_timestamp src));
      fun o => v_copy_state o src;
      fun o => v_copy_state_covariance o src ]
|}.
