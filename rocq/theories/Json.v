(** Model of include/multiple_object_tracking/json_parsing.hpp.

    The text parser (nlohmann::json::parse) is external: the model starts from
    the parsed document.  [N] is the type of JSON numbers, [A] the arithmetic of
    double and [F] the type of float; [dbl], [flt] and [flt_bool] are the
    conversions of the JSON library from a number to double and to float and
    from a boolean to float. *)
From Coq Require Import String List Lia.
From Verif Require Import Base Uuid DynObj Motion.
Import ListNotations.
Local Open Scope string_scope.
Local Open Scope list_scope.

(** A parsed document.  Objects (std::map) have distinct keys and are listed in
    key order. *)
Inductive json (N : Type) :=
| JNull
| JBool (b : bool)
| JNum (n : N)
| JStr (s : string)
| JArr (l : list (json N))
| JObj (m : list (string * json N)).
Arguments JNull {N}. Arguments JBool {N} b. Arguments JNum {N} n.
Arguments JStr {N} s. Arguments JArr {N} l. Arguments JObj {N} m.

Section Parsing.
Context {N : Type} {A : arith} {F : Type}.
Context (dbl : N -> num A) (flt : N -> F) (flt_bool : bool -> F).

(** basic_json::at(key): throws unless the value is an object with the key. *)
Fixpoint assoc (k : string) (m : list (string * json N)) : option (json N) :=
  match m with
  | [] => None
  | (k', j) :: m' => if String.eqb k' k then Some j else assoc k m'
  end.
Definition at_key (j : json N) (k : string) : result (json N) :=
  match j with
  | JObj m => match assoc k m with Some v => Ok v | None => Throw json_error end
  | _ => Throw json_error
  end.
(** get<double>(): numbers only.  (The implicit conversions of json_parsing.hpp:
    48-51 and 64-69 are taken to be the same as the explicit one in line 47.) *)
Definition get_double (j : json N) : result (num A) :=
  match j with JNum n => Ok (dbl n) | _ => Throw json_error end.
(** get<std::string>() *)
Definition get_string (j : json N) : result string :=
  match j with JStr s => Ok s | _ => Throw json_error end.
(** get<float>(): float is not the library's own number type, so that booleans
    are accepted as well. *)
Definition get_float (j : json N) : result F :=
  match j with JNum n => Ok (flt n) | JBool b => Ok (flt_bool b) | _ => Throw json_error end.
(** get<std::vector<float>>() *)
Definition get_float_vector (j : json N) : result (list F) :=
  match j with JArr l => rmap get_float l | _ => Throw json_error end.

(** from_json(Uuid), json_parsing.hpp:32-35 *)
Definition uuid_from_json (j : json N) : result uuid := get_string j.

(** from_json(CtrvState), json_parsing.hpp:43-50; assigning a radian_t to an
    Angle constructs the angle. *)
Definition ctrv_state_from_json (j : json N) : result (ctrv_state A) :=
  let* jx := at_key j "position_x_m" in let* x := get_double jx in
  let* jy := at_key j "position_y_m" in let* y := get_double jy in
  let* jv := at_key j "velocity_mps" in let* v := get_double jv in
  let* ja := at_key j "yaw_rad" in let* a := get_double ja in
  let* jw := at_key j "yaw_rate_rad_per_s" in let* w := get_double jw in
  Ok (CtrvState x y v (angle_of a) w).
(** from_json(CtraState), json_parsing.hpp:58-67 *)
Definition ctra_state_from_json (j : json N) : result (ctra_state A) :=
  let* jx := at_key j "position_x_m" in let* x := get_double jx in
  let* jy := at_key j "position_y_m" in let* y := get_double jy in
  let* jv := at_key j "velocity_mps" in let* v := get_double jv in
  let* ja := at_key j "yaw_rad" in let* a := get_double ja in
  let* jw := at_key j "yaw_rate_rad_per_s" in let* w := get_double jw in
  let* jb := at_key j "acceleration_mps_sq" in let* b := get_double jb in
  Ok (CtraState x y v (angle_of a) w b).

(** Reading data()[i]: undefined behaviour past the end *)
Definition read (data : list F) (i : nat) : result F :=
  match nth_error data i with Some x => Ok x | None => UB end.
(** A matrix is the list of its rows.  Eigen::Map<Matrix<float, n, n>>(data)
    is column-major: entry (i, j) is data[i + n * j]; evaluated entry by entry
    for the transpose, whose entry (i, j) is entry (j, i). *)
Definition mapped (n : nat) (data : list F) (i j : nat) : result F := read data (i + n * j).
Definition transpose_of (entry : nat -> nat -> result F) (i j : nat) : result F := entry j i.
Definition assign (n : nat) (entry : nat -> nat -> result F) : result (list (list F)) :=
  rmap (fun i => rmap (fun j => entry i j) (seq 0 n)) (seq 0 n).
(** from_json(CtrvStateCovariance) with n = 5, json_parsing.hpp:78-83, and
    from_json(CtraStateCovariance) with n = 6, json_parsing.hpp:94-99 *)
Definition covariance_from_json (n : nat) (j : json N) : result (list (list F)) :=
  let* data := get_float_vector j in assign n (transpose_of (mapped n data)).

Notation obj S := (dyn_obj (num A) S (list (list F))).
(** from_json of a detection or track, json_parsing.hpp:107-113, 121-127, 135-141
    and 149-155 *)
Definition object_from_json {S} (state_from_json : json N -> result S) (n : nat) (j : json N) : result (obj S) :=
  let* jt := at_key j "timestamp_sec" in let* t := get_double jt in
  let* js := at_key j "state" in let* s := state_from_json js in
  let* jc := at_key j "covariance" in let* c := covariance_from_json n jc in
  let* ju := at_key j "uuid" in let* u := uuid_from_json ju in
  Ok (DynObj t s c u kUnknown).
Definition ctrv_from_json := object_from_json ctrv_state_from_json 5.
Definition ctra_from_json := object_from_json ctra_state_from_json 6.

(** to_json of all nine types, json_parsing.hpp:30, 41, 56, 73-76, 89-92, 105, 119,
    133 and 147: the bodies are empty, so that the given document is left as it is. *)
Definition to_json {T} (j : json N) (value : T) : json N := j.
(** Converting a value to a document, basic_json(value): to_json is called on a
    null document. *)
Definition json_of {T} (value : T) : json N := to_json JNull value.

(** Range-based for over a json value: the elements of an array, the values of
    an object in key order, nothing for null, and the value itself otherwise. *)
Definition elements (j : json N) : list (json N) :=
  match j with
  | JArr l => l
  | JObj m => map snd m
  | JNull => []
  | _ => [j]
  end.

(** The loop bodies of do_detections_from_json_file and do_tracks_from_json_file:
    CtrvDetection 165-185, CtraDetection 187-207, variant 209-231, and the same
    for tracks 236-256, 258-278 and 280-302. *)
Definition one_ctrv (j : json N) : result (obj (ctrv_state A)) :=
  let* jm := at_key j "motion_model" in let* motion_model := get_string jm in
  if String.eqb motion_model "ctrv" then ctrv_from_json j else Throw runtime_error.
Definition one_ctra (j : json N) : result (obj (ctra_state A)) :=
  let* jm := at_key j "motion_model" in let* motion_model := get_string jm in
  if String.eqb motion_model "ctra" then ctra_from_json j else Throw runtime_error.
Definition one_variant (j : json N) : result (var2 (obj (ctrv_state A)) (obj (ctra_state A))) :=
  let* jm := at_key j "motion_model" in let* motion_model := get_string jm in
  if String.eqb motion_model "ctrv" then let* d := ctrv_from_json j in Ok (Ctrv d)
  else if String.eqb motion_model "ctra" then let* d := ctra_from_json j in Ok (Ctra d)
  else Throw runtime_error.

(** The functions: [parsed] is [None] when nlohmann::json::parse throws. *)
Definition from_json_file {T} (one : json N -> result T) (key : string) (parsed : option (json N)) : result (list T) :=
  match parsed with
  | None => Throw json_error
  | Some data => let* list := at_key data key in rmap one (elements list)
  end.
(** detections_from_json_file<T>, json_parsing.hpp:306-308, and
    tracks_from_json_file<T>, json_parsing.hpp:310-312 *)
Definition detections_from_json_file {T} (one : json N -> result T) := from_json_file one "detections".
Definition tracks_from_json_file {T} (one : json N -> result T) := from_json_file one "tracks".
End Parsing.
