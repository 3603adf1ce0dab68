(** What a JSON document describes, independent of the parsing functions. *)
From Coq Require Import String List.
From Verif Require Import Base Uuid DynObj Motion Json.
Import ListNotations.
Local Open Scope string_scope.
Local Open Scope list_scope.

Section Spec.
Context {N : Type} {A : arith} {F : Type}.
Context (dbl : N -> num A) (flt : N -> F) (flt_bool : bool -> F).
Notation obj S := (dyn_obj (num A) S (list (list F))).

(** The object [j] has the value [v] under the key [k]. *)
Definition field (j : json N) (k : string) (v : json N) : Prop :=
  exists m1 m2, j = JObj (m1 ++ (k, v) :: m2) /\ Forall (fun p => fst p <> k) m1.
Definition number (j : json N) (k : string) (x : num A) : Prop :=
  exists n, field j k (JNum n) /\ x = dbl n.
(** The values a loop over [j] visits *)
Inductive listed : json N -> list (json N) -> Prop :=
| listed_array l : listed (JArr l) l
| listed_object m : listed (JObj m) (map snd m)
| listed_null : listed JNull []
| listed_bool b : listed (JBool b) [JBool b]
| listed_number n : listed (JNum n) [JNum n]
| listed_string s : listed (JStr s) [JStr s].

Definition is_ctrv_state (j : json N) (s : ctrv_state A) : Prop :=
  number j "position_x_m" (v_x s) /\ number j "position_y_m" (v_y s) /\
  number j "velocity_mps" (v_vel s) /\
  (exists a, number j "yaw_rad" a /\ v_yaw s = angle_of a) /\
  number j "yaw_rate_rad_per_s" (v_rate s).
Definition is_ctra_state (j : json N) (s : ctra_state A) : Prop :=
  number j "position_x_m" (a_x s) /\ number j "position_y_m" (a_y s) /\
  number j "velocity_mps" (a_vel s) /\
  (exists a, number j "yaw_rad" a /\ a_yaw s = angle_of a) /\
  number j "yaw_rate_rad_per_s" (a_rate s) /\ number j "acceleration_mps_sq" (a_acc s).

(** An array of numbers and booleans, as floats *)
Inductive as_float : json N -> F -> Prop :=
| as_float_number n : as_float (JNum n) (flt n)
| as_float_bool b : as_float (JBool b) (flt_bool b).
Definition floats (j : json N) (data : list F) : Prop :=
  exists l, j = JArr l /\ Forall2 as_float l data.
Definition entry (c : list (list F)) (i j : nat) : option F :=
  match nth_error c i with Some row => nth_error row j | None => None end.
(** The first n * n numbers, row by row *)
Definition is_covariance (n : nat) (j : json N) (c : list (list F)) : Prop :=
  exists data, floats j data /\ n * n <= length data /\
  length c = n /\ Forall (fun row => length row = n) c /\
  forall i j, i < n -> j < n -> entry c i j = nth_error data (n * i + j).

Definition is_object {S} (is_state : json N -> S -> Prop) (n : nat) (j : json N) (o : obj S) : Prop :=
  number j "timestamp_sec" (o_timestamp o) /\
  (exists js, field j "state" js /\ is_state js (o_state o)) /\
  (exists jc, field j "covariance" jc /\ is_covariance n jc (o_cov o)) /\
  field j "uuid" (JStr (o_uuid o)) /\
  o_class o = kUnknown.
Definition is_ctrv := is_object is_ctrv_state 5.
Definition is_ctra := is_object is_ctra_state 6.
Definition model (j : json N) (m : string) : Prop := field j "motion_model" (JStr m).
Definition is_element (j : json N) (v : var2 (obj (ctrv_state A)) (obj (ctra_state A))) : Prop :=
  match v with
  | Ctrv o => model j "ctrv" /\ is_ctrv j o
  | Ctra o => model j "ctra" /\ is_ctra j o
  end.
(** A supported element whose covariance has too few numbers; the fields read
    before the covariance are there. *)
Definition short {S} (is_state : json N -> S -> Prop) (n : nat) (j : json N) : Prop :=
  (exists t, number j "timestamp_sec" t) /\
  (exists js s, field j "state" js /\ is_state js s) /\
  exists jc data, field j "covariance" jc /\ floats jc data /\ length data < n * n.
End Spec.
