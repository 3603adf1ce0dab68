(** Loading from JSON: properties C67 and C68. *)
From Coq Require Import String List Arith Lia Reals.
From Verif Require Import Base Uuid DynObj Motion RealArith Json JsonSpec JsonThms.
Import ListNotations.
Local Open Scope nat_scope.
Local Open Scope string_scope.
Local Open Scope list_scope.

Section Any.
(** Any type of JSON numbers, any arithmetic and any conversions *)
Context {N : Type} {A : arith} {F : Type}.
Context (dbl : N -> num A) (flt : N -> F) (flt_bool : bool -> F).
Notation covariance := (covariance_from_json flt flt_bool).
Notation detections := (detections_from_json_file (one_variant dbl flt flt_bool)).
Notation tracks := (tracks_from_json_file (one_variant dbl flt flt_bool)).
Notation element := (is_element dbl flt flt_bool).

(** C67: the three outcomes of reading a covariance; [is_covariance n j c] of
    JsonSpec.v says that entry (i, j) is number n * i + j. *)
Theorem C67_layout n (j : json N) c : covariance n j = Ok c <-> is_covariance flt flt_bool n j c.
Proof. apply covariance_ok. Qed.
Theorem C67_surplus n (l extra : list (json N)) (c : list (list F)) :
  covariance n (JArr l) = Ok c -> Forall (fun e => exists x, as_float flt flt_bool e x) extra ->
  covariance n (JArr (l ++ extra)) = Ok c.
Proof.
  rewrite !C67_layout. intros (data & (l' & El & Hd) & L & Hl & Hf & H) Hx. injection El as <-.
  assert (E : exists more, Forall2 (as_float flt flt_bool) extra more).
  { clear - Hx. induction Hx as [|e extra He Hx IH]; [exists []; constructor|].
    destruct He as [x He], IH as [more Hm]. exists (x :: more). constructor; assumption. }
  destruct E as [more Hm]. exists (data ++ more). split; [exists (l ++ extra); split; [reflexivity|now apply Forall2_app]|].
  split; [rewrite app_length; lia|]. split; [exact Hl|]. split; [exact Hf|].
  intros i k Hi Hk. rewrite (H i k Hi Hk). symmetry. apply nth_error_app1. nia.
Qed.
Theorem C67_short_is_undefined n (j : json N) :
  covariance n j = UB <-> exists data, floats flt flt_bool j data /\ length data < n * n.
Proof. apply covariance_ub. Qed.
Theorem C67_throws n (j : json N) e :
  covariance n j = Throw e <-> e = json_error /\ ~ exists data, floats flt flt_bool j data.
Proof. apply covariance_throw. Qed.

(** C68: loading succeeds exactly on well-formed documents, with the described
    objects in order, *)
Theorem C68_detections parsed ds : detections parsed = Ok ds <->
  exists data j l, parsed = Some data /\ field data "detections" j /\ listed j l /\ Forall2 element l ds.
Proof.
  unfold detections_from_json_file. rewrite file_ok. split; intros (data & j & l & E & Hj & Hl & H);
    exists data, j, l; (split; [exact E|split; [exact Hj|split; [exact Hl|]]]);
    (eapply forall2_impl; [|exact H]); intros x y; apply variant_ok.
Qed.
Theorem C68_tracks parsed ts : tracks parsed = Ok ts <->
  exists data j l, parsed = Some data /\ field data "tracks" j /\ listed j l /\ Forall2 element l ts.
Proof.
  unfold tracks_from_json_file. rewrite file_ok. split; intros (data & j & l & E & Hj & Hl & H);
    exists data, j, l; (split; [exact E|split; [exact Hj|split; [exact Hl|]]]);
    (eapply forall2_impl; [|exact H]); intros x y; apply variant_ok.
Qed.
(** also for the loaders of one motion model; *)
Theorem C68_ctrv key parsed ds : from_json_file (one_ctrv dbl flt flt_bool) key parsed = Ok ds <->
  exists data j l, parsed = Some data /\ field data key j /\ listed j l /\
  Forall2 (fun e o => model e "ctrv" /\ is_ctrv dbl flt flt_bool e o) l ds.
Proof.
  rewrite file_ok. split; intros (data & j & l & E & Hj & Hl & H);
    exists data, j, l; (split; [exact E|split; [exact Hj|split; [exact Hl|]]]);
    (eapply forall2_impl; [|exact H]); intros x y; apply plain_ctrv.
Qed.
Theorem C68_ctra key parsed ds : from_json_file (one_ctra dbl flt flt_bool) key parsed = Ok ds <->
  exists data j l, parsed = Some data /\ field data key j /\ listed j l /\
  Forall2 (fun e o => model e "ctra" /\ is_ctra dbl flt flt_bool e o) l ds.
Proof.
  rewrite file_ok. split; intros (data & j & l & E & Hj & Hl & H);
    exists data, j, l; (split; [exact E|split; [exact Hj|split; [exact Hl|]]]);
    (eapply forall2_impl; [|exact H]); intros x y; apply plain_ctra.
Qed.
(** std::runtime_error exactly when the first bad element has another motion model; *)
Theorem C68_unsupported key parsed : from_json_file (one_variant dbl flt flt_bool) key parsed = Throw runtime_error <->
  exists data j l1 e l2 ds m, parsed = Some data /\ field data key j /\ listed j (l1 ++ e :: l2) /\
  Forall2 element l1 ds /\ model e m /\ m <> "ctrv" /\ m <> "ctra".
Proof.
  rewrite file_throw. split.
  - intros [[[=] _]|(data & j & l1 & e & l2 & ds & E & Hj & Hl & H & He)].
    apply variant_runtime in He as (m & Hm & H1 & H2). exists data, j, l1, e, l2, ds, m.
    repeat (split; [eassumption|]). split; [|auto]. eapply forall2_impl; [|exact H]. intros x y. apply variant_ok.
  - intros (data & j & l1 & e & l2 & ds & m & E & Hj & Hl & H & Hm). right. exists data, j, l1, e, l2, ds.
    repeat (split; [eassumption|]). split; [|apply variant_runtime; eauto].
    eapply forall2_impl; [|exact H]. intros x y. apply variant_ok.
Qed.
(** undefined behaviour exactly when the first bad element is complete up to a
    covariance with too few numbers; *)
Theorem C68_undefined key parsed : from_json_file (one_variant dbl flt flt_bool) key parsed = UB <->
  exists data j l1 e l2 ds, parsed = Some data /\ field data key j /\ listed j (l1 ++ e :: l2) /\
  Forall2 element l1 ds /\
  (model e "ctrv" /\ short dbl flt flt_bool (is_ctrv_state dbl) 5 e \/
   model e "ctra" /\ short dbl flt flt_bool (is_ctra_state dbl) 6 e).
Proof.
  rewrite file_ub. split; intros (data & j & l1 & e & l2 & ds & E & Hj & Hl & H & He);
    exists data, j, l1, e, l2, ds; repeat (split; [eassumption|]);
    (split; [eapply forall2_impl; [|exact H]; intros x y; apply variant_ok|]); now apply variant_ub.
Qed.
(** and an exception of the JSON library exactly when the text is not JSON, or the
    list is missing, or the first bad element is bad in another way. *)
Theorem C68_json_error key parsed : from_json_file (one_variant dbl flt flt_bool) key parsed = Throw json_error <->
  (parsed = None \/ exists data, parsed = Some data /\ ~ exists j, field data key j) \/
  exists data j l1 e l2 ds, parsed = Some data /\ field data key j /\ listed j (l1 ++ e :: l2) /\
  Forall2 element l1 ds /\ ~ (exists d, element e d) /\
  ~ (exists m, model e m /\ m <> "ctrv" /\ m <> "ctra") /\
  ~ (model e "ctrv" /\ short dbl flt flt_bool (is_ctrv_state dbl) 5 e \/
     model e "ctra" /\ short dbl flt flt_bool (is_ctra_state dbl) 6 e).
Proof.
  rewrite file_throw. split.
  - intros [[_ H]|(data & j & l1 & e & l2 & ds & E & Hj & Hl & H & He)]; [auto|]. right.
    exists data, j, l1, e, l2, ds. repeat (split; [eassumption|]).
    split; [eapply forall2_impl; [|exact H]; intros x y; apply variant_ok|].
    split; [intros [d Hd]; apply variant_ok in Hd; congruence|].
    split; [intros Hm; apply (variant_runtime dbl flt flt_bool) in Hm; congruence|]. intros Hs. apply variant_ub in Hs. congruence.
  - intros [H|(data & j & l1 & e & l2 & ds & E & Hj & Hl & H & H1 & H2 & H3)]; [auto|]. right.
    exists data, j, l1, e, l2, ds. repeat (split; [eassumption|]).
    split; [eapply forall2_impl; [|exact H]; intros x y; apply variant_ok|].
    destruct (one_variant dbl flt flt_bool e) as [d|x|] eqn:Ee.
    + exfalso. apply H1. exists d. now apply variant_ok.
    + destruct (variant_throw _ _ _ _ _ Ee) as [->| ->]; [reflexivity|]. exfalso. now apply H2, (variant_runtime dbl flt flt_bool).
    + exfalso. now apply H3, variant_ub.
Qed.
Theorem C68_no_other key parsed x : from_json_file (one_variant dbl flt flt_bool) key parsed = Throw x ->
  x = runtime_error \/ x = json_error.
Proof.
  rewrite file_throw. intros [[-> _]|(data & j & l1 & e & l2 & ds & _ & _ & _ & _ & He)]; [auto|].
  apply variant_throw in He. tauto.
Qed.

(** ** C82: what is written cannot be read back. *)
Theorem C82_object_round_trip (d : dyn_obj (num A) (ctrv_state A) (list (list F)))
    (d' : dyn_obj (num A) (ctra_state A) (list (list F))) :
  ctrv_from_json dbl flt flt_bool (json_of d) = Throw json_error /\
  ctra_from_json dbl flt flt_bool (json_of d') = Throw json_error.
Proof. split; reflexivity. Qed.
Theorem C82_part_round_trip (u : uuid) (s : ctrv_state A) (s' : ctra_state A) (c : list (list F)) n :
  uuid_from_json (json_of (N := N) u) = Throw json_error /\
  ctrv_state_from_json dbl (json_of s) = Throw json_error /\
  ctra_state_from_json dbl (json_of s') = Throw json_error /\
  covariance_from_json flt flt_bool n (json_of c) = Throw json_error.
Proof. repeat split; reflexivity. Qed.
(** A file made of written detections (or tracks) loads only if it is empty. *)
Theorem C82_file_round_trip key (ds : list (dyn_obj (num A) (ctrv_state A) (list (list F)))) :
  from_json_file (one_ctrv dbl flt flt_bool) key (Some (JObj [(key, JArr (map json_of ds))])) =
  match ds with [] => Ok [] | _ => Throw json_error end.
Proof.
  unfold from_json_file. cbn [at_key assoc]. rewrite String.eqb_refl. destruct ds; reflexivity.
Qed.
End Any.
Print Assumptions C82_object_round_trip.
Print Assumptions C82_part_round_trip.
Print Assumptions C82_file_round_trip.
Print Assumptions C67_layout.
Print Assumptions C67_surplus.
Print Assumptions C67_short_is_undefined.
Print Assumptions C67_throws.
Print Assumptions C68_detections.
Print Assumptions C68_tracks.
Print Assumptions C68_ctrv.
Print Assumptions C68_ctra.
Print Assumptions C68_unsupported.
Print Assumptions C68_undefined.
Print Assumptions C68_json_error.
Print Assumptions C68_no_other.

(** Concrete documents; numbers are reals, so that the values of the fields can
    be told apart. *)
Section Cases.
Let num (z : Z) : json R := JNum (IZR z).
Let state : json R := JObj [("position_x_m", num 1); ("position_y_m", num 2); ("velocity_mps", num 3);
  ("yaw_rad", num 4); ("yaw_rate_rad_per_s", num 5)].
Let numbers (k : nat) : json R := JArr (map (fun i => num (Z.of_nat i)) (seq 0 k)).
Let detection (model_name : string) (k : nat) : json R := JObj [("covariance", numbers k);
  ("motion_model", JStr model_name); ("state", state); ("timestamp_sec", num 7); ("uuid", JStr "a")].
Let load (l : list (json R)) := detections_from_json_file
  (one_variant (A := reals) (fun x : R => x) (fun x : R => x) (fun b : bool => if b then 1%R else 0%R))
  (Some (JObj [("detections", JArr l)])).

Example C67_case : covariance_from_json (fun x : R => x) (fun b : bool => if b then 1%R else 0%R) 5 (numbers 36) =
  Ok (map (fun i => map (fun j => IZR (Z.of_nat (5 * i + j))) (seq 0 5)) (seq 0 5)).
Proof. reflexivity. Qed.
Example C68_case : exists c, load [detection "ctrv" 25] =
  Ok [Ctrv (DynObj 7%R (CtrvState (A := reals) 1 2 3 (angle_of (A := reals) 4) 5)%R c "a" kUnknown)] /\ length c = 5.
Proof. eexists. split; reflexivity. Qed.
Example C68_bad_cases :
  load [detection "ctrv" 25; detection "bicycle" 25] = Throw runtime_error /\
  load [detection "ctrv" 24; detection "bicycle" 25] = UB /\
  load [detection "ctra" 36] = Throw json_error.
Proof. repeat split; reflexivity. Qed.
(** The loaded detection of C68_case, written again, is not readable. *)
Example C82_case : exists d, load [detection "ctrv" 25] = Ok [Ctrv d] /\ load [json_of d] = Throw json_error.
Proof. eexists. split; reflexivity. Qed.
End Cases.
