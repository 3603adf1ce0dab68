(** Property C122: well separated objects keep their tracks, for the cycle made of the
    functions of the library in the number types of the code.

    [cycle64], [predict64], [object_pose], [platform]: LibraryCycle.v.  [sighting],
    [models_right], [updated], [sighted_run]: LibraryCycleSpec.v.  [gate_between],
    [above_gate], [one_track_each]: IdentitySpec.v.  [stays_above], [is_level], [reaches]:
    HistorySpec.v. *)
From stdpp Require Import gmap strings list.
From Coq Require Import NArith ZArith Lia Reals Lra FunctionalExtensionality.
From Flocq Require Import Core IEEE754.BinarySingleNaN.
From Verif Require Import Base Uuid DynObj Float DlibMatrix MatchingExamples FloatDistance FloatUnscented FloatLlt FloatPredict FloatFusion Motion DoubleArith DoubleThms
  Propagation TrackManager TrackManagerSpec TrackManagerProofs TrackManagerExamples TrackManagerThms HistorySpec Assignment PipelineDlib PipelineThms
  IdentitySpec IdentityThms LibraryCycle LibraryCycleSpec LibraryCycleThms
  Properties_FloatLlt Properties_FloatPredict Properties_CtraPredict Properties_FloatFusion Properties_TrackManager Properties_Identity.
Local Open Scope nat_scope.
Local Open Scope list_scope.

Section Cycle.
  Context (p : platform) {Obj : Type} `{EqDecision Obj} (who : uuid → Obj) (model : Obj → motion).
  Notation id := (@v_uuid _ _ _ _ _).
  Let usable (s : mgr (track64 p)) :=
    reachable (track64 p) s ∧ (m_removal s < m_promo s < 2 ^ 64 - 1)%N ∧ (m_removal s ≤ 1)%N ∧
    (∀ u x, view s u = Some x → (e_count x < 2 ^ 64 - 1)%N) ∧ one_track_each who s ∧ models_right p who model s.

  (** One cycle: it succeeds; the track of a detected object is predicted and fused with the
      detection of that object, the track of an undetected object is counted down and
      otherwise left as it is, a detected object without track gets its detection as
      track; no object gets a second track, and tracks keep the motion model of their object. *)
  Theorem C122_cycle gate a b sep e now truth ord1 ord2 ds (s : mgr (track64 p)) :
    gate_between gate a b sep e → usable s → order_of ord1 (m_tracks s) → order_of ord2 (m_occ s) →
    sighting p who model a b sep e now truth s ds →
    ∃ s', cycle64 p now (above_gate gate) ord1 ord2 ds s = (s', Ok ()) ∧
      one_track_each who s' ∧ models_right p who model s' ∧
      (∀ u x d, view s u = Some x → In d ds → who u = who (id d) →
         let n := N.min (e_count x + 1) (m_promo s) in
         ∃ f : track64 p, updated p now (e_track x) d = Some f ∧
           view s' u = Some (Entry f (if decide (m_promo s ≤ n)%N then Confirmed else e_status x) n) ∧
           view s' (id d) = None) ∧
      (∀ u x, view s u = Some x → (∀ d, In d ds → who u ≠ who (id d)) →
         let n := (e_count x - 1)%N in
         view s' u = if decide (n ≤ m_removal s)%N then None
           else Some (Entry (e_track x) (if decide (m_promo s ≤ n)%N then Confirmed else e_status x) n)) ∧
      (∀ d, In d ds → (∀ u x, view s u = Some x → who u ≠ who (id d)) →
         view s' (id d) = Some (Entry (d : track64 p) Tentative 1%N)) ∧
      (∀ u, view s u = None → ¬ In u (map id ds) → view s' u = None).
  Proof.
    intros G (Hr & T & R & C & One & Hm) H1 H2 O.
    exact (sighted_cycle p who model gate a b sep e G now truth ord1 ord2 ds s Hr H1 H2 T R C One Hm O).
  Qed.

  (** Any number of cycles: whether track [u] is there, its count and its status depend on
      nothing but in which cycles its own object was detected ... *)
  Theorem C122_life gate a b sep e u (s : mgr (track64 p)) bs s' (x : entry (track64 p)) :
    gate_between gate a b sep e → usable s → sighted_run p who model a b sep e gate u s bs s' →
    view s u = Some x →
    (is_Some (view s' u) ↔
       stays_above (Z.of_N (m_promo s)) (Z.of_N (m_removal s)) (Z.of_N (e_count x)) bs) ∧
    ∀ x', view s' u = Some x' →
      is_level (Z.of_N (m_promo s)) (Z.of_N (e_count x)) bs (Z.of_N (e_count x')) ∧
      (e_status x' = Confirmed ↔
         e_status x = Confirmed ∨ reaches (Z.of_N (m_promo s)) (Z.of_N (e_count x)) bs).
  Proof.
    intros G (Hr & T & R & C & One & Hm) Run.
    destruct (sighted_observed p who model gate a b sep e G u s bs s' Hr T R C One Hm Run) as [Ob _].
    destruct (observed_run_thm (trk := track64 p) (variant_lawful _ _ _ _ _) id who (object_pose p) (object_pose p) (score64 p) (visit64 p)
      gate a b sep e (λ d, d) (λ d, eq_refl) G (score64_distance p) u s bs s' Hr T R C One Ob) as (_ & _ & _ & _ & _ & H).
    apply H.
  Qed.

  (** ... and what the next cycle needs is there again. *)
  Theorem C122_usable gate a b sep e u (s : mgr (track64 p)) bs s' :
    gate_between gate a b sep e → usable s → sighted_run p who model a b sep e gate u s bs s' → usable s'.
  Proof.
    intros G (Hr & T & R & C & One & Hm) Run.
    destruct (sighted_observed p who model gate a b sep e G u s bs s' Hr T R C One Hm Run) as [Ob Hm'].
    destruct (observed_run_thm (trk := track64 p) (variant_lawful _ _ _ _ _) id who (object_pose p) (object_pose p) (score64 p) (visit64 p)
      gate a b sep e (λ d, d) (λ d, eq_refl) G (score64_distance p) u s bs s' Hr T R C One Ob) as (Hr' & Ep & Er & C' & One' & _).
    unfold usable. rewrite Ep, Er. done.
  Qed.

  (** What covariance_intersection_visitor makes of a predicted track and a detection: uuid,
      class and motion model are those of the track, the time stamp is that of the detection. *)
  Theorem C122_updated now (t d : object64 p) : motion_of t = motion_of d →
    ∃ f : track64 p, visit64 p (predict64 p now t) d = Ok f ∧ updated p now t d = Some f ∧
      motion_of f = motion_of t ∧ v_uuid f = v_uuid t ∧ v_class f = v_class t ∧ v_timestamp f = v_timestamp d.
  Proof.
    intros E. destruct (same_visit p (predict64 p now t) d) as [f Hf]; [by rewrite predict64_motion|].
    destruct (updated_visit p now t d f Hf) as [Hu _].
    exists f. split; [exact Hf|]. split; [exact Hu|]. exact (updated_same p now t d f Hu).
  Qed.
End Cycle.

(** ** Example: a turning and an accelerating vehicle
    Tracks at 0 and 10, driving at 2 m/s, are predicted from time 0 to time 1; detections at
    2 and 12 of these two and at 50 of a third.  Gate 8.  Sine, cosine and argument are
    taken to first order, so that the case can be computed. *)
Definition first_order : platform := Platform (fun x => x) (fun _ => f64_of_Z 1) (fun _ y => y) left_to_right left_to_right6 C118_orders C118_orders Last_heading.
Definition unit32 (i j : nat) : f32 := if i =? j then f32_of_Z 1 else f32_of_Z 0.
Ltac same := apply B2SF_inj; vm_compute; reflexivity.
Lemma unit_column k : k < 6 -> llt_column32 (fun _ j => chain j) unit32 k = unit32.
Proof.
  intros H. apply functional_extensionality; intros i. apply functional_extensionality; intros j.
  destruct k as [|[|[|[|[|[|k]]]]]]; [..|exfalso; lia]; clear H; unfold llt_column32; cbv zeta;
  (destruct (j =? _) eqn:Ej; [apply Nat.eqb_eq in Ej; subst j|reflexivity]).
  all: destruct i as [|[|[|[|[|[|[|i]]]]]]]; try same.
Qed.
Lemma unit_llt n : n <= 6 -> llt_matrixL32 n (fun _ j => chain j) unit32 = unit32.
Proof.
  intros H. assert (E : forall ks, (forall k, In k ks -> k < 6) -> llt_loop32 (fun _ j => chain j) ks unit32 = (unit32, true)).
  { induction ks as [|k ks IH]; intros Hk; [reflexivity|]. cbn [llt_loop32]. rewrite unit_column by (apply Hk; now left).
    rewrite IH by (intros; apply Hk; now right).
    assert (K : k < 6) by (apply Hk; now left).
    assert (P : Bleb (llt_pivot32 (fun _ j => chain j) unit32 k) (B754_zero false) = false)
      by (clear - K; destruct k as [|[|[|[|[|[|k]]]]]]; [..|exfalso; lia]; vm_compute; reflexivity).
    rewrite P. reflexivity. }
  apply functional_extensionality; intros i. apply functional_extensionality; intros j.
  unfold llt_matrixL32, llt32. rewrite E by (intros k Hk; apply in_seq in Hk; lia). cbn [fst].
  destruct (j <=? i) eqn:L; [reflexivity|]. apply Nat.leb_gt in L. unfold unit32. replace (i =? j) with false; [same|].
  symmetry. apply Nat.eqb_neq. lia.
Qed.

Local Notation P1 := first_order.
Local Notation D1 := (doubles (p_sin P1) (p_cos P1) (p_arg P1)).
Definition turning (u : uuid) (time x : Z) : object64 P1 :=
  Ctrv (DynObj (f64_of_Z time) (CtrvState (A := D1) (f64_of_Z x) (f64_of_Z 0) (f64_of_Z 2) (angle_of (A := D1) (f64_of_Z 0)) (f64_of_Z 0))
    unit32 u kUnknown).
Definition accelerating (u : uuid) (time x : Z) : object64 P1 :=
  Ctra (DynObj (f64_of_Z time) (CtraState (A := D1) (f64_of_Z x) (f64_of_Z 0) (f64_of_Z 2) (angle_of (A := D1) (f64_of_Z 0)) (f64_of_Z 0) (f64_of_Z 0))
    unit32 u kUnknown).
Definition pose_sf (q : pose64) : SpecFloat.spec_float * SpecFloat.spec_float * SpecFloat.spec_float :=
  let '(x, y, h) := q in (B2SF x, B2SF y, B2SF h).
Ltac known L o5 d := unfold predict64, predict_to_time, v_propagate_to_time, propagate_to_time; cbn [turning accelerating o_state o_cov o_timestamp o_uuid o_class];
  unfold default_unscented_transform32, unscented_transform32, unscented_kalman_filter_predict32, predicted_points32, generate_sigma_points32;
  cbv zeta; change (order_L o5) with (λ _ j : nat, chain j); change (s_dim L) with d; rewrite unit_llt by lia; vm_compute; reflexivity.
Lemma turning_predicted u : pose_sf (object_pose P1 (predict64 P1 (f64_of_Z 1) (turning u 0 0))) =
  (SpecFloat.S754_finite false 4503600164241408 (-51), SpecFloat.S754_finite false 8084843216764928 (-53), SpecFloat.S754_zero false).
Proof. unfold turning. known (ctrv_p P1) (p_sum5 P1) 5. Qed.
Lemma accelerating_predicted u : pose_sf (object_pose P1 (predict64 P1 (f64_of_Z 1) (accelerating u 0 10))) =
  (SpecFloat.S754_finite false 6599079274479616 (-49), SpecFloat.S754_finite false 7074237412016128 (-53), SpecFloat.S754_zero false).
Proof. unfold accelerating. known (ctra_p P1) (p_sum6 P1) 6. Qed.

Lemma pose_known q X Y (x y t r : R) : pose_sf q = (X, Y, SpecFloat.S754_zero false) →
  SF2R radix2 X = x → SF2R radix2 Y = y → is_finite_SF X = true → is_finite_SF Y = true →
  (Rabs x <= 64 → Rabs y <= 64 → 0 <= r → (x - t) * (x - t) + y * y <= r * r →
   pose_within 6 q ∧ pose_distance (pose_value q) (t, 0, 0) <= r)%R.
Proof.
  destruct q as [[qx qy] qh]. intros [= E1 E2 E3] Ex Ey Fx Fy Bx By Hr H.
  rewrite <- E1, SF2R_B2SF in Ex. rewrite <- E2, SF2R_B2SF in Ey.
  assert (B2R qh = 0%R) as Eh by (rewrite <- SF2R_B2SF, E3; reflexivity).
  rewrite <- E1, is_finite_SF_B2SF in Fx. rewrite <- E2, is_finite_SF_B2SF in Fy.
  assert (is_finite qh = true) as Fh by (rewrite <- is_finite_SF_B2SF, E3; reflexivity).
  split.
  - cbn [pose_within]. change (bpow radix2 6) with 64%R.
    constructor; [split; [exact Fx|by rewrite Ex]|]. constructor; [split; [exact Fy|by rewrite Ey]|].
    constructor; [split; [exact Fh|rewrite Eh, Rabs_R0; lra]|constructor].
  - cbn [pose_value pose_distance]. rewrite Ex, Ey, Eh. rewrite <- (sqrt_square r Hr). apply sqrt_le_1_alt. lra.
Qed.

Lemma dyadic m e : SF2R radix2 (SpecFloat.S754_finite false m e) = (IZR (Zpos m) * bpow radix2 e)%R.
Proof. reflexivity. Qed.
Ltac dyadics := rewrite dyadic; change (bpow radix2 (-51)) with (/ 2251799813685248)%R;
  change (bpow radix2 (-53)) with (/ 9007199254740992)%R; change (bpow radix2 (-49)) with (/ 562949953421312)%R;
  change (bpow radix2 (-47)) with (/ 140737488355328)%R; reflexivity.

Lemma two_added {trk : track_type} (L : lawful trk) (x y : trk) : tt_uuid x = "a" → tt_uuid y = "b" →
  let s := exec [Add x; Add y] (mgr_init trk 2 0) in
  reachable trk s ∧ m_promo s = 2%N ∧ m_removal s = 0%N ∧
  ∀ u z, view s u = Some z ↔ (u = "a" ∧ z = Entry x Tentative 1%N) ∨ (u = "b" ∧ z = Entry y Tentative 1%N).
Proof.
  intros Ux Uy s.
  assert (reachable trk (mgr_init trk 2 0)) as R0 by (apply (reachable_exec 2 0 []); [done|done|constructor]).
  assert (reachable trk (exec [Add x] (mgr_init trk 2 0))) as R1 by (apply reachable_exec; [done|done|repeat constructor]).
  split; [apply reachable_exec; [done|done|repeat constructor]|].
  assert (∀ u, view (mgr_init trk 2 0) u = None) as V0 by (intros; done).
  pose proof (C03_add trk L _ x R0) as A. rewrite V0 in A. destruct A as (s1 & E1 & A1 & A2 & P1' & Q1).
  assert (exec [Add x] (mgr_init trk 2 0) = s1) as F1 by (cbn [exec foldl]; unfold exec1; cbn [step]; by rewrite E1).
  rewrite F1 in R1. rewrite Ux in A1, A2.
  pose proof (C03_add trk L _ y R1) as B. rewrite Uy, (A2 "b") in B by done. rewrite V0 in B. destruct B as (s2 & E2 & B1 & B2 & P2' & Q2).
  assert (s = s2) as ->.
  { unfold s. change (exec1 (exec [Add x] (mgr_init trk 2 0)) (Add y) = s2). rewrite F1. unfold exec1. cbn [step]. by rewrite E2. }
  split; [by rewrite P2', P1'|]. split; [by rewrite Q2, Q1|].
  intros u z. destruct (decide (u = "b")) as [->|N2].
  - rewrite B1. split; [intros [= <-]; right; done|]. intros [[? _]|[_ ->]]; done.
  - rewrite B2 by done. destruct (decide (u = "a")) as [->|N1].
    + rewrite A1. split; [intros [= <-]; left; done|]. intros [[_ ->]|[? _]]; done.
    + rewrite A2, V0 by done. split; [done|]. intros [[? _]|[? _]]; done.
Qed.

Definition two_vehicles : mgr (track64 P1) := exec [Add (turning "a" 0 0 : track64 P1); Add (accelerating "b" 0 10 : track64 P1)] (mgr_init (track64 P1) 2 0).
Definition three_vehicles : list (object64 P1) := [accelerating "x" 1 12; turning "y" 1 2; turning "z" 1 50].
Definition vehicle_model (i : nat) : motion := match i with 1 => Accelerating | _ => Turning end.
Definition vehicle_truth (i : nat) : R * R * R := match i with 0 => (2, 0, 0)%R | 1 => (12, 0, 0)%R | _ => (50, 0, 0)%R end.

Example C122_case :
  gate_between (f32_of_Z 8) 1 (1 / 2) 10 6 ∧
  sighting P1 object_of vehicle_model 1 (1 / 2) 10 6 (f64_of_Z 1) vehicle_truth two_vehicles three_vehicles ∧
  ∃ s', cycle64 P1 (f64_of_Z 1) (above_gate (f32_of_Z 8)) (map_to_list (m_tracks two_vehicles)).*1 (map_to_list (m_occ two_vehicles)).*1
      three_vehicles two_vehicles = (s', Ok ()) ∧
    (∃ f, view s' "a" = Some (Entry f Confirmed 2%N) ∧ updated P1 (f64_of_Z 1) (turning "a" 0 0) (turning "y" 1 2) = Some f) ∧
    (∃ f, view s' "b" = Some (Entry f Confirmed 2%N) ∧ updated P1 (f64_of_Z 1) (accelerating "b" 0 10) (accelerating "x" 1 12) = Some f) ∧
    view s' "z" = Some (Entry (turning "z" 1 50 : track64 P1) Tentative 1%N) ∧ view s' "x" = None ∧ view s' "y" = None.
Proof.
  assert (gate_between (f32_of_Z 8) 1 (1 / 2) 10 6) as G.
  { destruct (f32_small 8 eq_refl) as [E F]. split; [done|]. split; [done|]. split; [lra|]. split; [lra|]. rewrite E.
    assert (bpow radix2 (6 - 23) <= / 8 ∧ bpow radix2 (-21) <= / 100)%R as [B1 B2].
    { change (bpow radix2 (6 - 23)) with (/ 131072)%R. change (bpow radix2 (-21)) with (/ 2097152)%R. lra. }
    pose proof (bpow_gt_0 radix2 (6 - 23)). pose proof (bpow_gt_0 radix2 (-21)). split; lra. }
  assert (reachable (track64 P1) two_vehicles ∧ m_promo two_vehicles = 2%N ∧ m_removal two_vehicles = 0%N ∧
    ∀ u z, view two_vehicles u = Some z ↔ (u = "a" ∧ z = Entry (turning "a" 0 0 : track64 P1) Tentative 1%N) ∨
      (u = "b" ∧ z = Entry (accelerating "b" 0 10 : track64 P1) Tentative 1%N)) as (Hr & Hp & Hq & V)
    by exact (two_added (variant_lawful _ _ _ _ _) (turning "a" 0 0 : track64 P1) (accelerating "b" 0 10 : track64 P1) eq_refl eq_refl).
  assert (one_track_each object_of two_vehicles) as One.
  { intros u x u' x' H H' E. apply V in H as [[-> _]|[-> _]], H' as [[-> _]|[-> _]]; try done; vm_compute in E; discriminate E. }
  assert (models_right P1 object_of vehicle_model two_vehicles) as Hm.
  { intros u x H. apply V in H as [[-> ->]|[-> ->]]; reflexivity. }
  assert (∀ u z, u = "x" ∨ u = "y" ∨ u = "z" → view two_vehicles u = Some z → False) as Fr.
  { intros u z Hu H. apply V in H as [[-> _]|[-> _]]; destruct Hu as [Hu|[Hu|Hu]]; discriminate Hu. }
  assert (sighting P1 object_of vehicle_model 1 (1 / 2) 10 6 (f64_of_Z 1) vehicle_truth two_vehicles three_vehicles) as O.
  { split.
    + repeat constructor; cbn; intuition discriminate.
    + intros d Hd. destruct (view two_vehicles (v_uuid d)) as [z|] eqn:E; [|done]. exfalso.
      destruct Hd as [<-|[<-|[<-|[]]]]; [apply (Fr "x" z); [left|exact E]|apply (Fr "y" z); [right; left|exact E]|apply (Fr "z" z); [right; right|exact E]]; reflexivity.
    + vm_compute. done.
    + intros d d' [<-|[<-|[<-|[]]]] [<-|[<-|[<-|[]]]] H; try reflexivity; vm_compute in H; discriminate H.
    + intros d [<-|[<-|[<-|[]]]]; reflexivity.
    + intros u x H. apply V in H as [[-> ->]|[-> ->]]; cbn [e_track].
      * eapply (pose_known _ _ _ _ _ 2 1); [apply turning_predicted|dyadics|dyadics|done|done|apply Rabs_le; lra|apply Rabs_le; lra|lra|lra].
      * eapply (pose_known _ _ _ _ _ 12 1); [apply accelerating_predicted|dyadics|dyadics|done|done|apply Rabs_le; lra|apply Rabs_le; lra|lra|lra].
    + intros d [<-|[<-|[<-|[]]]].
      * eapply (pose_known _ (SpecFloat.S754_finite false 6755399441055744 (-49)) (SpecFloat.S754_zero false) _ _ 12 (1 / 2));
          [vm_compute; reflexivity|dyadics|reflexivity|done|done|apply Rabs_le; lra|apply Rabs_le; cbn; lra|lra|cbn; lra].
      * eapply (pose_known _ (SpecFloat.S754_finite false 4503599627370496 (-51)) (SpecFloat.S754_zero false) _ _ 2 (1 / 2));
          [vm_compute; reflexivity|dyadics|reflexivity|done|done|apply Rabs_le; lra|apply Rabs_le; cbn; lra|lra|cbn; lra].
      * eapply (pose_known _ (SpecFloat.S754_finite false 7036874417766400 (-47)) (SpecFloat.S754_zero false) _ _ 50 (1 / 2));
          [vm_compute; reflexivity|dyadics|reflexivity|done|done|apply Rabs_le; lra|apply Rabs_le; cbn; lra|lra|cbn; lra].
    + assert (∀ x y : R, (10 <= Rabs (x - y))%R → (10 <= pose_distance (x, 0, 0) (y, 0, 0))%R) as K by (intros; by rewrite on_axis).
      intros u x d Hx Hd Ne. apply V in Hx as [[-> _]|[-> _]]; destruct Hd as [<-|[<-|[<-|[]]]]; try (exfalso; apply Ne; reflexivity).
      * apply (K 2 12)%R. rewrite Rabs_left; lra.
      * apply (K 2 50)%R. rewrite Rabs_left; lra.
      * apply (K 12 2)%R. rewrite Rabs_pos_eq; lra.
      * apply (K 12 50)%R. rewrite Rabs_left; lra.
    + exists "a", (Entry (turning "a" 0 0 : track64 P1) Tentative 1%N), (turning "y" 1 2),
        "b", (Entry (accelerating "b" 0 10 : track64 P1) Tentative 1%N), (accelerating "x" 1 12).
      split; [done|]. split; [apply V; auto|]. split; [apply V; auto|]. split; [right; left; reflexivity|]. split; [left; reflexivity|]. split; reflexivity. }
  split; [exact G|]. split; [exact O|].
  destruct (C122_cycle P1 object_of vehicle_model (f32_of_Z 8) 1 (1 / 2) 10 6 (f64_of_Z 1) vehicle_truth
    (map_to_list (m_tracks two_vehicles)).*1 (map_to_list (m_occ two_vehicles)).*1 three_vehicles two_vehicles G)
    as (s' & E & _ & _ & V1 & V2 & V3 & V4).
  { split; [done|]. rewrite Hp, Hq. split; [done|]. split; [done|]. split; [|done].
    intros u x H. apply V in H as [[_ ->]|[_ ->]]; done. }
  { apply some_order. } { apply some_order. } { exact O. }
  exists s'. split; [exact E|].
  destruct (V1 "a" (Entry (turning "a" 0 0 : track64 P1) Tentative 1%N) (turning "y" 1 2)) as (f1 & F1 & W1 & X1);
    [apply V; auto|right; left; reflexivity|reflexivity|].
  destruct (V1 "b" (Entry (accelerating "b" 0 10 : track64 P1) Tentative 1%N) (accelerating "x" 1 12)) as (f2 & F2 & W2 & X2);
    [apply V; auto|left; reflexivity|reflexivity|].
  rewrite Hp in W1, W2.
  split; [exists f1; split; [exact W1|exact F1]|]. split; [exists f2; split; [exact W2|exact F2]|].
  split; [|split; [exact X2|exact X1]].
  apply (V3 (turning "z" 1 50)); [right; right; left; reflexivity|].
  intros u x H. apply V in H as [[-> _]|[-> _]]; intros Ew; vm_compute in Ew; discriminate Ew.
Qed.

(** The cycle is a run for track a, whose object was detected. *)
Example C122_run_case : ∃ s', sighted_run P1 object_of vehicle_model 1 (1 / 2) 10 6 (f32_of_Z 8) "a" two_vehicles [true] s' ∧
  ∃ f, view s' "a" = Some (Entry f Confirmed 2%N).
Proof.
  destruct C122_case as (_ & O & s' & E & (f & Hf & _) & _). exists s'. split; [|exists f; exact Hf].
  replace s' with (fst (s', Ok () : result ())) by reflexivity. rewrite <- E.
  apply (sighted_snoc P1 object_of vehicle_model 1 (1 / 2) 10 6 (f32_of_Z 8) "a" two_vehicles [] true two_vehicles (f64_of_Z 1) vehicle_truth).
  - constructor.
  - exact O.
  - intros H. apply elem_of_list_In in H. destruct H as [H|[H|[H|[]]]]; discriminate H.
  - apply some_order.
  - apply some_order.
  - split; [|reflexivity]. intros _. exists (turning "y" 1 2). split; [right; left; reflexivity|reflexivity].
Qed.
Print Assumptions C122_cycle.
Print Assumptions C122_life.
Print Assumptions C122_usable.
Print Assumptions C122_updated.
