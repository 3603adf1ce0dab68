(** Property C106: well separated objects keep their tracks.

    [observation], [gate_between], [one_track_each], [observed_run], [above_gate],
    [pose_distance], [pose_value], [pose_within]: IdentitySpec.v.
    [cycle_dlib int_checked]: the tracking cycle with dlib's solver (PipelineDlib.v).
    The score [metric] is euclidean_distance in float ([pose_distance32],
    FloatDistance.v). *)
From stdpp Require Import gmap strings list.
From Coq Require Import NArith ZArith Lia Reals Lra.
From Flocq Require Import Core IEEE754.BinarySingleNaN.
From Verif Require Import Base Uuid OrdMap DynObj Float DlibMatrix Scoring Matching MatchingSpec MatchingThms MatchingExamples
  Fusing TrackManager TrackManagerSpec TrackManagerProofs TrackManagerThms TrackManagerExamples Pipeline PipelineThms HistorySpec
  Assignment PipelineDlib Motion DoubleArith DoubleThms FloatDistance IdentitySpec IdentityThms Properties_Pipeline.
Local Open Scope nat_scope.
Local Open Scope list_scope.

Section Identity.
  Context {trk : track_type} {Det Obj : Type} `{EqDecision Obj} (du : Det → uuid).
  Context (who : uuid → Obj) (track_pose : trk → pose64) (detection_pose : Det → pose64).
  Context (metric : trk → Det → option f32) (visit : trk → Det → result trk) (new_track : Det → trk).
  Let is_distance := ∀ t d v, metric t d = Some v → pose_distance32 (track_pose t) (detection_pose d) v.
  Let lawful_all := lawful trk ∧ (∀ d, tt_uuid (new_track d) = du d).
  Let lawful_cycle (predict : trk → trk) :=
    (∀ t, tt_uuid (predict t) = tt_uuid t) ∧
    (∀ t d f, visit (predict t) d = Ok f → tt_uuid f = tt_uuid t ∧ copies f t).
  Let usable_counts (s : mgr trk) :=
    (m_removal s < m_promo s < 2 ^ 64 - 1)%N ∧ (m_removal s ≤ 1)%N ∧ (∀ u x, view s u = Some x → (e_count x < 2 ^ 64 - 1)%N).

  (** The score of a track and a detection passes the gate exactly if they are of
      the same object. *)
  Theorem C106_gate gate a b sep e predict truth (s : mgr trk) ds u x d :
    is_distance → gate_between gate a b sep e →
    observation du who track_pose detection_pose metric visit a b sep e predict truth s ds →
    view s u = Some x → In d ds →
    ((∃ v, metric (predict (e_track x)) d = Some v ∧ above_gate gate v = false) ↔ who u = who (du d)).
  Proof.
    intros M G O Hx Hd.
    exact (inside_same du who track_pose detection_pose metric visit gate a b sep e G M predict truth s ds u x d O Hx Hd).
  Qed.

  (** One cycle: it succeeds; the track of a detected object is fused with the detection
      of that object, the track of an undetected object is counted down, a detected
      object without track gets one; no object gets a second track. *)
  Theorem C106_cycle gate a b sep e predict truth ord1 ord2 ds (s : mgr trk) :
    lawful_all → lawful_cycle predict → is_distance → gate_between gate a b sep e →
    reachable trk s → order_of ord1 (m_tracks s) → order_of ord2 (m_occ s) → usable_counts s →
    one_track_each who s →
    observation du who track_pose detection_pose metric visit a b sep e predict truth s ds →
    ∃ s', cycle_dlib int_checked trk du new_track predict metric (above_gate gate) visit ord1 ord2 ds s = (s', Ok ()) ∧
      one_track_each who s' ∧
      (∀ u x d, view s u = Some x → In d ds → who u = who (du d) →
         let n := N.min (e_count x + 1) (m_promo s) in
         ∃ f, visit (predict (e_track x)) d = Ok f ∧
           view s' u = Some (Entry (copied f (e_track x)) (if decide (m_promo s ≤ n)%N then Confirmed else e_status x) n) ∧
           view s' (du d) = None) ∧
      (∀ u x, view s u = Some x → (∀ d, In d ds → who u ≠ who (du d)) →
         let n := (e_count x - 1)%N in
         view s' u = if decide (n ≤ m_removal s)%N then None
           else Some (Entry (e_track x) (if decide (m_promo s ≤ n)%N then Confirmed else e_status x) n)) ∧
      (∀ d, In d ds → (∀ u x, view s u = Some x → who u ≠ who (du d)) →
         view s' (du d) = Some (Entry (new_track d) Tentative 1%N)) ∧
      (∀ u, view s u = None → ¬ In u (map du ds) → view s' u = None).
  Proof.
    intros [L Un] [Up Hv] M G Hr H1 H2 (T & R & C) One O.
    destruct (observed_cycle L du who track_pose detection_pose metric visit gate a b sep e new_track Un G M predict truth ord1 ord2 ds s)
      as (s' & E & _ & _ & _ & _ & One' & V); try done.
    exists s'. done.
  Qed.

  (** Any number of cycles: whether track [u] is there, its count and its status depend
      on nothing but in which cycles its own object was detected. *)
  Theorem C106_life gate a b sep e u (s : mgr trk) bs s' (x : entry trk) :
    lawful_all → is_distance → gate_between gate a b sep e →
    reachable trk s → usable_counts s → one_track_each who s →
    observed_run du who track_pose detection_pose metric visit gate a b sep e new_track u s bs s' →
    view s u = Some x →
    (is_Some (view s' u) ↔
       stays_above (Z.of_N (m_promo s)) (Z.of_N (m_removal s)) (Z.of_N (e_count x)) bs) ∧
    ∀ x', view s' u = Some x' →
      is_level (Z.of_N (m_promo s)) (Z.of_N (e_count x)) bs (Z.of_N (e_count x')) ∧
      (e_status x' = Confirmed ↔
         e_status x = Confirmed ∨ reaches (Z.of_N (m_promo s)) (Z.of_N (e_count x)) bs).
  Proof.
    intros [L Un] M G Hr (T & R & C) One Run.
    destruct (observed_run_thm L du who track_pose detection_pose metric visit gate a b sep e new_track Un G M u s bs s' Hr T R C One Run)
      as (_ & _ & _ & _ & _ & H). apply H.
  Qed.

  (** ... no object ever has two tracks, and the next cycle succeeds. *)
  Theorem C106_one_track gate a b sep e u (s : mgr trk) bs s' :
    lawful_all → is_distance → gate_between gate a b sep e →
    reachable trk s → usable_counts s → one_track_each who s →
    observed_run du who track_pose detection_pose metric visit gate a b sep e new_track u s bs s' →
    one_track_each who s'.
  Proof.
    intros [L Un] M G Hr (T & R & C) One Run.
    apply (observed_run_thm L du who track_pose detection_pose metric visit gate a b sep e new_track Un G M u s bs s' Hr T R C One Run).
  Qed.
  Theorem C106_no_failure gate a b sep e u (s : mgr trk) bs s' predict truth ds ord1 ord2 :
    lawful_all → lawful_cycle predict → is_distance → gate_between gate a b sep e →
    reachable trk s → usable_counts s → one_track_each who s →
    observed_run du who track_pose detection_pose metric visit gate a b sep e new_track u s bs s' →
    observation du who track_pose detection_pose metric visit a b sep e predict truth s' ds →
    order_of ord1 (m_tracks s') → order_of ord2 (m_occ s') →
    snd (cycle_dlib int_checked trk du new_track predict metric (above_gate gate) visit ord1 ord2 ds s') = Ok ().
  Proof.
    intros [L Un] [Up Hv] M G Hr (T & R & C) One Run O H1 H2.
    destruct (observed_run_thm L du who track_pose detection_pose metric visit gate a b sep e new_track Un G M u s bs s' Hr T R C One Run)
      as (Hr' & Ep & Er & C' & One' & _).
    destruct (observed_cycle L du who track_pose detection_pose metric visit gate a b sep e new_track Un G M predict truth ord1 ord2 ds s')
      as (s2 & E & _); try done; [rewrite Ep, Er; done|by rewrite Er|]. by rewrite E.
  Qed.
End Identity.

(** ** Example: three objects on a line
    Tracks at 0 and 10, objects really at 1/2, 21/2 and 50, detections at 1, 11 and 50;
    five metres further on the third object is not detected.  Gate 8. *)
Open Scope string_scope.
Definition on_line (t : dyn_obj Z Z Z) : pose64 := (f64_of_Z (o_state t), f64_of_Z 0, f64_of_Z 0).
Definition line_metric (t d : dyn_obj Z Z Z) : option f32 := Some (f32_sqrt (dot32 (differences (on_line t) (on_line d)))).
Definition object_of (u : uuid) : nat :=
  if decide (u ∈ ["a"; "y"; "p"]) then 0 else if decide (u ∈ ["b"; "x"; "q"]) then 1 else 2.
Definition line_truth (shift : R) (i : nat) : R * R * R :=
  match i with 0 => (shift + 1 / 2, 0, 0)%R | 1 => (shift + 21 / 2, 0, 0)%R | _ => (shift + 50, 0, 0)%R end.
Definition moved (t : dyn_obj Z Z Z) : dyn_obj Z Z Z := set_state t (o_state t + 5)%Z.
Definition line_cycle predict ds (s : mgr TZ) :=
  cycle_dlib int_checked TZ o_uuid (λ d, d) predict line_metric (above_gate (f32_of_Z 8)) take_detection
    (map_to_list (m_tracks s)).*1 (map_to_list (m_occ s)).*1 ds s.
Definition line_second : mgr TZ := fst (line_cycle (λ t, t) three_detections two_tracks).
Definition two_detections : list (dyn_obj Z Z Z) := [at_ "q" 16; at_ "p" 6].
Definition line_third : mgr TZ := fst (line_cycle moved two_detections line_second).
Notation line_observation := (observation (trk := TZ) o_uuid object_of on_line on_line line_metric take_detection (1 / 2)%R (1 / 2)%R 10%R 6).

Lemma line_gate : gate_between (f32_of_Z 8) (1 / 2) (1 / 2) 10 6.
Proof.
  destruct (f32_small 8 eq_refl) as [E F]. split; [done|]. split; [done|]. split; [lra|]. split; [lra|]. rewrite E.
  assert (bpow radix2 (6 - 23) <= / 8 ∧ bpow radix2 (-21) <= / 100)%R as [B1 B2].
  { change (bpow radix2 (6 - 23)) with (/ 131072)%R. change (bpow radix2 (-21)) with (/ 2097152)%R. lra. }
  pose proof (bpow_gt_0 radix2 (6 - 23)). pose proof (bpow_gt_0 radix2 (-21)). split; lra.
Qed.
Lemma line_pose t : (0 <= o_state t <= 60)%Z →
  pose_within 6 (on_line t) ∧ pose_value (on_line t) = (IZR (o_state t), 0, 0)%R.
Proof.
  intros H. destruct (int64_value (o_state t)) as [E F]; [cbn; lia|]. destruct (int64_value 0) as [E0 F0]; [cbn; lia|].
  cbn [on_line pose_value pose_within]. rewrite E, E0. split; [|done].
  assert (0 <= IZR (o_state t) <= 60)%R by (split; apply IZR_le; lia).
  repeat (constructor; [split; [assumption|]; rewrite ?E, ?E0; change (bpow radix2 6) with 64%R; rewrite Rabs_pos_eq; lra|]). constructor.
Qed.
Lemma on_axis x y : pose_distance (x, 0, 0)%R (y, 0, 0)%R = Rabs (x - y).
Proof. unfold pose_distance. rewrite <- sqrt_Rsqr_abs. f_equal. unfold Rsqr. ring. Qed.

Lemma line_apart shift u u' : object_of u ≠ object_of u' →
  (10 <= pose_distance (line_truth shift (object_of u)) (line_truth shift (object_of u')))%R.
Proof.
  assert (∀ u, object_of u = 0 ∨ object_of u = 1 ∨ object_of u = 2) as K.
  { intros v. unfold object_of. destruct (decide _); [auto|]. destruct (decide _); auto. }
  destruct (K u) as [->|[->| ->]], (K u') as [->|[->| ->]]; intros Ne; try done; unfold line_truth; rewrite on_axis;
    (rewrite Rabs_left by lra) || (rewrite Rabs_pos_eq by lra); lra.
Qed.

Lemma known_view (s : mgr TZ) (l : list uuid) u (x : entry TZ) :
  (map_to_list (m_tracks s)).*1 = l → view s u = Some x → u ∈ l.
Proof.
  intros <- H. unfold view in H. destruct (m_tracks s !! u) as [t|] eqn:E; [|done].
  apply elem_of_list_fmap. exists (u, t). split; [done|]. by apply elem_of_map_to_list.
Qed.

Ltac line_cases := repeat match goal with H : _ ∈ _ :: _ |- _ => apply elem_of_cons in H as [->|H] | H : _ ∈ [] |- _ => by apply elem_of_nil in H end.

Example C106_case :
  gate_between (f32_of_Z 8) (1 / 2) (1 / 2) 10 6 ∧
  line_observation (λ t : TZ, t) (line_truth 0) two_tracks three_detections ∧
  line_observation moved (line_truth 5) line_second two_detections ∧
  one_track_each (trk := TZ) object_of two_tracks.
Proof.
  assert (∀ u x, view two_tracks u = Some x →
    (u = "a" ∧ x = Entry (at_ "a" 0 : TZ) Tentative 1%N) ∨ (u = "b" ∧ x = Entry (at_ "b" 10 : TZ) Tentative 1%N)) as V1.
  { intros u x H. pose proof (known_view two_tracks _ u x ltac:(vm_compute; reflexivity) H) as Hu.
    line_cases; vm_compute in H; injection H as <-; auto. }
  assert (∀ u x, view line_second u = Some x →
    (u = "a" ∧ x = Entry (at_ "a" 1 : TZ) Confirmed 2%N) ∨ (u = "b" ∧ x = Entry (at_ "b" 11 : TZ) Confirmed 2%N) ∨
    (u = "z" ∧ x = Entry (at_ "z" 50 : TZ) Tentative 1%N)) as V2.
  { intros u x H. assert ((map_to_list (m_tracks line_second)).*1 = ["b"; "z"; "a"]) as E by (vm_compute; reflexivity).
    pose proof (known_view line_second _ u x E H) as Hu. clear E.
    rewrite !elem_of_cons, elem_of_nil in Hu. destruct Hu as [Hu|[Hu|[Hu|[]]]]; rewrite Hu in H; vm_compute in H; injection H as <-;
      [right; left|right; right|left]; done. }
  assert (∀ t y k, o_state t = k → (0 <= k <= 60)%Z → (Rabs (IZR k - y) <= 1 / 2)%R →
    pose_within 6 (on_line t) ∧ (pose_distance (pose_value (on_line t)) (y, 0, 0)%R <= 1 / 2)%R) as P.
  { intros t y k <- Hk Hy. destruct (line_pose t Hk) as [W ->]. split; [done|]. by rewrite on_axis. }
  split; [apply line_gate|]. split; [|split].
  - split.
    + repeat constructor; cbn; intuition discriminate.
    + intros d [<-|[<-|[<-|[]]]]; vm_compute; done.
    + vm_compute. done.
    + intros d d' [<-|[<-|[<-|[]]]] [<-|[<-|[<-|[]]]] H; try done; vm_compute in H; discriminate H.
    + intros u x H. apply V1 in H as [[-> ->]|[-> ->]].
      * apply (P _ _ 0%Z); [done|lia|apply Rabs_le; cbn; lra].
      * apply (P _ _ 10%Z); [done|lia|apply Rabs_le; cbn; lra].
    + intros d [<-|[<-|[<-|[]]]].
      * apply (P _ _ 11%Z); [done|lia|apply Rabs_le; cbn; lra].
      * apply (P _ _ 1%Z); [done|lia|apply Rabs_le; cbn; lra].
      * apply (P _ _ 50%Z); [done|lia|apply Rabs_le; cbn; lra].
    + intros u x d _ _ Ne. by apply line_apart.
    + exists "a", (Entry (at_ "a" 0 : TZ) Tentative 1%N), (at_ "y" 1), "b", (Entry (at_ "b" 10 : TZ) Tentative 1%N), (at_ "x" 11).
      split; [done|]. split; [vm_compute; done|]. split; [vm_compute; done|]. split; [cbn; auto|]. split; [cbn; auto|]. vm_compute. done.
    + intros u x d _ _ _. split; eexists; reflexivity.
  - split.
    + repeat constructor; cbn; intuition discriminate.
    + intros d [<-|[<-|[]]]; vm_compute; done.
    + vm_compute. done.
    + intros d d' [<-|[<-|[]]] [<-|[<-|[]]] H; try done; vm_compute in H; discriminate H.
    + intros u x H. apply V2 in H as [[-> ->]|[[-> ->]|[-> ->]]].
      * apply (P _ _ 6%Z); [done|lia|apply Rabs_le; cbn; lra].
      * apply (P _ _ 16%Z); [done|lia|apply Rabs_le; cbn; lra].
      * apply (P _ _ 55%Z); [done|lia|apply Rabs_le; cbn; lra].
    + intros d [<-|[<-|[]]].
      * apply (P _ _ 16%Z); [done|lia|apply Rabs_le; cbn; lra].
      * apply (P _ _ 6%Z); [done|lia|apply Rabs_le; cbn; lra].
    + intros u x d _ _ Ne. by apply line_apart.
    + exists "a", (Entry (at_ "a" 1 : TZ) Confirmed 2%N), (at_ "p" 6), "b", (Entry (at_ "b" 11 : TZ) Confirmed 2%N), (at_ "q" 16).
      split; [done|]. split; [vm_compute; done|]. split; [vm_compute; done|]. split; [cbn; auto|]. split; [cbn; auto|]. vm_compute. done.
    + intros u x d _ _ _. split; eexists; reflexivity.
  - intros u x u' x' H H' E. apply V1 in H as [[-> _]|[-> _]], H' as [[-> _]|[-> _]]; try done; vm_compute in E; discriminate E.
Qed.

(** The two cycles are a run for each track; what they lead to. *)
Example C106_run_case :
  observed_run (trk := TZ) o_uuid object_of on_line on_line line_metric take_detection (f32_of_Z 8) (1 / 2)%R (1 / 2)%R 10%R 6 (λ d, d)
    "a" two_tracks [true; true] line_third ∧
  view line_third "a" = Some (Entry (at_ "a" 6 : TZ) Confirmed 2%N) ∧
  view line_third "b" = Some (Entry (at_ "b" 16 : TZ) Confirmed 2%N) ∧ view line_third "z" = None.
Proof.
  destruct C106_case as (_ & O1 & O2 & _). split; [|vm_compute; done].
  assert (∀ s : mgr TZ, (map_to_list (m_tracks s)).*1 = (map_to_list (m_occ s)).*1 → order_of (map_to_list (m_occ s)).*1 (m_occ s)) as O
    by (intros; apply some_order).
  apply (observed_snoc _ _ _ _ _ _ _ _ _ _ _ _ "a" two_tracks [true] true line_second moved (line_truth 5) two_detections
    (map_to_list (m_tracks line_second)).*1 (map_to_list (m_occ line_second)).*1 line_third).
  - apply (observed_snoc _ _ _ _ _ _ _ _ _ _ _ _ "a" two_tracks [] true two_tracks (λ t, t) (line_truth 0) three_detections
      (map_to_list (m_tracks two_tracks)).*1 (map_to_list (m_occ two_tracks)).*1 line_second); try done.
    + constructor.
    + intros t d f [= <-]. done.
    + cbn. rewrite !elem_of_cons, elem_of_nil. intuition discriminate.
    + apply some_order.
    + apply some_order.
    + split; [intros _; exists (at_ "y" 1)|done]. split; [cbn; auto|vm_compute; done].
  - done.
  - intros t d f [= <-]. done.
  - done.
  - cbn. rewrite !elem_of_cons, elem_of_nil. intuition discriminate.
  - apply some_order.
  - apply some_order.
  - split; [intros _; exists (at_ "p" 6)|done]. split; [cbn; auto|vm_compute; done].
  - done.
Qed.

(** Without the separation the tracks can change places: tracks at 0 and 10 whose
    objects are really, and detected, at 7 and 3.  Everything else holds: predictions
    are off by 7, the objects are 4 apart, the gate is 8. *)
Definition crossed : list (dyn_obj Z Z Z) := [at_ "y" 7; at_ "x" 3].
Definition crossed_truth (i : nat) : R * R * R := match i with 0 => (7, 0, 0)%R | 1 => (3, 0, 0)%R | _ => (60, 0, 0)%R end.
Theorem C106_close_refuted :
  ∃ (s : mgr TZ) ds truth a b sep,
    reachable TZ s ∧ one_track_each (trk := TZ) object_of s ∧
    observation (trk := TZ) o_uuid object_of on_line on_line line_metric take_detection a b sep 6 (λ t, t) truth s ds ∧
    ((1 + bpow radix2 (-21)) * (a + b) + bpow radix2 (6 - 23) <= B2R (f32_of_Z 8))%R ∧
    (∀ t d v, line_metric t d = Some v → pose_distance32 (on_line t) (on_line d) v) ∧
    (let s' := fst (line_cycle (λ t, t) ds s) in
     object_of "a" = object_of "y" ∧ object_of "b" = object_of "x" ∧ ds = [at_ "y" 7; at_ "x" 3] ∧
     snd (line_cycle (λ t, t) ds s) = Ok () ∧
     view s' "a" = Some (Entry (at_ "a" 3 : TZ) Confirmed 2%N) ∧ view s' "b" = Some (Entry (at_ "b" 7 : TZ) Confirmed 2%N)).
Proof.
  exists two_tracks, crossed, crossed_truth, 7%R, 0%R, 4%R.
  destruct C106_case as (_ & _ & _ & One).
  assert (∀ u x, view two_tracks u = Some x →
    (u = "a" ∧ x = Entry (at_ "a" 0 : TZ) Tentative 1%N) ∨ (u = "b" ∧ x = Entry (at_ "b" 10 : TZ) Tentative 1%N)) as V1.
  { intros u x H. pose proof (known_view two_tracks _ u x ltac:(vm_compute; reflexivity) H) as Hu.
    line_cases; vm_compute in H; injection H as <-; auto. }
  assert (∀ t y k r, o_state t = k → (0 <= k <= 60)%Z → (Rabs (IZR k - y) <= r)%R →
    pose_within 6 (on_line t) ∧ (pose_distance (pose_value (on_line t)) (y, 0, 0)%R <= r)%R) as P.
  { intros t y k r <- Hk Hy. destruct (line_pose t Hk) as [W ->]. split; [done|]. by rewrite on_axis. }
  split; [apply two_tracks_reachable|]. split; [exact One|]. split; [|split; [|split]].
  - split.
    + repeat constructor; cbn; intuition discriminate.
    + intros d [<-|[<-|[]]]; vm_compute; done.
    + vm_compute. done.
    + intros d d' [<-|[<-|[]]] [<-|[<-|[]]] H; try done; vm_compute in H; discriminate H.
    + intros u x H. apply V1 in H as [[-> ->]|[-> ->]].
      * apply (P _ _ 0%Z); [done|lia|apply Rabs_le; cbn; lra].
      * apply (P _ _ 10%Z); [done|lia|apply Rabs_le; cbn; lra].
    + intros d [<-|[<-|[]]].
      * apply (P _ _ 7%Z); [done|lia|apply Rabs_le; cbn; lra].
      * apply (P _ _ 3%Z); [done|lia|apply Rabs_le; cbn; lra].
    + intros u x d _ _ Ne.
      assert (∀ v, object_of v = 0 ∨ object_of v = 1 ∨ object_of v = 2) as K.
      { intros v. unfold object_of. destruct (decide _); [auto|]. destruct (decide _); auto. }
      destruct (K u) as [E|[E|E]], (K (o_uuid d)) as [F|[F|F]]; rewrite E, F in *; try done; unfold crossed_truth; rewrite on_axis;
        (rewrite Rabs_left by lra) || (rewrite Rabs_pos_eq by lra); lra.
    + exists "a", (Entry (at_ "a" 0 : TZ) Tentative 1%N), (at_ "y" 7), "b", (Entry (at_ "b" 10 : TZ) Tentative 1%N), (at_ "x" 3).
      split; [done|]. split; [vm_compute; done|]. split; [vm_compute; done|]. split; [cbn; auto|]. split; [cbn; auto|]. vm_compute. done.
    + intros u x d _ _ _. split; eexists; reflexivity.
  - rewrite (proj1 (f32_small 8 eq_refl)). change (bpow radix2 (6 - 23)) with (/ 131072)%R. change (bpow radix2 (-21)) with (/ 2097152)%R. lra.
  - intros t d v [= <-]. exists (differences (on_line t) (on_line d)). done.
  - vm_compute. done.
Qed.

Print Assumptions C106_gate.
Print Assumptions C106_cycle.
Print Assumptions C106_life.
Print Assumptions C106_one_track.
Print Assumptions C106_no_failure.
Print Assumptions C106_close_refuted.
