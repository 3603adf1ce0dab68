(** Property C104: the tracking cycle (Pipeline.v) with dlib's own solver.

    [cycle_dlib int_checked] (PipelineDlib.v): the cycle in which gnn_associator calls
    dlib's algorithm (Assignment.v) on 32-bit ints; an overflow is undefined.
    [cycle ... solve]: the same with a function [solve] in the place of dlib's.
    [clear_scene], [within]: SceneSpec.v.  [clear_run_dlib]: DlibSceneSpec.v. *)
From stdpp Require Import gmap strings list.
From Coq Require Import NArith ZArith Lia Reals Lra.
From Flocq Require Import Core IEEE754.BinarySingleNaN.
From Verif Require Import Base Uuid OrdMap DynObj Float DlibMatrix Scoring Matching MatchingSpec MatchingThms MatchingExamples
  Fusing TrackManager TrackManagerSpec TrackManagerProofs TrackManagerThms TrackManagerExamples Pipeline PipelineThms HistorySpec SceneSpec SceneThms
  Assignment AssignmentThms PipelineDlib DlibSceneSpec DlibSceneThms Properties_Pipeline Properties_Scene.
Local Open Scope nat_scope.
Local Open Scope list_scope.

Section Dlib.
  Context {trk : track_type} {Det : Type} (du : Det → uuid) (new_track : Det → trk) (predict : trk → trk)
    (metric : trk → Det → option f32) (should_prune : f32 → bool) (visit : trk → Det → result trk).
  Let scene := clear_scene du predict metric should_prune visit.
  Let inside := within predict metric should_prune.
  Let run_cycle := cycle_dlib int_checked trk du new_track predict metric should_prune visit.

  (** In a clear scene the cycle does what it does with any correct solver; there may
      be more tracks than detections. *)
  Theorem C104_clear_scene solve ord1 ord2 ds (s : mgr trk) :
    lawful trk → (∀ t, tt_uuid (predict t) = tt_uuid t) → solver_ok solve →
    reachable trk s → order_of ord1 (m_tracks s) → scene s ds →
    run_cycle ord1 ord2 ds s = cycle trk du new_track predict metric should_prune solve visit ord1 ord2 ds s.
  Proof.
    intros L Up S Hr Ho C. exact (cycle_dlib_clear L int_checked du int_checked_ok new_track predict metric should_prune visit Up solve ord1 ord2 ds s S Hr Ho C).
  Qed.

  (** So that C87 holds without any assumption on the solver: *)
  Theorem C104_history u (s : mgr trk) bs s' (e : entry trk) :
    lawful trk →
    (∀ d, tt_uuid (new_track d) = du d) → (∀ t, tt_uuid (predict t) = tt_uuid t) →
    (∀ t d f, visit (predict t) d = Ok f → tt_uuid f = tt_uuid t ∧ copies f t) →
    reachable trk s → (m_removal s < m_promo s < 2 ^ 64 - 1)%N → (m_removal s ≤ 1)%N →
    (∀ v e, view s v = Some e → (e_count e < 2 ^ 64 - 1)%N) →
    clear_run_dlib int_checked du new_track predict metric should_prune visit u s bs s' →
    view s u = Some e →
    (is_Some (view s' u) ↔
       stays_above (Z.of_N (m_promo s)) (Z.of_N (m_removal s)) (Z.of_N (e_count e)) bs) ∧
    ∀ e', view s' u = Some e' →
      is_level (Z.of_N (m_promo s)) (Z.of_N (e_count e)) bs (Z.of_N (e_count e')) ∧
      (e_status e' = Confirmed ↔
         e_status e = Confirmed ∨ reaches (Z.of_N (m_promo s)) (Z.of_N (e_count e)) bs).
  Proof.
    intros L Un Up Hv Hr T R C Run He.
    eapply (C87_history du new_track predict metric should_prune try_all visit); try done; [apply try_all_ok|].
    exact (clear_run_dlib_run L int_checked du int_checked_ok new_track predict metric should_prune visit Up try_all u s bs s' try_all_ok Un Hv Hr T R C Run).
  Qed.

  Theorem C104_no_failure u (s : mgr trk) bs s' ds ord1 ord2 :
    lawful trk →
    (∀ d, tt_uuid (new_track d) = du d) → (∀ t, tt_uuid (predict t) = tt_uuid t) →
    (∀ t d f, visit (predict t) d = Ok f → tt_uuid f = tt_uuid t ∧ copies f t) →
    reachable trk s → (m_removal s < m_promo s < 2 ^ 64 - 1)%N → (m_removal s ≤ 1)%N →
    (∀ v e, view s v = Some e → (e_count e < 2 ^ 64 - 1)%N) →
    clear_run_dlib int_checked du new_track predict metric should_prune visit u s bs s' →
    scene s' ds → order_of ord1 (m_tracks s') → order_of ord2 (m_occ s') →
    snd (run_cycle ord1 ord2 ds s') = Ok ().
  Proof.
    intros L Un Up Hv Hr T R C Run Sc H1 H2.
    pose proof (clear_run_dlib_run L int_checked du int_checked_ok new_track predict metric should_prune visit Up try_all u s bs s' try_all_ok Un Hv Hr T R C Run) as Run'.
    destruct (clear_run_thm L du new_track predict metric should_prune try_all visit Un Up try_all_ok Hv u s bs s' Hr T R C Run') as (Hr' & _).
    rewrite (C104_clear_scene try_all); try done; [|apply try_all_ok].
    apply (C87_no_failure du new_track predict metric should_prune try_all visit u s bs s' ds ord1 ord2); try done. apply try_all_ok.
  Qed.

  (** In any scene with ordinary scores, one of them positive: [near] lists the tracks
      within the gate of a detection, [used] the detections within the gate of a track.
      No more tracks than detections: as with a correct solver. *)
  Theorem C104_fewer_tracks ord1 ord2 ds near used (s : mgr trk) :
    lawful trk → (∀ t, tt_uuid (predict t) = tt_uuid t) →
    reachable trk s → order_of ord1 (m_tracks s) → List.NoDup (map du ds) →
    (∀ u e d v, view s u = Some e → In d ds → metric (predict (e_track e)) d = Some v → should_prune v = false → ordinary v) →
    (∃ u e d v, view s u = Some e ∧ In d ds ∧ metric (predict (e_track e)) d = Some v ∧ should_prune v = false ∧ (0 < B2R v)%R) →
    (∀ u, In u near ↔ ∃ e d, view s u = Some e ∧ In d ds ∧ inside (e_track e) d) →
    (∀ d, In d used ↔ In d ds ∧ ∃ u e, view s u = Some e ∧ inside (e_track e) d) →
    List.NoDup near → List.NoDup used → length near ≤ length used →
    ∃ solve, solver_ok solve ∧
      run_cycle ord1 ord2 ds s = cycle trk du new_track predict metric should_prune solve visit ord1 ord2 ds s.
  Proof.
    intros L Up Hr Ho Hn O P A B _ Hnu Hle.
    apply (cycle_dlib_contract L int_checked du int_checked_ok new_track predict metric should_prune visit Up ord1 ord2 ds near used s Hr Ho Hn O P); try done.
    - intros u e d He Hd Hp. apply A. eauto.
    - intros d. apply B.
  Qed.

  (** More tracks than detections: undefined. *)
  Theorem C104_more_tracks_undefined ord1 ord2 ds near used (s : mgr trk) :
    lawful trk → (∀ t, tt_uuid (predict t) = tt_uuid t) →
    reachable trk s → order_of ord1 (m_tracks s) → List.NoDup (map du ds) →
    (∀ u e d v, view s u = Some e → In d ds → metric (predict (e_track e)) d = Some v → should_prune v = false → ordinary v) →
    (∃ u e d v, view s u = Some e ∧ In d ds ∧ metric (predict (e_track e)) d = Some v ∧ should_prune v = false ∧ (0 < B2R v)%R) →
    (∀ u, In u near ↔ ∃ e d, view s u = Some e ∧ In d ds ∧ inside (e_track e) d) →
    (∀ d, In d used ↔ In d ds ∧ ∃ u e, view s u = Some e ∧ inside (e_track e) d) →
    List.NoDup near → List.NoDup used → length used < length near →
    run_cycle ord1 ord2 ds s = (s, UB).
  Proof.
    intros L Up Hr Ho Hn O P A B Hnn _ Hlt.
    apply (cycle_dlib_undefined L du new_track predict metric should_prune visit Up ord1 ord2 ds near used s Hr Ho Hn O P); try done.
    - intros u. apply A.
    - intros u e d He Hd Hp. apply B. eauto.
  Qed.

  (** Two tracks within the gate of the only detection, as when one vehicle hides
      another: undefined. *)
  Theorem C104_hidden_object ord1 ord2 d (s : mgr trk) u1 e1 u2 e2 :
    lawful trk → (∀ t, tt_uuid (predict t) = tt_uuid t) →
    reachable trk s → order_of ord1 (m_tracks s) →
    (∀ u e v, view s u = Some e → metric (predict (e_track e)) d = Some v → should_prune v = false → ordinary v) →
    (∃ u e v, view s u = Some e ∧ metric (predict (e_track e)) d = Some v ∧ should_prune v = false ∧ (0 < B2R v)%R) →
    u1 ≠ u2 → view s u1 = Some e1 → inside (e_track e1) d → view s u2 = Some e2 → inside (e_track e2) d →
    run_cycle ord1 ord2 [d] s = (s, UB).
  Proof.
    intros L Up Hr Ho O (u & e & v & He & Hm & Hp & Hpos) Ne He1 H1 He2 H2.
    apply (cycle_dlib_undefined L du new_track predict metric should_prune visit Up ord1 ord2 [d] [u1; u2] [d] s Hr Ho); try done.
    - repeat constructor. intros [].
    - intros u' e' d' v' He' [<-|[]] Hm' Hp'. by eapply O.
    - exists u, e, d, v. split; [done|]. split; [by left|]. done.
    - repeat constructor; [|intros []]. intros [|[]]; done.
    - intros u' [<-|[<-|[]]]; [exists e1, d|exists e2, d]; (split; [done|]); (split; [by left|done]).
    - cbn. lia.
  Qed.
End Dlib.

(** ** Examples *)
Open Scope string_scope.
(** Two tracks at 0 and 10, three detections at 1, 11 and 50, gate 8 *)
Example C104_case :
  clear_scene o_uuid (λ t : TZ, t) far above8 take_detection two_tracks three_detections ∧
  (let r := cycle_dlib int_checked TZ o_uuid (λ d, d) (λ t, t) far above8 take_detection ab ab three_detections two_tracks in
   snd r = Ok () ∧ view (fst r) "a" = Some (Entry (at_ "a" 1 : TZ) Confirmed 2%N) ∧
   view (fst r) "b" = Some (Entry (at_ "b" 11 : TZ) Confirmed 2%N) ∧
   view (fst r) "z" = Some (Entry (at_ "z" 50 : TZ) Tentative 1%N)).
Proof. split; [apply C87_case|]. vm_compute. done. Qed.

Example C104_run_case :
  clear_run_dlib (trk := TZ) int_checked o_uuid (λ d, d) (λ t, t) far above8 take_detection "a" two_tracks [true]
    (fst (gated_cycle three_detections two_tracks)).
Proof.
  destruct two_tracks_order as (O1 & O2 & _).
  apply (dlib_snoc _ _ _ _ _ _ _ "a" two_tracks [] true two_tracks three_detections ab ab); try done.
  - constructor.
  - apply C87_case.
  - cbn. rewrite !elem_of_cons, elem_of_nil. intuition discriminate.
  - split; [intros _|done]. exists (Entry (at_ "a" 0 : TZ) Tentative 1%N), (at_ "y" 1).
    split; [vm_compute; done|]. split; [cbn; auto|]. apply C87_case.
Qed.

(** The same tracks, one detection at 5 *)
Lemma five_near (x : Z) : (x = 0 ∨ x = 10)%Z →
  far (at_ "a" x) (at_ "y" 5) = Some (f32_of_Z 5) ∧ above8 (f32_of_Z 5) = false.
Proof. intros [-> | ->]; (split; [done|vm_compute; done]). Qed.
Example C104_hidden_case :
  (∃ e1 e2, view two_tracks "a" = Some e1 ∧ within (λ t : TZ, t) far above8 (e_track e1) (at_ "y" 5) ∧
     view two_tracks "b" = Some e2 ∧ within (λ t : TZ, t) far above8 (e_track e2) (at_ "y" 5)) ∧
  (0 < B2R (f32_of_Z 5))%R ∧
  cycle_dlib int_checked TZ o_uuid (λ d, d) (λ t, t) far above8 take_detection ab ab [at_ "y" 5] two_tracks = (two_tracks, UB) ∧
  snd (cycle TZ o_uuid (λ d, d) (λ t, t) far above8 try_all take_detection ab ab [at_ "y" 5] two_tracks) = Ok ().
Proof.
  split; [|split; [|split; [vm_compute; done|vm_compute; done]]].
  - exists (Entry (at_ "a" 0 : TZ) Tentative 1%N), (Entry (at_ "b" 10 : TZ) Tentative 1%N).
    split; [vm_compute; done|]. split; [exists (f32_of_Z 5); apply (five_near 0); auto|].
    split; [vm_compute; done|]. exists (f32_of_Z 5). apply (five_near 10); auto.
  - rewrite (proj1 (f32_small 5 eq_refl)). lra.
Qed.

Print Assumptions C104_clear_scene.
Print Assumptions C104_history.
Print Assumptions C104_no_failure.
Print Assumptions C104_fewer_tracks.
Print Assumptions C104_more_tracks_undefined.
Print Assumptions C104_hidden_object.
