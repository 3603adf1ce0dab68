(** Properties of the track manager over whole histories of sightings. *)
From stdpp Require Import gmap strings.
From Coq Require Import NArith ZArith Lia.
From Verif Require Import Base Uuid OrdMap DynObj TrackManager TrackManagerSpec TrackManagerExamples
  HistorySpec HistoryThms.

(** ** C78 *)
Theorem C78_history : ∀ (tt : track_type), lawful tt → ∀ (s : mgr tt) h s' u (e : entry tt) bs,
  reachable tt s → view s u = Some e → run tt s h s' →
  project u h = PSeen <$> bs → (e_count e + N.of_nat (length bs) < 2 ^ 64)%N →
  (is_Some (view s' u) ↔
     stays_above (Z.of_N (m_promo s)) (Z.of_N (m_removal s)) (Z.of_N (e_count e)) bs) ∧
  ∀ e', view s' u = Some e' →
    e_track e' = e_track e ∧
    is_level (Z.of_N (m_promo s)) (Z.of_N (e_count e)) bs (Z.of_N (e_count e')) ∧
    (e_status e' = Confirmed ↔
       e_status e = Confirmed ∨ reaches (Z.of_N (m_promo s)) (Z.of_N (e_count e)) bs).
Proof. exact @history_thm. Qed.
(** A track seen in every second update is neither promoted nor removed, however
    long this goes on. *)
Theorem C78_every_second_update : ∀ (tt : track_type), lawful tt → ∀ (s : mgr tt) h s' u (e : entry tt) k,
  reachable tt s → view s u = Some e → run tt s h s' →
  project u h = concat (replicate k [PSeen true; PSeen false]) →
  (m_removal s < e_count e)%N → (e_count e + 1 < m_promo s)%N →
  view s' u = Some e.
Proof. exact @flicker_thm. Qed.
Example C78_case :
  let h := [UpdateLists [("b", ["d"])]; Add (trk "y"); UpdateLists []; UpdateLists [("b", ["d"]); ("y", [])]] in
  let s' := exec h s_demo in
  reachable TZ s_demo ∧ run TZ s_demo h s' ∧ m_promo s_demo = 3%N ∧ m_removal s_demo = 0%N ∧
  view s_demo "b" = Some (Entry (trk "b") Tentative 1%N) ∧
  project "b" h = PSeen <$> [true; false; true] ∧
  view s' "b" = Some (Entry (trk "b") Tentative 2%N) ∧ is_level 3 1 [true; false; true] 2 ∧
  view s_demo "a" = Some (Entry (trk "a") Confirmed 3%N) ∧
  project "a" h = PSeen <$> [false; false; false] ∧ view s' "a" = None ∧
  ¬ stays_above 3 0 3 [false; false; false].
Proof.
  split; [apply s_demo_reachable|]. split; [apply exec_run; repeat constructor|].
  split; [vm_compute; done|]. split; [vm_compute; done|]. split; [vm_compute; done|].
  split; [vm_compute; done|]. split; [vm_compute; done|]. split.
  { apply (level_snoc 3 1 [true; false] 1 true). apply (level_snoc 3 1 [true] 2 false).
    apply (level_snoc 3 1 [] 1 true). apply level_nil. }
  split; [vm_compute; done|]. split; [vm_compute; done|]. split; [vm_compute; done|].
  intros [H _]. specialize (H [false; false; false] [] eq_refl ltac:(done)). vm_compute in H. discriminate.
Qed.
Example C78_every_second_case :
  let h := [UpdateLists [("b", ["d"])]; UpdateLists [("a", [])]; UpdateLists [("a", []); ("b", ["d"])]; UpdateLists []] in
  run TZ (exec [SetPromotion 4%N] s_demo) h (exec h (exec [SetPromotion 4%N] s_demo)) ∧
  view (exec [SetPromotion 4%N] s_demo) "b" = Some (Entry (trk "b") Tentative 1%N) ∧
  project "b" h = concat (replicate 2 [PSeen true; PSeen false]).
Proof. split; [apply exec_run; repeat constructor|]. split; vm_compute; done. Qed.

(** ** C88 *)
(** With a removal threshold of at least two that is never changed (nor is the
    promotion threshold), every managed track is tentative with counter one, and
    every update, whatever it associates, leaves the manager empty. *)
Theorem C88_large_removal_threshold : ∀ (tt : track_type), lawful tt → ∀ p r h (s : mgr tt),
  reached tt p r h s → (2 ≤ r)%N →
  (∀ c, c ∈ h → match c with SetPromotion _ | SetRemoval _ => False | _ => True end) →
  (∀ u e, view s u = Some e → e_status e = Tentative ∧ e_count e = 1%N) ∧
  (∀ a ord, om_wf bytes_compare a → order_of ord (m_occ s) →
     ∃ s', update_track_lists tt ord a s = (s', Ok ()) ∧ ∀ u, view s' u = None).
Proof.
  intros tt L p r h s H Hr Hc. apply (stuck_thm L p r h s H Hr).
  intros c Hin. specialize (Hc c Hin). by destruct c.
Qed.
(** The bound is the best possible: with threshold one a track that is seen in
    every update is kept and confirmed. *)
Theorem C88_removal_threshold_one : ∃ h (s : mgr TZ) u e,
  reached TZ 3 1 h s ∧ view s u = Some e ∧ e_status e = Confirmed.
Proof.
  set (h := [Add (trk "a"); UpdateLists [("a", ["d"])]; UpdateLists [("a", ["d"])]] : list (call TZ)).
  exists h, (exec h (mgr_init TZ 3 1)), "a", (Entry (trk "a") Confirmed 3%N).
  split; [|vm_compute; done]. split; [done|]. split; [done|]. apply exec_run. repeat constructor.
Qed.
Example C88_case :
  let h := [Add (trk "a"); UpdateLists [("a", ["d"])]; Add (trk "a"); Add (trk "b")] : list (call TZ) in
  let s := exec h (mgr_init TZ 3 2) in
  reached TZ 3 2 h s ∧ view s "a" = Some (Entry (trk "a") Tentative 1%N) ∧
  view s "b" = Some (Entry (trk "b") Tentative 1%N) ∧
  view (exec [UpdateLists [("a", ["d"]); ("b", ["e"])]] s) "a" = None.
Proof.
  intros h s. split; [|vm_compute; done]. split; [done|]. split; [done|]. apply exec_run. repeat constructor.
Qed.

Print Assumptions C78_history.
Print Assumptions C78_every_second_update.
Print Assumptions C88_large_removal_threshold.
Print Assumptions C88_removal_threshold_one.
