(** Properties C01 - C18: the track manager.

    [tt] is the track type; [lawful tt] says that the steps of update_track keep
    the uuid and have defined behaviour, and holds for the plain and the variant
    track types of the library ([plain_lawful], [variant_lawful]).  [reachable s]
    says that some construction followed by some finite sequence of public calls
    leads to [s].  [view s u] is what the manager knows about uuid [u] (track,
    status, count); C02 ties it to the public getters. *)
From stdpp Require Import gmap strings.
From Coq Require Import NArith ZArith Lia.
From Verif Require Import Base Uuid OrdMap OrdFacts DynObj TrackManager TrackManagerSpec
  TrackManagerThms TrackManagerExamples TrackManagerUpdate.

(** ** The hypothesis [lawful] is met by the library's track types. *)
Theorem C01_plain_lawful : ∀ T S C, lawful (plain_track T S C).
Proof. exact plain_lawful. Qed.
Theorem C01_variant_lawful : ∀ T S1 C1 S2 C2, lawful (variant_track T S1 C1 S2 C2).
Proof. exact variant_lawful. Qed.

(** ** C01 *)
Theorem C01_partition : ∀ (tt : track_type), lawful tt → ∀ (s : mgr tt) ord,
  reachable tt s → order_of ord (m_tracks s) →
  ∃ la lt lc, get_all_tracks tt ord s = Ok la ∧ get_tentative_tracks tt ord s = Ok lt ∧
    get_confirmed_tracks tt ord s = Ok lc ∧ Permutation la (lt ++ lc) ∧ NoDup (tt_uuid <$> la).
Proof. exact @partition. Qed.

(** No public call has undefined behaviour, and the calls that loop over the
    hash maps never throw. *)
Theorem C01_no_undefined_behaviour : ∀ (tt : track_type), lawful tt → ∀ ord c (s : mgr tt),
  reachable tt s → valid_call tt c → valid_order tt ord c s →
  snd (step tt ord c s) ≠ UB ∧
  (match c with UpdateLists _ | SetPromotion _ | SetRemoval _ => True | _ => False end →
   snd (step tt ord c s) = Ok ()).
Proof. exact @no_undefined. Qed.

(** A state with a confirmed and two tentative tracks, reached in five calls. *)
Example C01_case :
  reachable TZ s_demo ∧ ∃ ord la lt lc, order_of ord (m_tracks s_demo) ∧
    get_all_tracks TZ ord s_demo = Ok la ∧ length la = 3 ∧
    get_tentative_tracks TZ ord s_demo = Ok lt ∧ length lt = 2 ∧
    get_confirmed_tracks TZ ord s_demo = Ok lc ∧ lc = [trk "a"].
Proof.
  split; [apply s_demo_reachable|].
  eexists (map_to_list (m_tracks s_demo)).*1, _, _, _. split; [apply some_order|].
  split; [vm_compute; reflexivity|]. split; [done|]. split; [vm_compute; reflexivity|].
  split; [done|]. split; [vm_compute; reflexivity|]. done.
Qed.

(** ** C02 *)
Theorem C02_stored_under_own_uuid : ∀ (tt : track_type), lawful tt → ∀ s : mgr tt,
  reachable tt s →
  (∀ t, listed (get_all_tracks tt) s t ↔ ∃ st n, view s (tt_uuid t) = Some (Entry t st n)) ∧
  (∀ t, listed (get_confirmed_tracks tt) s t ↔ ∃ n, view s (tt_uuid t) = Some (Entry t Confirmed n)) ∧
  (∀ t, listed (get_tentative_tracks tt) s t ↔ ∃ n, view s (tt_uuid t) = Some (Entry t Tentative n)) ∧
  (∀ u, match view s u with
        | None => get_occurrences tt s u = 0%Z
        | Some e => (- 2 ^ 31 ≤ get_occurrences tt s u < 2 ^ 31)%Z ∧
            ∃ k, (get_occurrences tt s u = Z.of_N (e_count e) + k * 2 ^ 32)%Z
        end) ∧
  (∀ u e, view s u = Some e → tt_uuid (e_track e) = u).
Proof. exact @view_observable. Qed.
Example C02_case : reachable TZ s_demo ∧ view s_demo "a" = Some (Entry (trk "a") Confirmed 3%N) ∧
  get_occurrences TZ s_demo "a" = 3%Z ∧ get_occurrences TZ s_demo "x" = 0%Z.
Proof. split; [apply s_demo_reachable|]. vm_compute. done. Qed.

(** ** C03 *)
Theorem C03_add : ∀ (tt : track_type), lawful tt → ∀ (s : mgr tt) (t : tt),
  reachable tt s →
  match view s (tt_uuid t) with
  | Some _ => add_tentative_track tt t s = (s, Throw logic_error)
  | None => ∃ s', add_tentative_track tt t s = (s', Ok ()) ∧
      view s' (tt_uuid t) = Some (Entry t Tentative 1%N) ∧
      (∀ u, u ≠ tt_uuid t → view s' u = view s u) ∧
      m_promo s' = m_promo s ∧ m_removal s' = m_removal s
  end.
Proof. exact @add_thm. Qed.
Example C03_case : reachable TZ s_demo ∧ view s_demo (tt_uuid (trk "x")) = None ∧
  is_Some (view s_demo (tt_uuid (trk "a"))).
Proof. split; [apply s_demo_reachable|]. split; [vm_compute; done|]. eexists. vm_compute. done. Qed.

(** ** C04 *)
Theorem C04_update_track_lists : ∀ (tt : track_type), lawful tt → ∀ (s : mgr tt) ord a,
  reachable tt s → om_wf bytes_compare a → order_of ord (m_occ s) →
  ∃ s', update_track_lists tt ord a s = (s', Ok ()) ∧
    m_promo s' = m_promo s ∧ m_removal s' = m_removal s ∧
    ∀ u, match view s u with
         | None => view s' u = None
         | Some e =>
             (e_count e < 2 ^ 64 - 1)%N →
             ∀ n, n = (if decide (u ∈ a.*1) then N.min (e_count e + 1) (m_promo s) else e_count e - 1)%N →
             ((n ≤ m_removal s)%N → view s' u = None) ∧
             ((m_removal s < n)%N →
                view s' u = Some (Entry (e_track e)
                                    (if decide (m_promo s ≤ n)%N then Confirmed else e_status e) n))
         end.
Proof. exact @update_thm. Qed.
(** One track kept and promoted, one decremented, one removed. *)
Example C04_case :
  reachable TZ s_demo ∧ om_wf bytes_compare [("a", ["d1"]); ("b", [])] ∧
  let s' := fst (update_track_lists TZ (map_to_list (m_occ s_demo)).*1 [("a", ["d1"]); ("b", [])] s_demo) in
  view s' "a" = Some (Entry (trk "a") Confirmed 3%N) ∧
  view s' "b" = Some (Entry (trk "b") Tentative 2%N) ∧ view s' "c" = None.
Proof. split; [apply s_demo_reachable|]. split; [vm_compute; done|]. vm_compute. done. Qed.

(** ** C05 *)
Theorem C05_counters : ∀ (tt : track_type), lawful tt → ∀ p r h (s : mgr tt) u (e : entry tt),
  reached tt p r h s → view s u = Some e →
  (1 ≤ e_count e)%N ∧ size_decr (e_count e) = (e_count e - 1)%N ∧
  ((updates h < 2 ^ 64 - 2)%N → size_incr (e_count e) = (e_count e + 1)%N).
Proof. exact @counter_thm. Qed.
(** The bound on the number of updates is needed: after exactly 2^64 - 2
    sightings the next sighting wraps the counter and deletes a confirmed track. *)
Theorem C05_bound_needed :
  ∃ (p r : N) h (s : mgr TZ) u e ord a s',
    (r < p)%N ∧ reached TZ p r h s ∧ updates h = (2 ^ 64 - 2)%N ∧
    view s u = Some e ∧ e_status e = Confirmed ∧
    om_wf bytes_compare a ∧ u ∈ a.*1 ∧ order_of ord (m_occ s) ∧
    update_track_lists TZ ord a s = (s', Ok ()) ∧ view s' u = None.
Proof. exact counter_wrap. Qed.
Example C05_case : reached TZ 3 0 h_demo s_demo ∧ is_Some (view s_demo "a") ∧ updates h_demo = 2%N.
Proof. split; [apply s_demo_reached|]. split; [eexists; vm_compute; done|done]. Qed.

(** ** C06 *)
Theorem C06_never_demoted : ∀ (tt : track_type), lawful tt → ∀ (s : mgr tt) h s' u (e : entry tt),
  reachable tt s → run tt s h s' →
  Forall (λ c, match c with SetPromotion _ => False | _ => True end) h →
  Forall (λ c, match c with Add t => tt_uuid t ≠ u | _ => True end) h →
  view s u = Some e → e_status e = Confirmed →
  match view s' u with Some e' => e_status e' = Confirmed | None => True end.
Proof. exact @never_demoted. Qed.
Example C06_case : reachable TZ s_demo ∧ run TZ s_demo [UpdateLists []; SetRemoval 1%N] (exec [UpdateLists []; SetRemoval 1%N] s_demo) ∧
  view (exec [UpdateLists []; SetRemoval 1%N] s_demo) "a" = Some (Entry (trk "a") Confirmed 2%N).
Proof. split; [apply s_demo_reachable|]. split; [apply exec_run; repeat constructor|]. vm_compute. done. Qed.

(** ** C07 *)
Theorem C07_promotion_latency : ∀ (tt : track_type), lawful tt → ∀ (s : mgr tt) t s1 h s2 k,
  reachable tt s → view s (tt_uuid t) = None → add_tentative_track tt t s = (s1, Ok ()) →
  (m_removal s < 2)%N → (m_removal s < m_promo s)%N →
  run tt s1 h s2 → project (tt_uuid t) h = replicate k (PSeen true) →
  (N.of_nat k + 1 < 2 ^ 64)%N →
  ∃ st n, view s2 (tt_uuid t) = Some (Entry t st n) ∧
    n = (if decide (k = 0)%nat then 1 else N.min (N.of_nat k + 1) (m_promo s))%N ∧
    (st = Confirmed ↔ 1 ≤ k ∧ (m_promo s ≤ N.of_nat k + 1)%N).
Proof. exact @promotion_latency. Qed.
Example C07_case :
  let s := s_demo in let s1 := exec1 s (Add (trk "x")) in
  let h := [UpdateLists [("x", ["d"])]; Add (trk "y"); UpdateLists [("x", ["d"]); ("y", [])]] in
  reachable TZ s ∧ add_tentative_track TZ (trk "x") s = (s1, Ok ()) ∧ run TZ s1 h (exec h s1) ∧
  project "x" h = replicate 2 (PSeen true) ∧
  view (exec h s1) "x" = Some (Entry (trk "x") Confirmed 3%N).
Proof.
  split; [apply s_demo_reachable|]. split; [vm_compute; done|].
  split; [apply exec_run; repeat constructor|]. split; vm_compute; done.
Qed.

(** ** C08 *)
Theorem C08_removal_latency : ∀ (tt : track_type), lawful tt → ∀ (s : mgr tt) h s' u (e : entry tt) k,
  reachable tt s → view s u = Some e →
  run tt s h s' → project u h = replicate (N.to_nat k) (PSeen false) →
  if decide (k = 0 ∨ m_removal s + k < e_count e)%N then
    ∃ st, view s' u = Some (Entry (e_track e) st (e_count e - k)%N) ∧
          (e_status e = Confirmed → st = Confirmed) ∧
          (st = Confirmed → e_status e = Confirmed ∨ (1 ≤ k ∧ m_promo s < e_count e)%N)
  else view s' u = None.
Proof. exact @removal_latency. Qed.
Example C08_case :
  let h := [UpdateLists [("b", ["d"])]; UpdateLists []; UpdateLists [("q", [])]] in
  reachable TZ s_demo ∧ run TZ s_demo h (exec h s_demo) ∧
  project "a" h = replicate (N.to_nat 3) (PSeen false) ∧
  view (exec (take 2 h) s_demo) "a" = Some (Entry (trk "a") Confirmed 1%N) ∧ view (exec h s_demo) "a" = None.
Proof.
  split; [apply s_demo_reachable|]. split; [apply exec_run; repeat constructor|].
  split; [vm_compute; done|]. split; vm_compute; done.
Qed.

(** ** C09 *)
Theorem C09_set_promotion : ∀ (tt : track_type), lawful tt → ∀ (s : mgr tt) ord p,
  reachable tt s → (p < 2 ^ 64)%N → order_of ord (m_tracks s) →
  ∃ s', set_promotion tt ord p s = (s', Ok ()) ∧
    get_promotion_threshold tt s' = p ∧ get_removal_threshold tt s' = get_removal_threshold tt s ∧
    ∀ u, match view s u with
         | None => view s' u = None
         | Some e => view s' u = Some (Entry (e_track e)
                       (if decide (p ≤ e_count e)%N then Confirmed else Tentative) (e_count e))
         end.
Proof. exact @set_promotion_thm. Qed.
Example C09_case : reachable TZ s_demo ∧
  view (exec [SetPromotion 1%N] s_demo) "b" = Some (Entry (trk "b") Confirmed 1%N) ∧
  view (exec [SetPromotion 4%N] s_demo) "a" = Some (Entry (trk "a") Tentative 3%N).
Proof. split; [apply s_demo_reachable|]. vm_compute. done. Qed.

(** ** C10: re-setting the threshold to the value it already has is not neutral. *)
Theorem C10_reset_promotion_neutral_refuted :
  ∃ s ord s' t, reachable TZ s ∧ order_of ord (m_tracks s) ∧
    set_promotion TZ ord (get_promotion_threshold TZ s) s = (s', Ok ()) ∧
    listed (get_confirmed_tracks TZ) s t ∧ ¬ listed (get_confirmed_tracks TZ) s' t.
Proof. exact reset_promotion_demotes. Qed.

(** ** C11 *)
Theorem C11_set_removal : ∀ (tt : track_type), lawful tt → ∀ (s : mgr tt) ord r,
  reachable tt s → (r < 2 ^ 64)%N → order_of ord (m_occ s) →
  ∃ s', set_removal tt ord r s = (s', Ok ()) ∧
    get_removal_threshold tt s' = r ∧ get_promotion_threshold tt s' = get_promotion_threshold tt s ∧
    (∀ u, match view s u with
          | None => view s' u = None
          | Some e => view s' u = if decide (r < e_count e)%N then Some e else None
          end) ∧
    ∀ ord', order_of ord' (m_occ s') → set_removal tt ord' r s' = (s', Ok ()).
Proof. exact @set_removal_thm. Qed.
Example C11_case : reachable TZ s_demo ∧
  view (exec [SetRemoval 1%N] s_demo) "b" = None ∧
  view (exec [SetRemoval 1%N] s_demo) "a" = Some (Entry (trk "a") Confirmed 3%N).
Proof. split; [apply s_demo_reachable|]. vm_compute. done. Qed.

(** ** C12 *)
Theorem C12_order_irrelevant : ∀ (tt : track_type), lawful tt → ∀ p r h (s1 s2 : mgr tt),
  reached tt p r h s1 → reached tt p r h s2 → s1 = s2.
Proof. exact @order_irrelevant. Qed.
Theorem C12_getter_order : ∀ (tt : track_type), lawful tt → ∀ (s : mgr tt) ord1 ord2,
  reachable tt s → order_of ord1 (m_tracks s) → order_of ord2 (m_tracks s) →
  ∀ getter, getter ∈ [get_all_tracks tt; get_confirmed_tracks tt; get_tentative_tracks tt] →
  ∃ l1 l2, getter ord1 s = Ok l1 ∧ getter ord2 s = Ok l2 ∧ Permutation l1 l2.
Proof. exact @getter_orders. Qed.
(** Two different orders for the same update. *)
Example C12_case :
  reached TZ 3 0 h_demo s_demo ∧ order_of ["a"; "b"; "c"] (m_occ s_demo) ∧ order_of ["c"; "a"; "b"] (m_occ s_demo) ∧
  get_all_tracks TZ ["a"; "b"; "c"] s_demo = Ok [trk "a"; trk "b"; trk "c"] ∧
  get_all_tracks TZ ["c"; "a"; "b"] s_demo = Ok [trk "c"; trk "a"; trk "b"].
Proof.
  split; [apply s_demo_reached|].
  assert (order_of ["b"; "a"; "c"] (m_occ s_demo)) as Ho.
  { replace ["b"; "a"; "c"] with ((map_to_list (m_occ s_demo)).*1) by (vm_compute; done). apply some_order. }
  assert (∀ ord, NoDup ord → Permutation ord ["b"; "a"; "c"] → order_of ord (m_occ s_demo)) as H.
  { intros ord Hn Hp. split; [done|]. intros u. rewrite Hp. apply Ho. }
  split; [|split].
  - apply H; [apply (bool_decide_unpack _); vm_compute; done|]. apply perm_swap.
  - apply H; [apply (bool_decide_unpack _); vm_compute; done|].
    apply (Permutation_trans (l' := ["c"; "b"; "a"])); [apply perm_skip, perm_swap|].
    apply (Permutation_trans (l' := ["b"; "c"; "a"])); [apply perm_swap|apply perm_skip, perm_swap].
  - vm_compute. done.
Qed.

(** ** C13 *)
Theorem C13_non_interference : ∀ (tt : track_type), lawful tt → ∀ p r h1 h2 (s1 s2 : mgr tt) u,
  reached tt p r h1 s1 → reached tt p r h2 s2 → project u h1 = project u h2 →
  view s1 u = view s2 u.
Proof. exact @non_interference. Qed.
Example C13_case :
  let h2 := [Add (trk "a"); UpdateLists [("a", [])]; UpdateLists [("a", ["d9"]); ("z", [])]] in
  reached TZ 3 0 h_demo s_demo ∧ reached TZ 3 0 h2 (exec h2 (mgr_init TZ 3 0)) ∧
  project "a" h_demo = project "a" h2.
Proof.
  split; [apply s_demo_reached|]. split; [apply exec_reached; [done|done|repeat constructor]|].
  vm_compute. done.
Qed.

(** ** C14 *)
Theorem C14_keys_only : ∀ (tt : track_type), lawful tt → ∀ (s : mgr tt) ord1 ord2 a1 a2,
  reachable tt s → om_wf bytes_compare a1 → om_wf bytes_compare a2 →
  (∀ u, u ∈ a1.*1 ↔ u ∈ a2.*1) → order_of ord1 (m_occ s) → order_of ord2 (m_occ s) →
  update_track_lists tt ord1 a1 s = update_track_lists tt ord2 a2 s.
Proof. exact @keys_only. Qed.
Example C14_case : reachable TZ s_demo ∧
  om_wf bytes_compare [("a", ["d1"; "d2"]); ("b", ["d3"])] ∧ om_wf bytes_compare [("a", []); ("b", ["x"])].
Proof. split; [apply s_demo_reachable|]. vm_compute. done. Qed.

(** ** C15.  [replaced s s' id e t'] (TrackManagerUpdate.v): in [s'] the entry of
    [id] is [e] with the track [t'], all other entries and the thresholds are as in [s]. *)
Theorem C15_plain_fields : ∀ T S C (s : mgr (plain_track T S C)) id ts st cov,
  reachable (plain_track T S C) s →
  match view s id with
  | None => update_track_fields (plain_track T S C) id (ts, st, cov) s = (s, Throw out_of_range)
  | Some e => ∃ s', update_track_fields (plain_track T S C) id (ts, st, cov) s = (s', Ok ()) ∧
      replaced s s' id e (DynObj ts st cov (o_uuid (e_track e)) (o_class (e_track e)))
  end.
Proof. exact @plain_update_fields. Qed.
Theorem C15_plain_copy : ∀ T S C (s : mgr (plain_track T S C)) id (src : dyn_obj T S C),
  reachable (plain_track T S C) s →
  match view s id with
  | None => update_track_from (plain_track T S C) id src s = (s, Throw out_of_range)
  | Some e => ∃ s', update_track_from (plain_track T S C) id src s = (s', Ok ()) ∧
      replaced s s' id e (DynObj (o_timestamp src) (o_state src) (o_cov src)
                            (o_uuid (e_track e)) (o_class (e_track e)))
  end.
Proof. exact @plain_update_from. Qed.
(** Variant tracks: [merged] is the stored track with time stamp, state and
    covariance of the source, and undefined when the motion models differ. *)
Theorem C15_variant_copy : ∀ T S1 C1 S2 C2 (s : mgr (variant_track T S1 C1 S2 C2)) id src,
  reachable (variant_track T S1 C1 S2 C2) s →
  match view s id with
  | None => update_track_from (variant_track T S1 C1 S2 C2) id src s = (s, Throw out_of_range)
  | Some e =>
      match merged (e_track e) src with
      | Some t' => ∃ s', update_track_from (variant_track T S1 C1 S2 C2) id src s = (s', Ok ()) ∧ replaced s s' id e t'
      | None => ∃ s', update_track_from (variant_track T S1 C1 S2 C2) id src s = (s', Throw runtime_error) ∧
                      replaced s s' id e (restamped (e_track e) (v_timestamp src))
      end
  end.
Proof. exact @variant_update_from. Qed.
Theorem C15_variant_fields : ∀ T S1 C1 S2 C2 (s : mgr (variant_track T S1 C1 S2 C2)) id ts
    (st : var2 S1 S2) (cov : var2 C1 C2),
  reachable (variant_track T S1 C1 S2 C2) s →
  match view s id with
  | None => update_track_fields (variant_track T S1 C1 S2 C2) id (ts, st, cov) s = (s, Throw out_of_range)
  | Some e =>
      match e_track e, st, cov with
      | Ctrv a, Ctrv x, Ctrv c => ∃ s', update_track_fields (variant_track T S1 C1 S2 C2) id (ts, st, cov) s = (s', Ok ()) ∧
          replaced s s' id e (Ctrv (DynObj ts x c (o_uuid a) (o_class a)))
      | Ctra b, Ctra y, Ctra c => ∃ s', update_track_fields (variant_track T S1 C1 S2 C2) id (ts, st, cov) s = (s', Ok ()) ∧
          replaced s s' id e (Ctra (DynObj ts y c (o_uuid b) (o_class b)))
      | Ctrv a, Ctrv x, Ctra _ => ∃ s', update_track_fields (variant_track T S1 C1 S2 C2) id (ts, st, cov) s = (s', Throw runtime_error) ∧
          replaced s s' id e (Ctrv (DynObj ts x (o_cov a) (o_uuid a) (o_class a)))
      | Ctra b, Ctra y, Ctrv _ => ∃ s', update_track_fields (variant_track T S1 C1 S2 C2) id (ts, st, cov) s = (s', Throw runtime_error) ∧
          replaced s s' id e (Ctra (DynObj ts y (o_cov b) (o_uuid b) (o_class b)))
      | old, _, _ => ∃ s', update_track_fields (variant_track T S1 C1 S2 C2) id (ts, st, cov) s = (s', Throw runtime_error) ∧
          replaced s s' id e (restamped old ts)
      end
  end.
Proof. exact @variant_update_fields. Qed.
Example C15_case : reachable TZ s_demo ∧ reachable TV s_var ∧
  view (exec [UpdateFields (tt := TZ) "a" (5%Z, 6%Z, 7%Z)] s_demo) "a" =
    Some (Entry (DynObj 5%Z 6%Z 7%Z "a" kUnknown : TZ) Confirmed 3%N) ∧
  view (exec [UpdateFrom (tt := TV) "a" (Ctrv (DynObj 5%Z 6%Z 7%Z "q" kPedestrian))] s_var) "a" =
    Some (Entry (Ctrv (DynObj 5%Z 6%Z 7%Z "a" kUnknown) : TV) Tentative 1%N).
Proof. split; [apply s_demo_reachable|]. split; [apply s_var_reachable|]. vm_compute. done. Qed.

(** ** C16: a throwing update_track may have changed the track (see also
    C15_variant_copy for the exact effect in every such case). *)
Theorem C16_strong_exception_guarantee_refuted :
  ∃ (s s' : mgr TV) id src e, reachable TV s ∧
    update_track_from TV id src s = (s', Throw e) ∧ view s' id ≠ view s id.
Proof. exact throwing_update_changes_track. Qed.

(** ** C17 *)
Theorem C17_inverted_thresholds : ∀ (tt : track_type), lawful tt → ∀ (s : mgr tt) ord a,
  reachable tt s → om_wf bytes_compare a → order_of ord (m_occ s) → (m_promo s ≤ m_removal s)%N →
  ∃ s', update_track_lists tt ord a s = (s', Ok ()) ∧ ∀ u, u ∈ a.*1 → view s' u = None.
Proof. exact @inverted. Qed.
Example C17_case :
  let h := [Add (trk "a"); UpdateLists [("a", ["d"])]] in
  reachable TZ (exec (take 1 h) (mgr_init TZ 1 1)) ∧
  is_Some (view (exec (take 1 h) (mgr_init TZ 1 1)) "a") ∧ view (exec h (mgr_init TZ 1 1)) "a" = None.
Proof.
  split; [apply reachable_exec; [done|done|repeat constructor]|]. split; [eexists; vm_compute; done|].
  vm_compute. done.
Qed.

(** ** C18 *)
Theorem C18_get_occurrences : ∀ (tt : track_type), lawful tt → ∀ p r h (s : mgr tt) u,
  reached tt p r h s → (updates h < 2 ^ 31 - 1)%N →
  match view s u with
  | None => get_occurrences tt s u = 0%Z
  | Some e => get_occurrences tt s u = Z.of_N (e_count e) ∧ (0 < get_occurrences tt s u)%Z
  end.
Proof. exact @occurrences_thm. Qed.
Example C18_case : reached TZ 3 0 h_demo s_demo ∧ (updates h_demo < 2 ^ 31 - 1)%N ∧
  get_occurrences TZ s_demo "a" = 3%Z.
Proof. split; [apply s_demo_reached|]. vm_compute. done. Qed.

Print Assumptions C01_partition.
Print Assumptions C01_no_undefined_behaviour.
Print Assumptions C02_stored_under_own_uuid.
Print Assumptions C03_add.
Print Assumptions C04_update_track_lists.
Print Assumptions C05_counters.
Print Assumptions C05_bound_needed.
Print Assumptions C06_never_demoted.
Print Assumptions C07_promotion_latency.
Print Assumptions C08_removal_latency.
Print Assumptions C09_set_promotion.
Print Assumptions C10_reset_promotion_neutral_refuted.
Print Assumptions C11_set_removal.
Print Assumptions C12_order_irrelevant.
Print Assumptions C12_getter_order.
Print Assumptions C13_non_interference.
Print Assumptions C14_keys_only.
Print Assumptions C15_plain_fields.
Print Assumptions C15_plain_copy.
Print Assumptions C15_variant_copy.
Print Assumptions C15_variant_fields.
Print Assumptions C16_strong_exception_guarantee_refuted.
Print Assumptions C17_inverted_thresholds.
Print Assumptions C18_get_occurrences.
