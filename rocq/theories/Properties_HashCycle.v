(** Property C123: the tracking cycle over hash tables.

    [hcycle_with], [hcycle64], [hcycles]: HashCycle.v.  [contents], [as_maps],
    [all_sighted], [map_cycles]: HashCycleSpec.v.  [hrun], [hmgr_init]: HashManager.v.  [cycle_with]:
    Pipeline.v.  [cycle64]: LibraryCycle.v.  [sighting], [models_right], [updated]:
    LibraryCycleSpec.v.  [gate_between], [above_gate], [one_track_each]: IdentitySpec.v. *)
From stdpp Require Import gmap strings list.
From Coq Require Import NArith ZArith Lia Reals.
From Verif Require Import Base Uuid DynObj Float DlibMatrix Matching TrackManager TrackManagerSpec TrackManagerProofs TrackManagerExamples TrackManagerThms
  HashTable HashTableThms HashManager HashManagerThms Pipeline Assignment PipelineDlib IdentitySpec IdentityThms LibraryCycle LibraryCycleSpec LibraryCycleThms
  HashCycle HashCycleSpec HashCycleThms Properties_HashTable Properties_Identity Properties_LibraryCycle.
Local Open Scope nat_scope.
Local Open Scope list_scope.

(** Whatever hash function, rehash policy, prediction, association and fusion: after any
    calls, a cycle over the tables does what the cycle over finite maps does, for one pair
    of iteration orders of those maps. *)
Theorem C123_cycle : ∀ string_hash grow (trk : track_type) Det du (new_track : Det → trk) predict visit assoc p r (h : list (call trk)) ds,
  (p < size_mod)%N → (r < size_mod)%N → Forall (valid_call trk) h →
  let s := fst (hrun string_hash grow trk h (hmgr_init trk p r)) in
  let (s', o) := hcycle_with string_hash grow trk du new_track predict visit assoc ds s in
  ∃ m m' ord1 ord2, reached trk p r h m ∧ order_of ord1 (m_tracks m) ∧ order_of ord2 (m_occ m) ∧
    cycle_with trk du new_track predict visit assoc ord1 ord2 ds m = (m', o) ∧
    hm_promo s' = m_promo m' ∧ hm_removal s' = m_removal m' ∧
    ∀ u, ht_find string_hash u (hm_tracks s') = m_tracks m' !! u ∧
         ht_find string_hash u (hm_statuses s') = m_statuses m' !! u ∧
         ht_find string_hash u (hm_occ s') = m_occ m' !! u.
Proof.
  intros string_hash grow trk Det du new_track predict visit assoc p r h ds Hp Hr Hv s.
  destruct (hrun_refines string_hash grow h (hmgr_init trk p r) (init_ok string_hash p r) Hv) as [R O]. fold s in R, O.
  destruct (cycle_refines string_hash grow du new_track predict visit assoc ds s O) as [E O'].
  destruct (hcycle_with string_hash grow trk du new_track predict visit assoc ds s) as [s' o]. cbn [fst snd] in *.
  exists (abs s), (abs s'), (ht_nodes (hm_tracks s)).*1, (ht_nodes (hm_occ s)).*1.
  split; [by split|]. split; [apply (order_keys string_hash), O|]. split; [apply (order_keys string_hash), O|].
  split; [done|]. split; [done|]. split; [done|]. intros u. destruct O' as (O1 & O2 & O3). by rewrite !ht_find_map.
Qed.
Print Assumptions C123_cycle.

Section Vehicles.
  Context (p : platform) {Obj : Type} `{EqDecision Obj} (who : uuid → Obj) (model : Obj → motion).
  Notation id := (@v_uuid _ _ _ _ _).
  Let usable (s : mgr (track64 p)) :=
    reachable (track64 p) s ∧ (m_removal s < m_promo s < 2 ^ 64 - 1)%N ∧ (m_removal s ≤ 1)%N ∧
    (∀ u x, view s u = Some x → (e_count x < 2 ^ 64 - 1)%N) ∧ one_track_each who s ∧ models_right p who model s.

  (** With the library's own functions and well separated objects the iteration orders have
      no influence at all: outcome and state are the same for any of them. *)
  Theorem C123_orders gate a b sep e now truth ord1 ord2 ord3 ord4 ds (s : mgr (track64 p)) :
    gate_between gate a b sep e → usable s →
    order_of ord1 (m_tracks s) → order_of ord2 (m_occ s) → order_of ord3 (m_tracks s) → order_of ord4 (m_occ s) →
    sighting p who model a b sep e now truth s ds →
    cycle64 p now (above_gate gate) ord1 ord2 ds s = cycle64 p now (above_gate gate) ord3 ord4 ds s.
  Proof. intros G U H1 H2 H3 H4 O. by apply (orders_same p who model gate a b sep e G now truth). Qed.

  (** One cycle over the tables, whatever hash function and rehash policy: what C122 says. *)
  Theorem C123_vehicles gate a b sep e string_hash grow pr re (h : list (call (track64 p))) now truth ds :
    gate_between gate a b sep e → (pr < size_mod)%N → (re < size_mod)%N → Forall (valid_call (track64 p)) h →
    let s := fst (hrun string_hash grow (track64 p) h (hmgr_init (track64 p) pr re)) in
    usable (as_maps s) → sighting p who model a b sep e now truth (as_maps s) ds →
    ∃ s', hcycle64 string_hash grow p (above_gate gate) now ds s = (s', Ok ()) ∧
      (∀ u x d, contents string_hash s u = Some x → In d ds → who u = who (id d) →
         let n := N.min (e_count x + 1) (hm_promo s) in
         ∃ f : track64 p, updated p now (e_track x) d = Some f ∧
           contents string_hash s' u = Some (Entry f (if decide (hm_promo s ≤ n)%N then Confirmed else e_status x) n) ∧
           contents string_hash s' (id d) = None) ∧
      (∀ u x, contents string_hash s u = Some x → (∀ d, In d ds → who u ≠ who (id d)) →
         let n := (e_count x - 1)%N in
         contents string_hash s' u = if decide (n ≤ hm_removal s)%N then None
           else Some (Entry (e_track x) (if decide (hm_promo s ≤ n)%N then Confirmed else e_status x) n)) ∧
      (∀ d, In d ds → (∀ u x, contents string_hash s u = Some x → who u ≠ who (id d)) →
         contents string_hash s' (id d) = Some (Entry (d : track64 p) Tentative 1%N)) ∧
      (∀ u, contents string_hash s u = None → ¬ In u (map id ds) → contents string_hash s' u = None).
  Proof.
    intros G Hp Hr Hv s U O.
    destruct (hrun_refines string_hash grow h (hmgr_init (track64 p) pr re) (init_ok string_hash pr re) Hv) as [_ K]. fold s in K.
    destruct (hcycle64_refines p gate string_hash grow now ds s K) as [E K'].
    destruct (C122_cycle p who model gate a b sep e now truth (ht_nodes (hm_tracks s)).*1 (ht_nodes (hm_occ s)).*1 ds (abs s) G U)
      as (m' & E' & _ & _ & V1 & V2 & V3 & V4); [apply (order_keys string_hash), K|apply (order_keys string_hash), K|exact O|].
    rewrite E in E'.
    destruct (hcycle64 string_hash grow p (above_gate gate) now ds s) as [s' o]. cbn [fst snd] in *.
    apply pair_equal_spec in E' as [Em ->]. subst m'. exists s'. split; [done|].
    assert (∀ u, contents string_hash s u = view (abs s) u) as C1 by (intros; by apply contents_view).
    assert (∀ u, contents string_hash s' u = view (abs s') u) as C2 by (intros; by apply contents_view).
    split; [|split; [|split]].
    - intros u x d Hx Hd Ew. rewrite C1 in Hx. cbv zeta. rewrite !C2. exact (V1 u x d Hx Hd Ew).
    - intros u x Hx No. rewrite C1 in Hx. cbv zeta. rewrite C2. exact (V2 u x Hx No).
    - intros d Hd No. rewrite C2. apply (V3 d Hd). intros u x Hx. rewrite <- C1 in Hx. exact (No u x Hx).
    - intros u Hu Hn. rewrite C1 in Hu. rewrite C2. exact (V4 u Hu Hn).
  Qed.

  (** Any number of cycles after any calls: if the cycles over tables of one hash function and
      policy have sightings, all cycles succeed over both tables, are cycles over finite maps (to which
      C122 applies), and end with the same tracks, statuses and counters. *)
  Theorem C123_independent gate a b sep e hash1 grow1 hash2 grow2 pr re (h : list (call (track64 p))) script :
    gate_between gate a b sep e → (pr < size_mod)%N → (re < size_mod)%N → Forall (valid_call (track64 p)) h →
    let s1 := fst (hrun hash1 grow1 (track64 p) h (hmgr_init (track64 p) pr re)) in
    let s2 := fst (hrun hash2 grow2 (track64 p) h (hmgr_init (track64 p) pr re)) in
    usable (as_maps s1) → all_sighted hash1 grow1 p who model a b sep e gate script s1 →
    let (t1, o1) := hcycles hash1 grow1 p (above_gate gate) script s1 in
    let (t2, o2) := hcycles hash2 grow2 p (above_gate gate) script s2 in
    map_cycles p gate script (as_maps s1) (as_maps t1) ∧
    length o1 = length script ∧ (∀ o, In o o1 → o = Ok ()) ∧ o2 = o1 ∧
    hm_promo t1 = hm_promo t2 ∧ hm_removal t1 = hm_removal t2 ∧
    ∀ u, contents hash1 t1 u = contents hash2 t2 u.
  Proof.
    intros G Hp Hr Hv s1 s2 U S.
    destruct (hrun_refines hash1 grow1 h (hmgr_init (track64 p) pr re) (init_ok hash1 pr re) Hv) as [R1 K1]. fold s1 in R1, K1.
    destruct (hrun_refines hash2 grow2 h (hmgr_init (track64 p) pr re) (init_ok hash2 pr re) Hv) as [R2 K2]. fold s2 in R2, K2.
    assert (abs s1 = abs s2) as E by (apply (order_irrelevant (lib_lawful p) pr re h); by split).
    pose proof (hcycles_same p who model gate a b sep e G hash1 grow1 hash2 grow2 script s1 s2 K1 K2 E U S) as H. cbv zeta in H.
    destruct (hcycles hash1 grow1 p (above_gate gate) script s1) as [t1 o1].
    destruct (hcycles hash2 grow2 p (above_gate gate) script s2) as [t2 o2]. cbn [fst snd] in H.
    destruct H as (A & L1 & L2 & _ & -> & -> & M). split; [exact M|].
    split; [by rewrite map_length|]. split; [by intros o Ho; apply in_map_iff in Ho as (? & <- & _)|]. split; [done|].
    split; [exact (f_equal m_promo A)|]. split; [exact (f_equal m_removal A)|].
    intros u. rewrite !contents_view by done. by rewrite A.
  Qed.
End Vehicles.

(** ** Example: the vehicles of C122 in two kinds of tables *)
Local Notation P1 := first_order.
Local Notation tables string_hash grow :=
  (fst (hrun string_hash grow (track64 P1) [Add (turning "a" 0 0 : track64 P1); Add (accelerating "b" 0 10 : track64 P1)] (hmgr_init (track64 P1) 2 0))).

Lemma vehicles_valid : Forall (valid_call (track64 P1)) [Add (turning "a" 0 0 : track64 P1); Add (accelerating "b" 0 10 : track64 P1)].
Proof. repeat constructor. Qed.
Lemma tables_vehicles string_hash grow : as_maps (tables string_hash grow) = two_vehicles.
Proof.
  destruct (hrun_refines string_hash grow _ (hmgr_init (track64 P1) 2 0) (init_ok string_hash 2 0) vehicles_valid) as [R _].
  apply (order_irrelevant (lib_lawful P1) 2 0 [Add (turning "a" 0 0 : track64 P1); Add (accelerating "b" 0 10 : track64 P1)]).
  - split; [done|]. split; [done|]. exact R.
  - apply exec_reached; [done|done|exact vehicles_valid].
Qed.

Lemma two_vehicles_usable : usable64 P1 object_of vehicle_model two_vehicles ∧
  ∀ u z, view two_vehicles u = Some z ↔ (u = "a" ∧ z = Entry (turning "a" 0 0 : track64 P1) Tentative 1%N) ∨
    (u = "b" ∧ z = Entry (accelerating "b" 0 10 : track64 P1) Tentative 1%N).
Proof.
  assert (reachable (track64 P1) two_vehicles ∧ m_promo two_vehicles = 2%N ∧ m_removal two_vehicles = 0%N ∧
    ∀ u z, view two_vehicles u = Some z ↔ (u = "a" ∧ z = Entry (turning "a" 0 0 : track64 P1) Tentative 1%N) ∨
      (u = "b" ∧ z = Entry (accelerating "b" 0 10 : track64 P1) Tentative 1%N)) as (Hr & Hp & Hq & V)
    by exact (two_added (variant_lawful _ _ _ _ _) (turning "a" 0 0 : track64 P1) (accelerating "b" 0 10 : track64 P1) eq_refl eq_refl).
  split; [|exact V].
  split; [done|]. rewrite Hp, Hq. split; [done|]. split; [done|]. split; [|split].
  - intros u x H. apply V in H as [[_ ->]|[_ ->]]; done.
  - intros u x u' x' H H' E. apply V in H as [[-> _]|[-> _]], H' as [[-> _]|[-> _]]; try done; vm_compute in E; discriminate E.
  - intros u x H. apply V in H as [[-> ->]|[-> ->]]; reflexivity.
Qed.

Lemma one_cycle string_hash grow q prune now ds s t : hcycle64 string_hash grow q prune now ds s = (t, Ok ()) →
  hcycles string_hash grow q prune [(now, ds)] s = (t, [Ok ()]).
Proof. intros E. unfold hcycles. rewrite E. reflexivity. Qed.
Lemma both_cycles q (Obj : Type) `{EqDecision Obj} (who : uuid → Obj) model gate a b sep e hash1 grow1 hash2 grow2 pr re
    (h : list (call (track64 q))) script s1 s2 t2 o2 :
  s1 = fst (hrun hash1 grow1 (track64 q) h (hmgr_init (track64 q) pr re)) →
  s2 = fst (hrun hash2 grow2 (track64 q) h (hmgr_init (track64 q) pr re)) →
  gate_between gate a b sep e → (pr < size_mod)%N → (re < size_mod)%N → Forall (valid_call (track64 q)) h →
  usable64 q who model (as_maps s1) → all_sighted hash1 grow1 q who model a b sep e gate script s1 →
  hcycles hash2 grow2 q (above_gate gate) script s2 = (t2, o2) →
  ∃ t1, hcycles hash1 grow1 q (above_gate gate) script s1 = (t1, o2) ∧ ∀ u, contents hash1 t1 u = contents hash2 t2 u.
Proof.
  intros -> -> G Hp Hr Hv U S F.
  pose proof (C123_independent q who model gate a b sep e hash1 grow1 hash2 grow2 pr re h script G Hp Hr Hv U S) as H.
  rewrite F in H. destruct (hcycles hash1 _ _ _ _ _) as [t1 o1]. destruct H as (_ & _ & _ & -> & _ & _ & H). eauto.
Qed.

Example C123_case :
  (** the tables have one bucket with both tracks and three buckets ... *)
  ht_buckets (hm_tracks (tables by_length one_bucket)) = 1%N ∧ ht_buckets (hm_tracks (tables first_char growing)) = 3%N ∧
  (** ... the cycle has a sighting ... *)
  all_sighted by_length one_bucket P1 object_of vehicle_model 1 (1 / 2) 10 6 (f32_of_Z 8) [(f64_of_Z 1, three_vehicles)] (tables by_length one_bucket) ∧
  (** ... and both end alike: with the tracks of the two vehicles confirmed and a new one *)
  ∃ t1 t2 f1 f2, hcycles by_length one_bucket P1 (above_gate (f32_of_Z 8)) [(f64_of_Z 1, three_vehicles)] (tables by_length one_bucket) = (t1, [Ok ()]) ∧
    hcycles first_char growing P1 (above_gate (f32_of_Z 8)) [(f64_of_Z 1, three_vehicles)] (tables first_char growing) = (t2, [Ok ()]) ∧
    contents first_char t2 "a" = Some (Entry f1 Confirmed 2%N) ∧ contents first_char t2 "b" = Some (Entry f2 Confirmed 2%N) ∧
    contents first_char t2 "z" = Some (Entry (turning "z" 1 50 : track64 P1) Tentative 1%N) ∧
    contents first_char t2 "x" = None ∧ contents first_char t2 "y" = None ∧
    ∀ u, contents by_length t1 u = contents first_char t2 u.
Proof.
  split; [vm_compute; reflexivity|]. split; [vm_compute; reflexivity|].
  destruct C122_case as (G & O & _).
  assert (∀ string_hash grow, all_sighted string_hash grow P1 object_of vehicle_model 1 (1 / 2) 10 6 (f32_of_Z 8) [(f64_of_Z 1, three_vehicles)]
    (tables string_hash grow)) as S.
  { intros. split; [|exact I]. exists vehicle_truth. rewrite tables_vehicles. exact O. }
  split; [apply S|].
  destruct two_vehicles_usable as [U V].
  assert (usable64 P1 object_of vehicle_model (as_maps (tables by_length one_bucket))) as U1 by (rewrite tables_vehicles; exact U).
  assert (usable64 P1 object_of vehicle_model (as_maps (tables first_char growing))) as U2 by (rewrite tables_vehicles; exact U).
  assert (sighting P1 object_of vehicle_model 1 (1 / 2) 10 6 (f64_of_Z 1) vehicle_truth (as_maps (tables first_char growing)) three_vehicles) as O2
    by (rewrite tables_vehicles; exact O).
  pose proof (C123_vehicles P1 object_of vehicle_model (f32_of_Z 8) 1 (1 / 2) 10 6 first_char growing 2 0) as K.
  pose proof (λ h, K h (f64_of_Z 1) vehicle_truth three_vehicles G eq_refl eq_refl) as K2.
  pose proof (K2 _ vehicles_valid) as K3. cbv zeta in K3. specialize (K3 U2). specialize (K3 O2).
  destruct K3 as (t2 & E2 & V1 & V2 & V3 & _). clear K K2.
  assert (∀ u, contents first_char (tables first_char growing) u = view two_vehicles u) as C.
  { intros u. rewrite <- (tables_vehicles first_char growing). apply contents_view.
    apply (hrun_refines first_char growing _ _ (init_ok first_char 2 0) vehicles_valid). }
  destruct (V1 "a" (Entry (turning "a" 0 0 : track64 P1) Tentative 1%N) (turning "y" 1 2)) as (f1 & _ & W1 & X1);
    [rewrite C; apply V; auto|right; left; reflexivity|reflexivity|].
  destruct (V1 "b" (Entry (accelerating "b" 0 10 : track64 P1) Tentative 1%N) (accelerating "x" 1 12)) as (f2 & _ & W2 & X2);
    [rewrite C; apply V; auto|left; reflexivity|reflexivity|].
  assert (contents first_char t2 "z" = Some (Entry (turning "z" 1 50 : track64 P1) Tentative 1%N)) as Z.
  { apply (V3 (turning "z" 1 50)); [right; right; left; reflexivity|].
    intros u x Hx. rewrite C in Hx. apply V in Hx as [[-> _]|[-> _]]; intros Ew; vm_compute in Ew; discriminate Ew. }
  assert (hm_promo (tables first_char growing) = 2%N) as Hp2 by reflexivity. rewrite Hp2 in W1, W2.
  pose proof (one_cycle _ _ _ _ _ _ _ _ E2) as F2.
  destruct (both_cycles P1 nat object_of vehicle_model (f32_of_Z 8) 1 (1 / 2) 10 6 by_length one_bucket first_char growing 2 0 _
    [(f64_of_Z 1, three_vehicles)] _ _ t2 [Ok ()] eq_refl eq_refl G eq_refl eq_refl vehicles_valid U1 (S _ _) F2) as (t1 & F1 & Same).
  exists t1, t2, f1, f2.
  split; [exact F1|]. split; [exact F2|]. split; [exact W1|]. split; [exact W2|]. split; [exact Z|].
  split; [exact X2|]. split; [exact X1|]. exact Same.
Qed.

Lemma keys_known {trk : track_type} (L : lawful trk) (s : mgr trk) u : reachable trk s →
  (is_Some (m_tracks s !! u) ↔ is_Some (view s u)) ∧ (is_Some (m_occ s !! u) ↔ is_Some (view s u)).
Proof.
  intros Hr. pose proof (reachable_inv L _ Hr) as I. rewrite (inv_tracks _ u I), (inv_occ _ u I), !fmap_is_Some. done.
Qed.
Example C123_orders_case :
  order_of ["a"; "b"] (m_tracks two_vehicles) ∧ order_of ["b"; "a"] (m_tracks two_vehicles) ∧ order_of ["a"; "b"] (m_occ two_vehicles) ∧
  cycle64 P1 (f64_of_Z 1) (above_gate (f32_of_Z 8)) ["a"; "b"] ["a"; "b"] three_vehicles two_vehicles =
  cycle64 P1 (f64_of_Z 1) (above_gate (f32_of_Z 8)) ["b"; "a"] ["a"; "b"] three_vehicles two_vehicles.
Proof.
  destruct C122_case as (G & O & _). destruct two_vehicles_usable as [U V].
  assert (∀ u, is_Some (view two_vehicles u) ↔ u = "a" ∨ u = "b") as T.
  { intros u. split.
    - intros [z H]. apply V in H as [[-> _]|[-> _]]; auto.
    - intros [->| ->]; eexists; apply V; eauto. }
  assert (∀ A (m : gmap uuid A), (∀ u, is_Some (m !! u) ↔ u = "a" ∨ u = "b") → order_of ["a"; "b"] m ∧ order_of ["b"; "a"] m) as K.
  { intros A m H. split; (split; [repeat constructor; rewrite ?elem_of_cons, ?elem_of_nil; intuition discriminate|]);
      intros u; rewrite H, !elem_of_cons, elem_of_nil; intuition. }
  destruct (K _ (m_tracks two_vehicles)) as [A1 A2].
  { intros u. rewrite <- T. apply (keys_known (lib_lawful P1) two_vehicles u (proj1 U)). }
  destruct (K _ (m_occ two_vehicles)) as [B1 _].
  { intros u. rewrite <- T. apply (keys_known (lib_lawful P1) two_vehicles u (proj1 U)). }
  split; [done|]. split; [done|]. split; [done|].
  exact (C123_orders P1 object_of vehicle_model (f32_of_Z 8) 1 (1 / 2) 10 6 (f64_of_Z 1) vehicle_truth _ _ _ _ three_vehicles two_vehicles G U A1 B1 A2 B1 O).
Qed.
Print Assumptions C123_orders.
Print Assumptions C123_vehicles.
Print Assumptions C123_independent.
