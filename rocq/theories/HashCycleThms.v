(** Proofs about cycles over hash tables; the properties are in Properties_HashCycle.v. *)
From stdpp Require Import gmap strings list.
From Coq Require Import NArith ZArith Reals Lia.
From Verif Require Import Base Uuid DynObj Float DlibMatrix Scoring Matching Fusing TrackManager TrackManagerSpec TrackManagerProofs TrackManagerThms
  HashTable HashTableThms HashManager HashManagerThms Pipeline Assignment PipelineDlib PipelineThms IdentitySpec IdentityThms
  LibraryCycle LibraryCycleSpec LibraryCycleThms HashCycle HashCycleSpec.
Local Open Scope nat_scope.

Section Refine.
  Context (string_hash : string → N) (grow : N → N → N).
  Context {trk : track_type} {Det : Type} (du : Det → uuid) (new_track : Det → trk) (predict : trk → trk)
    (visit : trk → Det → result trk).
  Notation ok := (ok string_hash).

  Lemma store_refines fused s : ok s →
    let r := hstore_fused string_hash trk fused s in store_fused trk fused (abs s) = (abs r.1, r.2) ∧ ok r.1.
  Proof.
    revert s. induction fused as [|t fused IH]; intros s Hok; [done|]. cbn [hstore_fused store_fused].
    destruct (step_refines string_hash grow (UpdateFrom (tt_uuid t) t) s Hok) as [E Hok1]. cbn [step hstep] in E, Hok1.
    rewrite E. destruct (hmodify_track string_hash trk (tt_uuid t) (tt_copy t) s) as [s1 [[]| |]]; cbn [fst snd] in *; [|done|done].
    by apply IH.
  Qed.
  Lemma add_refines ds s : ok s →
    let r := hadd_new string_hash grow trk new_track ds s in add_new trk new_track ds (abs s) = (abs r.1, r.2) ∧ ok r.1.
  Proof.
    revert s. induction ds as [|d ds IH]; intros s Hok; [done|]. cbn [hadd_new add_new].
    destruct (step_refines string_hash grow (Add (new_track d)) s Hok) as [E Hok1]. cbn [step hstep] in E, Hok1.
    rewrite E. destruct (hadd_tentative_track string_hash grow trk (new_track d) s) as [s1 [[]| |]]; cbn [fst snd] in *; [|done|done].
    by apply IH.
  Qed.

  Lemma cycle_refines assoc ds s : ok s →
    let r := hcycle_with string_hash grow trk du new_track predict visit assoc ds s in
    cycle_with trk du new_track predict visit assoc (ht_nodes (hm_tracks s)).*1 (ht_nodes (hm_occ s)).*1 ds (abs s) = (abs r.1, r.2) ∧ ok r.1.
  Proof.
    intros Hok. unfold hcycle_with, cycle_with, hget_all_tracks.
    rewrite <- (all_refines (ht_nodes (hm_tracks s)) s) by (intros u t; apply nodes_lookup with (string_hash := string_hash); apply Hok).
    destruct (assoc _ ds) as [a| |]; [|done|done].
    destruct (update_refines string_hash grow a s Hok) as [E1 Hok1]. rewrite E1. clear E1.
    destruct (hupdate_track_lists string_hash trk a s) as [s1 [[]| |]]; cbn [fst snd] in *; [|done|done].
    destruct (fuse_associations _ _ _ _ _ _) as [fused| |]; [|done|done].
    destruct (store_refines fused s1 Hok1) as [E2 Hok2]. rewrite E2. clear E2.
    destruct (hstore_fused string_hash trk fused s1) as [s2 [[]| |]]; cbn [fst snd] in *; [|done|done].
    by apply add_refines.
  Qed.

  Lemma contents_view (s : hmgr trk) u : ok s → contents string_hash s u = view (abs s) u.
  Proof. intros (H1 & H2 & H3). unfold contents, view. rewrite !ht_find_map by done. done. Qed.
End Refine.

Section Library.
  Context (p : platform) {Obj : Type} `{EqDecision Obj} (who : uuid → Obj) (model : Obj → motion).
  Context (gate : f32) (a b sep : R) (e : Z) (G : gate_between gate a b sep e).
  Notation id := (@v_uuid _ _ _ _ _).
  Notation sees := (sighting p who model a b sep e).
  Definition usable64 (s : mgr (track64 p)) : Prop :=
    reachable (track64 p) s ∧ (m_removal s < m_promo s < 2 ^ 64 - 1)%N ∧ (m_removal s ≤ 1)%N ∧
    (∀ u x, view s u = Some x → (e_count x < 2 ^ 64 - 1)%N) ∧ one_track_each who s ∧ models_right p who model s.

  Lemma usable_step now truth ord1 ord2 ds s : usable64 s → order_of ord1 (m_tracks s) → order_of ord2 (m_occ s) → sees now truth s ds →
    let s' := fst (cycle64 p now (above_gate gate) ord1 ord2 ds s) in
    usable64 s' ∧ m_promo s' = m_promo s ∧ m_removal s' = m_removal s.
  Proof.
    intros (Hr & T & R & C & One & Hm) H1 H2 O.
    destruct (sighted_cycle p who model gate a b sep e G now truth ord1 ord2 ds s Hr H1 H2 T R C One Hm O) as (s' & E & One' & Hm' & _).
    destruct (observed_cycle (trk := track64 p) (variant_lawful _ _ _ _ _) id who (object_pose p) (object_pose p) (score64 p) (visit64 p)
      gate a b sep e (λ d, d) (λ d, eq_refl) G (score64_distance p) (predict64 p now) truth ord1 ord2 ds s)
      as (s2 & E2 & Hr2 & Ep & Er & C2 & _); try done.
    { apply predict64_uuid. }
    { intros t d f H. by destruct (updated_visit p now t d f H) as (_ & ? & ? & _). }
    { by apply (sighting_observation p who model). }
    rewrite E. cbn [fst].
    assert (s2 = s') as -> by (exact (f_equal fst (eq_trans (eq_sym E2) E))).
    unfold usable64. rewrite Ep, Er. done.
  Qed.

  (** The state after a cycle is determined by what is known of the state before. *)
  Lemma same_after now truth ds s ord1 ord2 s0 ord3 ord4 : usable64 s → usable64 s0 →
    (∀ u, view s u = view s0 u) → m_promo s = m_promo s0 → m_removal s = m_removal s0 →
    order_of ord1 (m_tracks s) → order_of ord2 (m_occ s) → order_of ord3 (m_tracks s0) → order_of ord4 (m_occ s0) →
    sees now truth s ds → sees now truth s0 ds →
    snd (cycle64 p now (above_gate gate) ord1 ord2 ds s) = Ok () ∧ snd (cycle64 p now (above_gate gate) ord3 ord4 ds s0) = Ok () ∧
    ∀ u, view (fst (cycle64 p now (above_gate gate) ord1 ord2 ds s)) u = view (fst (cycle64 p now (above_gate gate) ord3 ord4 ds s0)) u.
  Proof.
    intros (Hr & T & R & C & One & Hm) (Hr0 & T0 & R0 & C0 & One0 & Hm0) Hv Hp Hq H1 H2 H3 H4 O O0.
    destruct (sighted_cycle p who model gate a b sep e G now truth ord1 ord2 ds s Hr H1 H2 T R C One Hm O) as (s' & E & _ & _ & V1 & V2 & V3 & V4).
    destruct (sighted_cycle p who model gate a b sep e G now truth ord3 ord4 ds s0 Hr0 H3 H4 T0 R0 C0 One0 Hm0 O0)
      as (s0' & E0 & _ & _ & W1 & W2 & W3 & W4).
    rewrite E, E0. cbn [fst snd]. split; [done|]. split; [done|]. intros u.
    assert (∀ v, (∃ d, In d ds ∧ who v = who (id d)) ∨ (∀ d, In d ds → who v ≠ who (id d))) as Dec.
    { intros v. destruct (Exists_dec (λ d : object64 p, who v = who (id d)) ds) as [Hex|Hno].
      - left. apply Exists_exists in Hex as (d & Hd & Ew). exists d. split; [|done]. by apply elem_of_list_In.
      - right. intros d Hd Ew. apply Hno, Exists_exists. exists d. split; [|done]. by apply elem_of_list_In. }
    destruct (view s u) as [x|] eqn:Hx.
    - pose proof Hx as Hx0. rewrite Hv in Hx0. destruct (Dec u) as [(d & Hd & Ew)|No].
      + destruct (V1 u x d Hx Hd Ew) as (f & Hf & E1 & _), (W1 u x d Hx0 Hd Ew) as (f0 & Hf0 & E2 & _).
        rewrite E1, E2, Hp. rewrite Hf in Hf0. apply some_inj in Hf0. by rewrite Hf0.
      + pose proof (V2 u x Hx No) as E1. pose proof (W2 u x Hx0 No) as E2. cbn zeta in E1, E2. by rewrite E1, E2, Hp, Hq.
    - pose proof Hx as Hx0. rewrite Hv in Hx0.
      destruct (in_dec String.string_dec u (map id ds)) as [Hin|Hn]; [|by rewrite (V4 u Hx Hn), (W4 u Hx0 Hn)].
      apply in_map_iff in Hin as (d & <- & Hd).
      assert ((∃ u' x', view s u' = Some x' ∧ who u' = who (id d)) ∨ (∀ u' x', view s u' = Some x' → who u' ≠ who (id d))) as [(u' & x' & Hx' & Ew)|No].
      { destruct (Exists_dec (λ u', who u' = who (id d)) (filter (λ u', is_Some (view s u')) (map_to_list (m_tracks s)).*1)) as [Hex|Hno].
        - left. apply Exists_exists in Hex as (u' & Hu & Ew). apply elem_of_list_filter in Hu as [[x' Hx'] _]. eauto.
        - right. intros u' x' Hx' Ew. apply Hno, Exists_exists. exists u'. split; [|done]. apply elem_of_list_filter. split; [eauto|].
          unfold view in Hx'. destruct (m_tracks s !! u') as [t|] eqn:Et; [|done].
          apply elem_of_list_fmap. exists (u', t). split; [done|]. by apply elem_of_map_to_list. }
      + destruct (V1 u' x' d Hx' Hd Ew) as (_ & _ & _ & E1). rewrite Hv in Hx'.
        destruct (W1 u' x' d Hx' Hd Ew) as (_ & _ & _ & E2). by rewrite E1, E2.
      + rewrite (V3 d Hd No). rewrite (W3 d Hd); [done|]. intros u' x' Hx'. rewrite <- Hv in Hx'. by apply (No u' x').
  Qed.

  Lemma lib_lawful : lawful (track64 p).
  Proof. apply variant_lawful. Qed.

  (** ... so two states after such a cycle are the same, whatever the iteration orders were. *)
  Lemma orders_same now truth ds s ord1 ord2 ord3 ord4 : usable64 s →
    order_of ord1 (m_tracks s) → order_of ord2 (m_occ s) → order_of ord3 (m_tracks s) → order_of ord4 (m_occ s) →
    sees now truth s ds →
    cycle64 p now (above_gate gate) ord1 ord2 ds s = cycle64 p now (above_gate gate) ord3 ord4 ds s ∧
    snd (cycle64 p now (above_gate gate) ord1 ord2 ds s) = Ok ().
  Proof.
    intros U H1 H2 H3 H4 O.
    destruct (same_after now truth ds s ord1 ord2 s ord3 ord4 U U (λ _, eq_refl) eq_refl eq_refl H1 H2 H3 H4 O O) as (E1 & E2 & V).
    destruct (usable_step now truth ord1 ord2 ds s U H1 H2 O) as ((R1 & _) & P1 & Q1).
    destruct (usable_step now truth ord3 ord4 ds s U H3 H4 O) as ((R2 & _) & P2 & Q2).
    split; [|exact E1].
    rewrite (surjective_pairing (cycle64 p now (above_gate gate) ord1 ord2 ds s)).
    rewrite (surjective_pairing (cycle64 p now (above_gate gate) ord3 ord4 ds s)).
    rewrite E1, E2. apply (f_equal (λ x, (x, Ok ()))).
    apply inv_view_ext; [by apply (reachable_inv lib_lawful)|by apply (reachable_inv lib_lawful)|congruence|congruence|exact V].
  Qed.

  Lemma hcycle64_refines string_hash grow now ds (s : hmgr (track64 p)) : ok string_hash s →
    let r := hcycle64 string_hash grow p (above_gate gate) now ds s in
    cycle64 p now (above_gate gate) (ht_nodes (hm_tracks s)).*1 (ht_nodes (hm_occ s)).*1 ds (abs s) = (abs r.1, r.2) ∧ ok string_hash r.1.
  Proof. intros Hok. unfold hcycle64, cycle64, cycle_dlib. by apply cycle_refines. Qed.

  Lemma hcycles_same hash1 grow1 hash2 grow2 script (s1 s2 : hmgr (track64 p)) : ok hash1 s1 → ok hash2 s2 →
    abs s1 = abs s2 → usable64 (abs s1) → all_sighted hash1 grow1 p who model a b sep e gate script s1 →
    let r1 := hcycles hash1 grow1 p (above_gate gate) script s1 in
    let r2 := hcycles hash2 grow2 p (above_gate gate) script s2 in
    abs r1.1 = abs r2.1 ∧ ok hash1 r1.1 ∧ ok hash2 r2.1 ∧ usable64 (abs r1.1) ∧
    r1.2 = map (λ _, Ok ()) script ∧ r2.2 = map (λ _, Ok ()) script ∧ map_cycles p gate script (abs s1) (abs r1.1).
  Proof.
    revert s1 s2. induction script as [|[now ds] script IH]; intros s1 s2 K1 K2 E U S; [split; [exact E|]; split; [exact K1|]; split; [exact K2|]; split; [exact U|]; split; [done|]; split; [done|constructor]|].
    cbn [hcycles all_sighted] in *. destruct S as [[truth O] S]. change (as_maps s1) with (abs s1) in O.
    destruct (hcycle64_refines hash1 grow1 now ds s1 K1) as [C1 L1]. destruct (hcycle64_refines hash2 grow2 now ds s2 K2) as [C2 L2].
    assert (order_of (ht_nodes (hm_tracks s1)).*1 (m_tracks (abs s1)) ∧ order_of (ht_nodes (hm_occ s1)).*1 (m_occ (abs s1))) as [A1 A2]
      by (split; apply (order_keys hash1); apply K1).
    assert (order_of (ht_nodes (hm_tracks s2)).*1 (m_tracks (abs s1)) ∧ order_of (ht_nodes (hm_occ s2)).*1 (m_occ (abs s1))) as [B1 B2]
      by (rewrite E; split; apply (order_keys hash2); apply K2).
    destruct (orders_same now truth ds (abs s1) _ _ _ _ U A1 A2 B1 B2 O) as [Q X].
    destruct (usable_step now truth _ _ ds (abs s1) U A1 A2 O) as [U' _].
    rewrite <- E in C2. rewrite C1, C2 in Q. rewrite C1 in X, U'.
    destruct (hcycle64 hash1 grow1 p (above_gate gate) now ds s1) as [t1 o1].
    destruct (hcycle64 hash2 grow2 p (above_gate gate) now ds s2) as [t2 o2]. cbn [fst snd] in *.
    apply pair_equal_spec in Q as [Q1 Q2]. subst o1 o2.
    specialize (IH t1 t2 L1 L2 Q1 U' S).
    destruct (hcycles hash1 grow1 p (above_gate gate) script t1) as [w1 l1].
    destruct (hcycles hash2 grow2 p (above_gate gate) script t2) as [w2 l2]. cbn [fst snd map] in *.
    destruct IH as (I1 & I2 & I3 & I4 & I5 & I6 & I7). split; [done|]. split; [done|]. split; [done|]. split; [done|].
    split; [by f_equal|]. split; [by f_equal|]. by apply (map_cycles_cons p gate now ds script (abs s1) _ _ (abs t1) (abs w1) A1 A2).
  Qed.
End Library.
