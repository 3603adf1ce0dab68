(** One tracking cycle: proofs. *)
From stdpp Require Import gmap strings list.
From Coq Require Import NArith ZArith Reals.
From Flocq Require Import IEEE754.BinarySingleNaN.
From Verif Require Import Base Uuid OrdMap OrdFacts DynObj Float DlibMatrix Scoring Matching MatchingSpec MatchingThms Fusing
  TrackManager TrackManagerSpec TrackManagerProofs TrackManagerThms Pipeline PipelineAssoc.
Local Open Scope nat_scope.

Lemma in_elem {A} (x : A) l : In x l ↔ x ∈ l.
Proof. symmetry. apply elem_of_list_In. Qed.
Lemma nodup_list {A} (l : list A) : List.NoDup l ↔ NoDup l.
Proof. symmetry. apply NoDup_ListNoDup. Qed.

Section Cycle.
  Context {trk : track_type} (L : lawful trk) {Det : Type} (du : Det → uuid).
  Context (new_track : Det → trk) (predict : trk → trk)
    (metric : trk → Det → option f32) (should_prune : f32 → bool)
    (solve : mat Z → list Z) (visit : trk → Det → result trk).

  Lemma reachable_step ord c (s : mgr trk) :
    reachable trk s → valid_call trk c → valid_order trk ord c s → reachable trk (fst (step trk ord c s)).
  Proof.
    intros (p & r & h & Hp & Hr & H) Hc Ho. exists p, r, (h ++ [c]). split; [done|]. split; [done|].
    by apply run_snoc.
  Qed.

  (** The stored track after copying [f] into it *)
  Definition copied (f t : trk) : trk := fst (run_steps trk (tt_copy f) t).
  Definition copies (f t : trk) : Prop := snd (run_steps trk (tt_copy f) t) = Ok ().

  Lemma store_fused_view fused (s : mgr trk) :
    reachable trk s → NoDup (tt_uuid <$> fused) →
    (∀ f, f ∈ fused → ∃ e, view s (tt_uuid f) = Some e ∧ copies f (e_track e)) →
    ∃ s', store_fused trk fused s = (s', Ok ()) ∧ reachable trk s' ∧
      m_promo s' = m_promo s ∧ m_removal s' = m_removal s ∧
      (∀ f, f ∈ fused → view s' (tt_uuid f) = on_track (copied f) <$> view s (tt_uuid f)) ∧
      (∀ u, u ∉ tt_uuid <$> fused → view s' u = view s u).
  Proof.
    revert s. induction fused as [|f fused IH]; intros s Hr Hn Hf.
    - exists s. cbn. split; [done|]. split; [done|]. split; [done|]. split; [done|]. split; [|done].
      intros f H. by apply elem_of_nil in H.
    - rewrite fmap_cons in Hn. apply NoDup_cons in Hn as [Hn1 Hn2].
      destruct (Hf f) as (e & He & Hc); [apply elem_of_cons; auto|].
      pose proof (reachable_inv L s Hr) as Hi.
      pose proof (modify_view (tt_uuid f) (tt_copy f) s Hi (proj2 L f)) as H. rewrite He in H.
      destruct H as (s1 & E1 & _ & Hp & Hrm & H1 & H2). rewrite Hc in E1.
      assert (reachable trk s1) as Hr1.
      { pose proof (reachable_step [] (UpdateFrom (tt_uuid f) f) s Hr I I) as H.
        cbn [step] in H. unfold update_track_from in H. rewrite E1 in H. exact H. }
      destruct (IH s1 Hr1 Hn2) as (s2 & E2 & Hr2 & Hp2 & Hrm2 & H3 & H4).
      { intros g Hg. destruct (Hf g) as (e' & He' & Hc'); [apply elem_of_cons; auto|].
        exists e'. split; [|done]. rewrite H2; [done|]. intros E. apply Hn1. rewrite <- E.
        apply elem_of_list_fmap. eauto. }
      exists s2. cbn [store_fused]. unfold update_track_from. rewrite E1.
      split; [done|]. split; [done|]. split; [congruence|]. split; [congruence|]. split.
      + intros g Hg. apply elem_of_cons in Hg as [->|Hg].
        * rewrite H4 by done. rewrite H1, He. done.
        * rewrite H3 by done. rewrite H2; [done|]. intros E. apply Hn1. rewrite <- E.
          apply elem_of_list_fmap. eauto.
      + intros u Hu. rewrite fmap_cons, not_elem_of_cons in Hu. destruct Hu as [Hu1 Hu2].
        rewrite H4 by done. by rewrite H2.
  Qed.

  Lemma store_fused_missing f fused (s : mgr trk) :
    reachable trk s → view s (tt_uuid f) = None →
    store_fused trk (f :: fused) s = (s, Throw out_of_range).
  Proof.
    intros Hr Hv. cbn [store_fused]. unfold update_track_from.
    pose proof (modify_view (tt_uuid f) (tt_copy f) s (reachable_inv L s Hr) (proj2 L f)) as H.
    rewrite Hv in H. by rewrite H.
  Qed.

  Lemma add_new_view ds (s : mgr trk) :
    reachable trk s → (∀ d, d ∈ ds → tt_uuid (new_track d) = du d) → NoDup (du <$> ds) →
    (∀ d, d ∈ ds → view s (du d) = None) →
    ∃ s', add_new trk new_track ds s = (s', Ok ()) ∧ reachable trk s' ∧
      m_promo s' = m_promo s ∧ m_removal s' = m_removal s ∧
      (∀ d, d ∈ ds → view s' (du d) = Some (Entry (new_track d) Tentative 1%N)) ∧
      (∀ u, u ∉ du <$> ds → view s' u = view s u).
  Proof.
    revert s. induction ds as [|d ds IH]; intros s Hr Hu Hn Hv.
    - exists s. cbn. split; [done|]. split; [done|]. split; [done|]. split; [done|]. split; [|done].
      intros f H. by apply elem_of_nil in H.
    - rewrite fmap_cons in Hn. apply NoDup_cons in Hn as [Hn1 Hn2].
      pose proof (Hu d) as Ud. feed specialize Ud; [apply elem_of_cons; auto|].
      pose proof (add_view (new_track d) s (reachable_inv L s Hr)) as H. rewrite Ud in H.
      rewrite Hv in H by (apply elem_of_cons; auto).
      destruct H as (s1 & E1 & _ & Hp & Hrm & H1 & H2).
      assert (reachable trk s1) as Hr1.
      { pose proof (reachable_step [] (Add (new_track d)) s Hr I I) as H.
        cbn [step] in H. rewrite E1 in H. exact H. }
      assert (∀ d', d' ∈ ds → du d' ≠ du d) as Hne.
      { intros d' Hd' E. apply Hn1. rewrite <- E. apply elem_of_list_fmap. eauto. }
      destruct (IH s1 Hr1) as (s2 & E2 & Hr2 & Hp2 & Hrm2 & H3 & H4); [|done| |].
      { intros d' Hd'. apply Hu, elem_of_cons. auto. }
      { intros d' Hd'. rewrite H2 by auto. apply Hv, elem_of_cons. auto. }
      exists s2. cbn [add_new]. rewrite E1.
      split; [done|]. split; [done|]. split; [congruence|]. split; [congruence|]. split.
      + intros d' Hd'. apply elem_of_cons in Hd' as [->|Hd']; [|by apply H3].
        rewrite H4 by done. done.
      + intros u Hu'. rewrite fmap_cons, not_elem_of_cons in Hu'. destruct Hu' as [Hu1 Hu2].
        rewrite H4 by done. by rewrite H2.
  Qed.

  (** ** The whole cycle *)
  Context (Unew : ∀ d, tt_uuid (new_track d) = du d) (Upred : ∀ t, tt_uuid (predict t) = tt_uuid t).
  Context (Sok : solver_ok solve).

  Let assoc (stored : list trk) detections := associate tt_uuid du metric should_prune solve (map predict stored) detections.

  Lemma stored_facts ord (s : mgr trk) stored :
    reachable trk s → order_of ord (m_tracks s) → get_all_tracks trk ord s = Ok stored →
    tt_uuid <$> stored = ord ∧ NoDup ord ∧
    (∀ t, t ∈ stored ↔ ∃ e, view s (tt_uuid t) = Some e ∧ e_track e = t) ∧
    (∀ u, u ∈ ord ↔ is_Some (view s u)).
  Proof.
    intros Hr Ho Hg. pose proof (reachable_inv L s Hr) as Hi.
    destruct (getters_partition ord s Hi Ho) as (la & lt & lc & Ha & _ & _ & _ & _ & Hu).
    rewrite Hg in Ha. injection Ha as <-. split; [done|]. split; [apply Ho|].
    assert (∀ u, u ∈ ord ↔ is_Some (view s u)) as HV.
    { intros u. destruct Ho as [_ Ho]. rewrite Ho, (inv_tracks _ _ Hi), fmap_is_Some. done. }
    split; [|done]. destruct (get_all_ok ord s Ho) as (l & El & HF). rewrite Hg in El. injection El as <-.
    intros t. split.
    - intros Ht. apply elem_of_list_lookup in Ht as [i Ht].
      eapply Forall2_lookup_r in HF as (u & _ & Hm); [|exact Ht].
      rewrite (inv_tracks _ _ Hi) in Hm. apply fmap_Some in Hm as (e & He & ->).
      destruct (inv_view s u e Hi He) as [<- _]. eauto.
    - intros (e & He & <-). assert (tt_uuid (e_track e) ∈ ord) as Hin by (apply HV; eauto).
      apply elem_of_list_lookup in Hin as [i Hin].
      eapply Forall2_lookup_l in HF as (t & Ht & Hm); [|exact Hin].
      rewrite (inv_tracks _ _ Hi), He in Hm. cbn in Hm. injection Hm as ->.
      apply elem_of_list_lookup. eauto.
  Qed.

  Lemma assoc_facts ord (s : mgr trk) stored detections a :
    reachable trk s → order_of ord (m_tracks s) → get_all_tracks trk ord s = Ok stored →
    (N.of_nat (length ord * length detections) < 2 ^ 63)%N →
    assoc stored detections = Ok a →
    om_wf bytes_compare a ∧ NoDup (a.*1) ∧ a ≠ [] ∧
    (∀ u l, (u, l) ∈ a → ∃ e d, view s u = Some e ∧ predict (e_track e) ∈ map predict stored ∧
       d ∈ detections ∧ l = [du d] ∧ In (u, [du d]) a ∧ names tt_uuid du (map predict stored) detections (u, l) (predict (e_track e)) d).
  Proof.
    intros Hr Ho Hg Hb Ha. destruct (stored_facts ord s stored Hr Ho Hg) as (Eu & Hnd & Hst & Hv).
    assert (length (map predict stored) = length ord) as Hl.
    { rewrite map_length, <- Eu, fmap_length. done. }
    destruct (associate_spec tt_uuid du metric should_prune solve (map predict stored) detections a Sok) as (W & O & P);
      [by rewrite Hl|exact Ha|].
    split; [exact W|]. split.
    { apply NoDup_ListNoDup. pose proof (OrdFacts.om_wf_nodup _ bytes_total a W) as H.
      assert (a.*1 = map fst a) as -> by done. exact H. }
    split.
    { intros ->. unfold assoc, associate in Ha.
      assert (small_map (gated tt_uuid du metric should_prune (map predict stored) detections)) as Hs.
      { unfold small_map. pose proof (gated_length tt_uuid du metric should_prune (map predict stored) detections) as H.
        rewrite Hl in H. lia. }
      unfold gated in Hs. set (sc := prune_track_and_detection_scores_if _ _) in *.
      pose proof (gnn_one_to_one solve sc [] Sok Hs Ha) as (_ & _ & _ & _ & H & _). cbn in H.
      clearbody sc.
      destruct sc as [|[[t d] v] sc']; [rewrite gnn_empty_ub in Ha; done|].
      assert (In t (tracks_of (((t, d), v) :: sc'))) as H1.
      { apply (in_tracks (F := f32)). exists d, v. by left. }
      assert (In d (detections_of (((t, d), v) :: sc'))) as H2.
      { apply (in_detections (F := f32)). exists t, v. by left. }
      destruct (tracks_of (((t, d), v) :: sc')); [done|].
      destruct (detections_of (((t, d), v) :: sc')); [done|]. cbn in H. done. }
    intros u l Hul. apply in_elem in Hul. pose proof Hul as Hul'.
    apply P in Hul as (t' & d & Ht & Etu & Hd & ->).
    pose proof Ht as Ht'. apply in_map_iff in Ht' as (t & <- & Hts). rewrite Upred in Etu.
    apply in_elem, Hst in Hts as (e & He & Eet). subst t. exists e, d. rewrite <- Etu.
    split; [done|]. split; [by apply in_elem|]. split; [by apply in_elem|]. split; [done|]. split; [by rewrite Etu|].
    split; [done|]. split; [done|]. by rewrite Upred.
  Qed.

  Lemma left_over_nodup a detections : NoDup (du <$> detections) → NoDup (du <$> left_over du a detections).
  Proof.
    intros H. unfold left_over. induction detections as [|d ds IH]; [done|].
    rewrite fmap_cons in H. apply NoDup_cons in H as [H1 H2]. cbn [List.filter].
    destruct (negb _); [|by apply IH]. rewrite fmap_cons. apply NoDup_cons. split; [|by apply IH].
    intros Hin. apply H1. apply elem_of_list_fmap in Hin as (d' & E & Hd'). rewrite E.
    apply elem_of_list_fmap. exists d'. split; [done|]. apply in_elem in Hd'. apply filter_In in Hd' as [Hd' _].
    by apply in_elem.
  Qed.

  (** What the cycle does to one managed uuid *)
  Definition after_cycle (s : mgr trk) (a : association_map) (detections : list Det) (u : uuid) (e : entry trk)
      (o : option (entry trk)) : Prop :=
    let p := m_promo s in let r := m_removal s in
    (u ∈ a.*1 → let n := N.min (e_count e + 1) p in
       ∃ d f, d ∈ detections ∧ (u, [du d]) ∈ a ∧ visit (predict (e_track e)) d = Ok f ∧
         o = Some (Entry (copied f (e_track e)) (if decide (p ≤ n)%N then Confirmed else e_status e) n)) ∧
    (u ∉ a.*1 → let n := (e_count e - 1)%N in
       o = if decide (n ≤ r)%N then None
           else Some (Entry (e_track e) (if decide (p ≤ n)%N then Confirmed else e_status e) n)).

  Lemma cycle_view ord1 ord2 detections (s : mgr trk) stored a fused :
    reachable trk s → order_of ord1 (m_tracks s) → order_of ord2 (m_occ s) →
    NoDup (du <$> detections) → (∀ d, d ∈ detections → view s (du d) = None) →
    (N.of_nat (length ord1 * length detections) < 2 ^ 63)%N →
    (m_removal s < m_promo s)%N →
    (∀ u e, view s u = Some e → (m_removal s ≤ e_count e < 2 ^ 64 - 1)%N) →
    (∀ t d f, visit (predict t) d = Ok f → tt_uuid f = tt_uuid t ∧ copies f t) →
    get_all_tracks trk ord1 s = Ok stored → assoc stored detections = Ok a →
    fuse_associations tt_uuid du visit a (map predict stored) detections = Ok fused →
    ∃ s', cycle trk du new_track predict metric should_prune solve visit ord1 ord2 detections s = (s', Ok ()) ∧
      reachable trk s' ∧ m_promo s' = m_promo s ∧ m_removal s' = m_removal s ∧
      (∀ u e, view s u = Some e → after_cycle s a detections u e (view s' u)) ∧
      (∀ d, d ∈ detections →
         ((∃ u, (u, [du d]) ∈ a) → view s' (du d) = None) ∧
         ((¬ ∃ u, (u, [du d]) ∈ a) → view s' (du d) = Some (Entry (new_track d) Tentative 1%N))) ∧
      (∀ u, view s u = None → u ∉ du <$> detections → view s' u = None).
  Proof.
    intros Hr Ho1 Ho2 Hnd Hnew Hb Hpr Hcnt Hvis Hg Ha Hf.
    destruct (stored_facts ord1 s stored Hr Ho1 Hg) as (Eu & Hnd1 & Hst & Hv).
    destruct (assoc_facts ord1 s stored detections a Hr Ho1 Hg Hb Ha) as (W & Hna & _ & Hass).
    assert (∀ e, In e a → ∃ t d, names tt_uuid du (map predict stored) detections e t d) as Hnames.
    { intros [u l] Hin. apply in_elem, Hass in Hin as (e & d & _ & _ & _ & _ & _ & H). eauto. }
    assert (List.NoDup (map tt_uuid (map predict stored))) as Hn1.
    { rewrite map_map. rewrite (map_ext _ tt_uuid) by (intros; apply Upred).
      apply nodup_list. change (map tt_uuid stored) with (tt_uuid <$> stored). by rewrite Eu. }
    assert (List.NoDup (map du detections)) as Hn2 by (by apply nodup_list).
    apply (fuse_each tt_uuid du visit a (map predict stored) detections fused Hn1 Hn2 Hnames) in Hf.
    (* per entry: the fused track *)
    assert (Forall2 (λ x f, tt_uuid f = fst x ∧ ∃ e d, view s (fst x) = Some e ∧ d ∈ detections ∧
              snd x = [du d] ∧ visit (predict (e_track e)) d = Ok f ∧ copies f (e_track e)) a fused) as HF.
    { eapply Forall2_impl; [exact Hf|]. intros [u l] f (t' & d & (Ht & Hd & [= -> ->]) & V). cbn [fst snd].
      apply in_map_iff in Ht as (t & <- & Ht). apply in_elem, Hst in Ht as (e & He & Et). subst t.
      destruct (Hvis _ _ _ V) as [Hu Hc]. rewrite Upred. split; [done|]. exists e, d.
      apply in_elem in Hd. done. }
    assert (tt_uuid <$> fused = a.*1) as Huf.
    { clear -HF. induction HF as [|x f a fused [H _] _ IH]; [done|]. rewrite !fmap_cons. by rewrite H, IH. }
    destruct (update_lists_view ord2 a s (reachable_inv L s Hr) W Ho2) as (s1 & E1 & Hi1 & Hp1 & Hr1 & Hv1).
    assert (reachable trk s1) as Hreach1.
    { pose proof (reachable_step ord2 (UpdateLists a) s Hr W Ho2) as H. cbn [step] in H. by rewrite E1 in H. }
    assert (∀ u e, view s u = Some e → view s1 u = update_entry (m_promo s) (m_removal s) (bool_decide (seen a u)) e) as Hv1'.
    { intros u e He. rewrite Hv1, He. cbn. pose proof (inv_view s u e (reachable_inv L s Hr) He) as [_ H].
      pose proof (Hcnt u e He). apply update_entry_small; [lia|]. change size_mod with (2 ^ 64)%N. lia. }
    assert (∀ u e, u ∈ a.*1 → view s u = Some e → let n := N.min (e_count e + 1) (m_promo s) in
              view s1 u = Some (Entry (e_track e) (if decide (m_promo s ≤ n)%N then Confirmed else e_status e) n)) as Hseen.
    { intros u e Hu He. rewrite (Hv1' u e He). unfold update_entry, next_count.
      rewrite bool_decide_true by done. pose proof (Hcnt u e He). rewrite decide_False by lia. done. }
    destruct (store_fused_view fused s1 Hreach1) as (s2 & E2 & Hr2 & Hp2 & Hrm2 & H2 & H2').
    { by rewrite Huf. }
    { intros f Hin. apply elem_of_list_lookup in Hin as [i Hi].
      eapply Forall2_lookup_r in HF as ([u l] & Hx & Huu & e & d & He & Hd & _ & V & C); [|exact Hi].
      cbn [fst] in Huu, He. rewrite Huu. eexists. split; [apply (Hseen u e)|]; [|done|exact C].
      apply elem_of_list_fmap. exists (u, l). split; [done|]. apply elem_of_list_lookup. eauto. }
    assert (∀ d, d ∈ left_over du a detections ↔ d ∈ detections ∧ ¬ ∃ u, (u, [du d]) ∈ a) as HL.
    { intros d. rewrite <- in_elem, left_over_spec, in_elem. split.
      - intros [Hd Hno]. split; [done|]. intros [u Hu]. apply Hno. exists u, [du d]. rewrite in_elem. split; [done|]. by left.
      - intros [Hd Hno]. split; [done|]. intros (u & l & Hl & Hin). apply Hno. exists u. apply in_elem in Hl.
        pose proof (Hass u l Hl) as (e & d' & _ & _ & _ & -> & Hin' & _). destruct Hin as [E|[]]. by rewrite <- E. }
    assert (∀ u, view s u = None → view s2 u = None) as Hnone.
    { intros u Hu. rewrite H2'.
      - rewrite Hv1, Hu. done.
      - rewrite Huf. intros Hin. apply elem_of_list_fmap in Hin as ([u' l] & -> & Hin).
        apply Hass in Hin as (e & _ & He & _). cbn in Hu. congruence. }
    destruct (add_new_view (left_over du a detections) s2 Hr2) as (s3 & E3 & Hr3 & Hp3 & Hrm3 & H3 & H3').
    { intros. apply Unew. }
    { by apply left_over_nodup. }
    { intros d Hd. apply HL in Hd as [Hd _]. by apply Hnone, Hnew. }
    exists s3. split.
    { unfold cycle, cycle_with. rewrite Hg. unfold assoc in Ha. rewrite Ha. unfold assoc_map, association_map in *. rewrite E1.
      rewrite (proj2 (fuse_each tt_uuid du visit a (map predict stored) detections fused Hn1 Hn2 Hnames) Hf).
      rewrite E2. exact E3. }
    split; [done|]. split; [congruence|]. split; [congruence|].
    assert (∀ u e, view s u = Some e → u ∉ du <$> left_over du a detections) as Hold.
    { intros u e He Hin. apply elem_of_list_fmap in Hin as (d & -> & Hd). apply HL in Hd as [Hd _].
      rewrite (Hnew d Hd) in He. done. }
    split; [|split].
    - intros u e He. rewrite H3' by (by eapply Hold). split.
      + intros Hu n. apply elem_of_list_fmap in Hu as ([u' l] & -> & Hin).
        pose proof Hin as Hin'. apply elem_of_list_lookup in Hin as [i Hi].
        eapply Forall2_lookup_l in HF as (f & Hff & Huu & e' & d & He' & Hd & El & V & C); [|exact Hi].
        cbn [fst snd] in *. subst l. rewrite He in He'. injection He' as <-.
        exists d, f. split; [done|]. split; [done|]. split; [done|].
        rewrite <- Huu. rewrite H2 by (apply elem_of_list_lookup; eauto). rewrite Huu.
        rewrite (Hseen u' e); [done| |done]. apply elem_of_list_fmap. exists (u', [du d]). done.
      + intros Hu n. rewrite H2' by (by rewrite Huf). rewrite (Hv1' u e He). unfold update_entry, next_count.
        rewrite bool_decide_false by done. done.
    - intros d Hd. split.
      + intros Hex. rewrite H3'; [by apply Hnone, Hnew|]. intros Hin.
        apply elem_of_list_fmap in Hin as (d' & E & Hd'). apply HL in Hd' as [_ Hno].
        apply Hno. by rewrite <- E.
      + intros Hno. apply H3. apply HL. done.
    - intros u Hu Hu'. rewrite H3'; [by apply Hnone|]. intros Hin. apply Hu'.
      apply elem_of_list_fmap in Hin as (d & -> & Hd). apply HL in Hd as [Hd _]. apply elem_of_list_fmap. eauto.
  Qed.

  Lemma cycle_defined ord detections (s : mgr trk) stored :
    reachable trk s → order_of ord (m_tracks s) → NoDup (du <$> detections) →
    (N.of_nat (length ord * length detections) < 2 ^ 63)%N →
    get_all_tracks trk ord s = Ok stored →
    (∀ t d, t ∈ stored → d ∈ detections → ∃ f, visit (predict t) d = Ok f) →
    (∀ t d v, t ∈ stored → d ∈ detections → metric (predict t) d = Some v → should_prune v = false → ordinary v) →
    (∃ t d v, t ∈ stored ∧ d ∈ detections ∧ metric (predict t) d = Some v ∧ should_prune v = false ∧ (0 < B2R v)%R) →
    ∃ a fused, assoc stored detections = Ok a ∧
      fuse_associations tt_uuid du visit a (map predict stored) detections = Ok fused.
  Proof.
    intros Hr Ho Hnd Hb Hg Hvis Hord (t & d & v & Ht & Hd & Hm & Hp & Hv).
    destruct (stored_facts ord s stored Hr Ho Hg) as (Eu & Hnd1 & Hst & _).
    assert (length (map predict stored) = length ord) as Hl.
    { rewrite map_length, <- Eu, fmap_length. done. }
    assert (List.NoDup (map tt_uuid (map predict stored))) as Hn1.
    { rewrite map_map. rewrite (map_ext _ tt_uuid) by (intros; apply Upred).
      apply nodup_list. change (map tt_uuid stored) with (tt_uuid <$> stored). by rewrite Eu. }
    assert (List.NoDup (map du detections)) as Hn2 by (by apply nodup_list).
    destruct (associate_defined tt_uuid du metric should_prune solve (map predict stored) detections Sok)
      as [a Ha]; [by rewrite Hl|done|done| | |].
    { intros t' d' v' H1 H2. apply in_map_iff in H1 as (t0 & <- & H1). apply in_elem in H1, H2. by apply Hord. }
    { exists (predict t), d, v. split; [by apply in_map, in_elem|]. split; [by apply in_elem|]. done. }
    exists a.
    destruct (assoc_facts ord s stored detections a Hr Ho Hg Hb Ha) as (W & Hna & _ & Hass).
    destruct (fuse_defined tt_uuid du visit a (map predict stored) detections) as [fused Hf]; [done|done| | |].
    { intros [u l] Hin. apply in_elem, Hass in Hin as (e & d' & _ & _ & _ & _ & _ & H). eauto. }
    { intros t' d' H1 H2. apply in_map_iff in H1 as (t0 & <- & H1). apply in_elem in H1, H2. by apply Hvis. }
    eauto.
  Qed.

  (** With a promotion threshold not above the removal threshold the associated
      tracks are removed before the fused ones are stored. *)
  Lemma cycle_inverted ord1 ord2 detections (s : mgr trk) stored a fused :
    reachable trk s → order_of ord1 (m_tracks s) → order_of ord2 (m_occ s) →
    NoDup (du <$> detections) →
    (N.of_nat (length ord1 * length detections) < 2 ^ 63)%N →
    (m_promo s ≤ m_removal s)%N →
    (∀ t d f, visit (predict t) d = Ok f → tt_uuid f = tt_uuid t) →
    get_all_tracks trk ord1 s = Ok stored → assoc stored detections = Ok a →
    fuse_associations tt_uuid du visit a (map predict stored) detections = Ok fused →
    ∃ s', cycle trk du new_track predict metric should_prune solve visit ord1 ord2 detections s = (s', Throw out_of_range).
  Proof.
    intros Hr Ho1 Ho2 Hnd Hb Hpr Hvis Hg Ha Hf.
    destruct (stored_facts ord1 s stored Hr Ho1 Hg) as (Eu & Hnd1 & Hst & Hv).
    destruct (assoc_facts ord1 s stored detections a Hr Ho1 Hg Hb Ha) as (W & Hna & Hne & Hass).
    assert (∀ e, In e a → ∃ t d, names tt_uuid du (map predict stored) detections e t d) as Hnames.
    { intros [u l] Hin. apply in_elem, Hass in Hin as (e & d & _ & _ & _ & _ & _ & H). eauto. }
    assert (List.NoDup (map tt_uuid (map predict stored))) as Hn1.
    { rewrite map_map. rewrite (map_ext _ tt_uuid) by (intros; apply Upred).
      apply nodup_list. change (map tt_uuid stored) with (tt_uuid <$> stored). by rewrite Eu. }
    assert (List.NoDup (map du detections)) as Hn2 by (by apply nodup_list).
    pose proof Hf as HF. apply (fuse_each tt_uuid du visit a (map predict stored) detections fused Hn1 Hn2 Hnames) in HF.
    destruct (inverted L s ord2 a Hr W Ho2 Hpr) as (s1 & E1 & Hgone).
    assert (reachable trk s1) as Hreach1.
    { pose proof (reachable_step ord2 (UpdateLists a) s Hr W Ho2) as H. cbn [step] in H. by rewrite E1 in H. }
    destruct HF as [|[u l] f a fused (t' & d & (Ht & _ & [= Eu' _]) & V) HF]; [done|].
    exists s1. unfold cycle, cycle_with. rewrite Hg. unfold assoc in Ha. rewrite Ha. unfold assoc_map, association_map in *. rewrite E1.
    rewrite Hf. rewrite store_fused_missing; [done|done|].
    apply in_map_iff in Ht as (t & <- & Ht). rewrite (Hvis t d f V). rewrite Upred in Eu'. rewrite <- Eu'.
    apply Hgone. by left.
  Qed.

  (** No scored pair: the associator is undefined. *)
  Lemma cycle_nothing ord1 ord2 detections (s : mgr trk) stored :
    get_all_tracks trk ord1 s = Ok stored →
    (∀ t d v, t ∈ stored → d ∈ detections → metric (predict t) d = Some v → should_prune v = true) →
    cycle trk du new_track predict metric should_prune solve visit ord1 ord2 detections s = (s, UB).
  Proof.
    intros Hg Hno. unfold cycle, cycle_with. rewrite Hg. unfold associate.
    change (prune_track_and_detection_scores_if _ _) with (gated tt_uuid du metric should_prune (map predict stored) detections).
    destruct (gated tt_uuid du metric should_prune (map predict stored) detections) as [|[k v] sc] eqn:E; [by rewrite gnn_empty_ub|].
    destruct (gated_in tt_uuid du metric should_prune (map predict stored) detections k v) as (t' & d & Ht & Hd & _ & Hm & Hp);
      [rewrite E; by left|].
    apply in_map_iff in Ht as (t & <- & Ht). apply in_elem in Ht. apply in_elem in Hd.
    rewrite (Hno t d v Ht Hd Hm) in Hp. done.
  Qed.
End Cycle.
