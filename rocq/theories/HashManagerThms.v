(** The manager over hash tables does what the manager over finite maps does. *)
From stdpp Require Import gmap strings.
From Coq Require Import NArith ZArith Lia.
From Verif Require Import Base Uuid OrdMap OrdFacts DynObj TrackManager TrackManagerSpec TrackManagerProofs
  TrackManagerThms Motion Clustering HashTable HashTableThms HashManager.

Section Refine.
  Context (string_hash : string → N) (grow : N → N → N) {tt : track_type}.
  Local Notation wf := (wf string_hash).
  Local Notation M l := (list_to_map l : gmap uuid _).

  Definition abs (s : hmgr tt) : mgr tt :=
    Mgr (hm_promo s) (hm_removal s) (ht_map (hm_tracks s)) (ht_map (hm_statuses s)) (ht_map (hm_occ s)).
  Definition ok (s : hmgr tt) : Prop := wf (hm_tracks s) ∧ wf (hm_statuses s) ∧ wf (hm_occ s).

  Lemma order_keys {A} (t : htab A) : wf t → order_of (ht_nodes t).*1 (ht_map t).
  Proof. intros [Hd _]. split; [done|]. intros u. apply in_keys. Qed.

  Lemma set_middle {A} l1 u (a b : A) l2 : NoDup (l1 ++ (u, a) :: l2).*1 →
    <[u := b]> (M (l1 ++ (u, a) :: l2)) = M (l1 ++ (u, b) :: l2) ∧ M (l1 ++ (u, a) :: l2) !! u = Some a.
  Proof.
    intros Hd.
    assert (∀ c, NoDup (l1 ++ (u, c) :: l2).*1) as Hc.
    { intros c. rewrite fmap_app in *. exact Hd. }
    assert (∀ c, M (l1 ++ (u, c) :: l2) = <[u := c]> (M (l1 ++ l2))) as E.
    { intros c. rewrite (list_to_map_proper (M := gmap uuid) _ ((u, c) :: l1 ++ l2)); [done|apply Hc|].
      by rewrite Permutation_middle. }
    rewrite !E. by rewrite insert_insert, lookup_insert.
  Qed.

  (** ** update_track_lists *)
  Definition new_count (a : assoc_map) p (x : uuid * N) : uuid * N :=
    (x.1, if om_mem bytes_compare x.1 a then N.min (size_incr x.2) p else size_decr x.2).
  Lemma count_keys a p l : (map (new_count a p) l).*1 = l.*1.
  Proof. induction l as [|[u n] l IH]; [done|]. cbn. by rewrite <- IH. Qed.
  Lemma hcount_nodes a p t : ht_nodes (hcount a p t) = map (new_count a p) (ht_nodes t).
  Proof. unfold hcount; cbn. apply map_ext. by intros [u n]. Qed.
  Lemma hcount_wf a p t : wf t → wf (hcount a p t).
  Proof.
    intros [Hd Hg]. unfold wf, wf_nodes. rewrite hcount_nodes, count_keys. split; [done|]. cbn [ht_buckets hcount].
    eapply grouped_keys; [|exact Hg]. by rewrite count_keys.
  Qed.
  Lemma count_loop_nodes a p l1 l2 : NoDup (l1 ++ l2).*1 →
    count_loop a p l2.*1 (M (l1 ++ l2)) = Ok (M (l1 ++ map (new_count a p) l2)).
  Proof.
    revert l1. induction l2 as [|[u n] l2 IH]; intros l1 Hd; [done|]. cbn.
    destruct (set_middle l1 u n (new_count a p (u, n)).2 l2 Hd) as [E1 E2]. rewrite E2. cbn in E1. rewrite E1.
    rewrite (cons_middle (u, _) l1 l2), app_assoc. rewrite IH.
    - by rewrite <- app_assoc.
    - rewrite !fmap_app in *. cbn in *. by rewrite <- app_assoc.
  Qed.

  Lemma erase_at_wf {A} (t : htab A) l1 u a l2 : wf t → ht_nodes t = l1 ++ (u, a) :: l2 →
    wf (ht_erase_at (length l1) t) ∧ ht_map (ht_erase_at (length l1) t) = delete u (ht_map t) ∧
    ht_nodes (ht_erase_at (length l1) t) = l1 ++ l2.
  Proof.
    intros [Hd Hg] E. unfold ht_erase_at, wf, wf_nodes, ht_map; cbn.
    pose proof (erase_at_without _ _ _ _ _ E Hd) as W. rewrite W.
    split; [split; [by apply without_nodup|by apply grouped_without]|].
    split; [apply without_map|]. rewrite <- W, E, take_app, drop_after. done.
  Qed.
  Lemma at_middle {A} (t : htab A) l1 x l2 : ht_nodes t = l1 ++ x :: l2 → ht_at (length l1) t = Some x.
  Proof. intros E. unfold ht_at. rewrite E. by rewrite list_lookup_middle. Qed.
  Lemma at_end {A} (t : htab A) l1 : ht_nodes t = l1 → ht_at (length l1) t = None.
  Proof. intros E. unfold ht_at. rewrite E. apply lookup_ge_None_2. lia. Qed.
  Lemma node_map {A} (t : htab A) l1 u a l2 : wf t → ht_nodes t = l1 ++ (u, a) :: l2 → ht_map t !! u = Some a.
  Proof. intros [Hd _] E. unfold ht_map. rewrite E in *. by apply (set_middle l1 u a a l2). Qed.

  Lemma hsweep_refines fuel l1 l2 s : ok s → ht_nodes (hm_occ s) = l1 ++ l2 → length l2 ≤ fuel →
    let r := hsweep string_hash tt fuel (length l1) s in
    sweep_loop tt l2.*1 (abs s) = (abs r.1, r.2) ∧ ok r.1.
  Proof.
    revert fuel l1 s. induction l2 as [|[u n] l2 IH]; intros fuel l1 s Hok E Hf.
    - rewrite app_nil_r in E. destruct fuel; cbn [hsweep]; rewrite (at_end _ _ E); done.
    - destruct fuel as [|fuel]; [cbn in Hf; lia|]. cbn in Hf. cbn [hsweep]. rewrite (at_middle _ _ _ _ E).
      destruct Hok as (H1 & H2 & H3). cbn [fmap list_fmap fst sweep_loop].
      change (m_occ (abs s)) with (ht_map (hm_occ s)). rewrite (node_map _ _ _ _ _ H3 E).
      change (m_removal (abs s)) with (hm_removal s). change (m_promo (abs s)) with (hm_promo s).
      destruct (n <=? hm_removal s)%N.
      + destruct (erase_at_wf _ _ _ _ _ H3 E) as (W1 & W2 & W3).
        set (s' := HMgr _ _ _ _ _).
        assert (abs s' = Mgr (hm_promo s) (hm_removal s) (delete u (m_tracks (abs s)))
                  (delete u (m_statuses (abs s))) (delete u (ht_map (hm_occ s)))) as Ea.
        { unfold abs, s'; cbn [hm_promo hm_removal hm_tracks hm_statuses hm_occ m_tracks m_statuses]. by rewrite W2, !erase_map. }
        rewrite <- Ea. apply IH; [|done|lia].
        split; [by apply erase_wf|]. split; [by apply erase_wf|done].
      + destruct (hm_promo s <=? n)%N.
        * rewrite ht_find_map by done. change (m_statuses (abs s)) with (ht_map (hm_statuses s)).
          destruct (ht_map (hm_statuses s) !! u) as [st|] eqn:Es; [|done].
          set (s' := HMgr _ _ _ _ _).
          assert (abs s' = Mgr (hm_promo s) (hm_removal s) (m_tracks (abs s))
                    (<[u := Confirmed]> (ht_map (hm_statuses s))) (ht_map (hm_occ s))) as Ea.
          { unfold abs, s'; cbn [hm_promo hm_removal hm_tracks hm_statuses hm_occ m_tracks m_statuses].
            rewrite assign_map; [done|done|by eexists]. }
          rewrite <- Ea. replace (S (length l1)) with (length (l1 ++ [(u, n)])) by (rewrite app_length; cbn; lia).
          apply IH; [|unfold s'; cbn [hm_occ]; by rewrite <- app_assoc|lia].
          split; [done|]. split; [by apply assign_wf|done].
        * replace (S (length l1)) with (length (l1 ++ [(u, n)])) by (rewrite app_length; cbn; lia).
          apply IH; [done|by rewrite <- app_assoc|lia].
  Qed.

  Lemma update_refines a s : ok s →
    let r := hupdate_track_lists string_hash tt a s in
    update_track_lists tt (ht_nodes (hm_occ s)).*1 a (abs s) = (abs r.1, r.2) ∧ ok r.1.
  Proof.
    intros (H1 & H2 & H3). unfold hupdate_track_lists, update_track_lists.
    change (m_occ (abs s)) with (ht_map (hm_occ s)). unfold ht_map at 1.
    rewrite (count_loop_nodes a _ [] (ht_nodes (hm_occ s))) by apply H3. cbn [app].
    rewrite <- hcount_nodes.
    rewrite <- (count_keys a (hm_promo s)), <- hcount_nodes.
    set (s' := HMgr _ _ _ _ _).
    apply (hsweep_refines _ [] (ht_nodes (hm_occ s')) s'); [|done|].
    - split; [done|]. split; [done|]. by apply hcount_wf.
    - unfold s'; cbn [hm_occ]. rewrite hcount_nodes, map_length. done.
  Qed.

  (** ** The removal threshold *)
  Lemma hremoval_refines fuel l1 l2 s : ok s → ht_nodes (hm_occ s) = l1 ++ l2 → length l2 ≤ fuel →
    let r := hremoval string_hash tt fuel (length l1) s in
    removal_loop tt l2.*1 (abs s) = (abs r.1, r.2) ∧ ok r.1.
  Proof.
    revert fuel l1 s. induction l2 as [|[u n] l2 IH]; intros fuel l1 s Hok E Hf.
    - rewrite app_nil_r in E. destruct fuel; cbn [hremoval]; rewrite (at_end _ _ E); done.
    - destruct fuel as [|fuel]; [cbn in Hf; lia|]. cbn in Hf. cbn [hremoval]. rewrite (at_middle _ _ _ _ E).
      destruct Hok as (H1 & H2 & H3). cbn [fmap list_fmap fst removal_loop].
      change (m_occ (abs s)) with (ht_map (hm_occ s)). rewrite (node_map _ _ _ _ _ H3 E).
      change (m_removal (abs s)) with (hm_removal s). change (m_promo (abs s)) with (hm_promo s).
      destruct (n <=? hm_removal s)%N.
      + destruct (erase_at_wf _ _ _ _ _ H3 E) as (W1 & W2 & W3).
        set (s' := HMgr _ _ _ _ _).
        assert (abs s' = Mgr (hm_promo s) (hm_removal s) (delete u (m_tracks (abs s)))
                  (delete u (m_statuses (abs s))) (delete u (ht_map (hm_occ s)))) as Ea.
        { unfold abs, s'; cbn [hm_promo hm_removal hm_tracks hm_statuses hm_occ m_tracks m_statuses]. by rewrite W2, !erase_map. }
        rewrite <- Ea. apply IH; [|done|lia].
        split; [by apply erase_wf|]. split; [by apply erase_wf|done].
      + replace (S (length l1)) with (length (l1 ++ [(u, n)])) by (rewrite app_length; cbn; lia).
        apply IH; [done|by rewrite <- app_assoc|lia].
  Qed.

  (** ** The promotion threshold *)
  Lemma hpromo_refines l s : ok s → (∀ u t, (u, t) ∈ l → is_Some (ht_map (hm_tracks s) !! u)) →
    let r := hpromo_loop string_hash grow tt l s in
    promo_loop tt l.*1 (abs s) = (abs r, Ok ()) ∧ ok r.
  Proof.
    revert s. induction l as [|[u t] l IH]; intros s Hok Hl; [done|].
    destruct Hok as (H1 & H2 & H3). cbn [fmap list_fmap fst promo_loop hpromo_loop].
    change (m_tracks (abs s)) with (ht_map (hm_tracks s)).
    destruct (Hl u t) as [t' Et]; [by left|]. rewrite Et. clear t' Et.
    unfold occ_subscript. change (m_occ (abs s)) with (ht_map (hm_occ s)).
    pose proof (subscript_facts string_hash grow (hm_occ s) u 0%N H3) as [W1 W2].
    destruct (ht_subscript string_hash grow 0%N u (hm_occ s)) as [n occ1]. cbn [fst snd] in *.
    assert (∃ m, ht_map occ1 !! u = Some n ∧ m = ht_map occ1 ∧
              match ht_map (hm_occ s) !! u with
              | Some n0 => (n0, ht_map (hm_occ s)) | None => (0%N, <[u := 0%N]> (ht_map (hm_occ s))) end = (n, m)) as (m & En & -> & Em).
    { eexists. split; [|split; [done|]].
      - destruct (ht_map (hm_occ s) !! u) eqn:E; [by injection W2 as -> ->|]. destruct W2 as [-> ->]. by rewrite lookup_insert.
      - destruct (ht_map (hm_occ s) !! u) eqn:E; [by injection W2 as -> ->|]. by destruct W2 as [-> ->]. }
    rewrite Em. change (m_promo (abs s)) with (hm_promo s).
    assert (∀ st, ∀ s', s' = HMgr (hm_promo s) (hm_removal s) (hm_tracks s) (ht_set string_hash grow u st (hm_statuses s)) occ1 →
      ok s' ∧ abs s' = Mgr (hm_promo s) (hm_removal s) (ht_map (hm_tracks s)) (<[u := st]> (ht_map (hm_statuses s))) (ht_map occ1)) as Hs.
    { intros st s' ->. destruct (set_facts string_hash grow (hm_statuses s) u st H2) as [S1 S2]. split.
      - by split.
      - unfold abs; cbn [hm_promo hm_removal hm_tracks hm_statuses hm_occ]. by rewrite S2. }
    destruct (hm_promo s <=? n)%N eqn:Ep.
    - destruct (Hs Confirmed _ eq_refl) as [Ho Ha]. cbn [abs m_removal m_statuses]. rewrite <- Ha.
      apply IH; [done|]. intros v t' Hv. apply (Hl v t'). by right.
    - pose proof (subscript_facts string_hash grow occ1 u 0%N W1) as [_ W3]. rewrite En in W3. rewrite W3.
      assert ((n <? hm_promo s)%N = true) as -> by (apply N.ltb_lt; apply N.leb_gt in Ep; done).
      destruct (Hs Tentative _ eq_refl) as [Ho Ha]. cbn [abs m_removal m_statuses]. rewrite <- Ha.
      apply IH; [done|]. intros v t' Hv. apply (Hl v t'). by right.
  Qed.

  (** ** All calls *)
  Definition order_for (c : call tt) (s : hmgr tt) : list uuid :=
    match c with
    | SetPromotion _ => (ht_nodes (hm_tracks s)).*1
    | _ => (ht_nodes (hm_occ s)).*1
    end.
  Lemma order_for_valid c s : ok s → valid_order tt (order_for c s) c (abs s).
  Proof. intros (H1 & H2 & H3). destruct c; cbn; try done; by apply order_keys. Qed.

  Lemma step_refines c s : ok s →
    let r := hstep string_hash grow tt c s in
    step tt (order_for c s) c (abs s) = (abs r.1, r.2) ∧ ok r.1.
  Proof.
    intros Hok. pose proof Hok as (H1 & H2 & H3).
    assert (∀ id fs, let r := hmodify_track string_hash tt id fs s in
      modify_track tt id fs (abs s) = (abs r.1, r.2) ∧ ok r.1) as Hm.
    { intros id fs. unfold hmodify_track, modify_track. rewrite ht_find_map by done. cbn [abs m_tracks].
      destruct (ht_map (hm_tracks s) !! id) as [t|] eqn:E; [|done].
      destruct (run_steps tt fs t) as [t' r]. cbn [fst snd]. split.
      - unfold abs; cbn [hm_promo hm_removal hm_tracks hm_statuses hm_occ].
        rewrite assign_map; [done|done|by eexists].
      - split; [by apply assign_wf|]. done. }
    destruct c as [t|a|p|r|id arg|id t]; cbn [step hstep order_for].
    - unfold hadd_tentative_track, add_tentative_track, ht_count. rewrite ht_find_map by done. cbn [abs m_tracks].
      destruct (ht_map (hm_tracks s) !! tt_uuid t); [done|]. cbn [Nat.eqb fst snd].
      destruct (set_facts string_hash grow (hm_tracks s) (tt_uuid t) t H1) as [A1 B1].
      destruct (set_facts string_hash grow (hm_statuses s) (tt_uuid t) Tentative H2) as [A2 B2].
      destruct (set_facts string_hash grow (hm_occ s) (tt_uuid t) 1%N H3) as [A3 B3].
      split; [|done]. unfold abs; cbn [hm_promo hm_removal hm_tracks hm_statuses hm_occ m_promo m_removal m_statuses m_occ].
      by rewrite B1, B2, B3.
    - by apply update_refines.
    - unfold hset_promotion, set_promotion. cbn [fst snd].
      apply (hpromo_refines _ (HMgr p (hm_removal s) (hm_tracks s) (hm_statuses s) (hm_occ s))); [done|].
      intros u t Hu. cbn [hm_tracks]. apply in_keys. by apply (elem_of_list_fmap_1 fst) in Hu.
    - unfold hset_removal, set_removal.
      by apply (hremoval_refines _ [] (ht_nodes (hm_occ s)) (HMgr (hm_promo s) r (hm_tracks s) (hm_statuses s) (hm_occ s))).
    - apply Hm.
    - apply Hm.
  Qed.

  (** ** Getters *)
  Lemma collect_refines want l s : ok s → (∀ u t, (u, t) ∈ l → ht_map (hm_tracks s) !! u = Some t) →
    hcollect string_hash tt want l s = collect tt want l.*1 (abs s).
  Proof.
    intros Hok. induction l as [|[u t] l IH]; intros Hl; [done|]. cbn [hcollect fmap list_fmap fst collect].
    change (m_tracks (abs s)) with (ht_map (hm_tracks s)). rewrite (Hl u t) by by left.
    rewrite ht_find_map by apply Hok. change (m_statuses (abs s)) with (ht_map (hm_statuses s)).
    destruct (ht_map (hm_statuses s) !! u); [|done]. rewrite IH; [done|].
    intros v t' Hv. apply Hl. by right.
  Qed.
  Lemma all_refines l s : (∀ u t, (u, t) ∈ l → ht_map (hm_tracks s) !! u = Some t) →
    Ok (map snd l) = get_all_tracks tt l.*1 (abs s).
  Proof.
    induction l as [|[u t] l IH]; intros Hl; [done|]. cbn [fmap list_fmap fst get_all_tracks map snd].
    change (m_tracks (abs s)) with (ht_map (hm_tracks s)). rewrite (Hl u t) by by left.
    rewrite <- IH; [done|]. intros v t' Hv. apply Hl. by right.
  Qed.
  Lemma nodes_lookup {A} (t : htab A) u a : wf t → (u, a) ∈ ht_nodes t ↔ ht_map t !! u = Some a.
  Proof. intros [Hd _]. unfold ht_map. by rewrite elem_of_list_to_map. Qed.

  Lemma init_ok p r : ok (hmgr_init tt p r).
  Proof. split; [apply empty_wf|]. split; apply empty_wf. Qed.

  (** ** Histories *)
  Lemma run_cons s c ord h s' :
    valid_call tt c → valid_order tt ord c s → run tt (fst (step tt ord c s)) h s' → run tt s (c :: h) s'.
  Proof.
    intros Hc Ho Hr. induction Hr as [|h c' s1 ord' Hr IH Hc' Ho'].
    - change [c] with ([] ++ [c]). apply run_snoc; [constructor|done|done].
    - change (c :: h ++ [c']) with ((c :: h) ++ [c']). by constructor.
  Qed.
  Lemma hrun_refines h s : ok s → Forall (valid_call tt) h →
    run tt (abs s) h (abs (hrun string_hash grow tt h s).1) ∧ ok (hrun string_hash grow tt h s).1.
  Proof.
    revert s. induction h as [|c h IH]; intros s Hok Hv; [split; [constructor|done]|].
    apply Forall_cons in Hv as [Hc Hv]. cbn [hrun].
    destruct (step_refines c s Hok) as [E Hok'].
    destruct (hstep string_hash grow tt c s) as [s1 r]. cbn [fst snd] in *.
    destruct (IH s1 Hok' Hv) as [Hr Hok'']. destruct (hrun string_hash grow tt h s1) as [s2 rs]. cbn [fst] in *.
    split; [|done]. eapply run_cons; [done|by apply order_for_valid|]. rewrite E. exact Hr.
  Qed.
End Refine.
