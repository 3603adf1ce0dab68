(** Proofs about clustering. *)
From stdpp Require Import gmap strings.
From Coq Require Import Reals Lra Lia.
From Verif Require Import Base Uuid Motion RealArith MotionThms PiBounds Clustering ClusteringSpec.
Local Open Scope nat_scope.

(** ** The grouping relation *)
Section Grouping.
  Context {D : Type} (near : D → D → bool).
  Implicit Types (ds : list D) (gs : list (list D)).

  Lemma filter_le (f : D → bool) ds : length (List.filter f ds) ≤ length ds.
  Proof. induction ds as [|d ds IH]; cbn; [done|]. destruct (f d); cbn; lia. Qed.

  Lemma grouping_exists ds : ∃ gs, grouping near ds gs ∧ length gs ≤ length ds.
  Proof.
    induction ds as [ds IH] using (induction_ltof1 _ (@length D)).
    destruct ds as [|d ds _] using rev_ind; [exists []; split; [constructor|done]|].
    destruct (IH (List.filter (λ x, negb (near d x)) ds)) as (gs & Hg & Hl).
    { unfold ltof. rewrite app_length. cbn. pose proof (filter_le (λ x, negb (near d x)) ds). lia. }
    exists ((d :: List.filter (near d) ds) :: gs). split; [by constructor|].
    rewrite app_length. cbn. pose proof (filter_le (λ x, negb (near d x)) ds). lia.
  Qed.

  Lemma grouping_unique ds gs gs' : grouping near ds gs → grouping near ds gs' → gs = gs'.
  Proof.
    intros H. revert gs'. induction H as [|ds o gs H IH]; intros gs' H'.
    - inversion H' as [|ds' o' gs'' ? E]; [done|]. by destruct ds'.
    - inversion H' as [E|ds' o' gs'' ? E]; [by destruct ds|].
      apply app_inj_tail in E as [-> ->]. f_equal. by apply IH.
  Qed.

  Lemma filter_split (f : D → bool) ds :
    List.filter f ds ++ List.filter (λ d, negb (f d)) ds ≡ₚ ds.
  Proof.
    induction ds as [|d ds IH]; cbn; [done|]. destruct (f d); cbn; [by rewrite IH|].
    by rewrite <- Permutation_middle, IH.
  Qed.

  Lemma grouping_perm ds gs : grouping near ds gs → concat gs ≡ₚ ds.
  Proof.
    induction 1 as [|ds o gs H IH]; [done|]. cbn.
    rewrite IH, (filter_split (near o) ds). apply Permutation_cons_append.
  Qed.

  Lemma filter_sublist (f : D → bool) ds : List.filter f ds `sublist_of` ds.
  Proof. induction ds as [|d ds IH]; cbn; [done|]. destruct (f d); by constructor. Qed.

  Lemma grouping_sublist ds gs : grouping near ds gs → ∀ o g, o :: g ∈ gs → g ++ [o] `sublist_of` ds.
  Proof.
    induction 1 as [|ds o gs H IH]; intros o' g Hin; [by apply elem_of_nil in Hin|].
    apply elem_of_cons in Hin as [[= -> ->]|Hin].
    - apply sublist_app; [apply filter_sublist|done].
    - etrans; [by apply IH|]. etrans; [apply filter_sublist|]. by apply sublist_inserts_r.
  Qed.

  Lemma grouping_shape ds gs : grouping near ds gs →
    Forall (λ g, ∃ o rest, g = o :: rest ∧ Forall (λ d, near o d = true) rest) gs.
  Proof.
    induction 1 as [|ds o gs H IH]; constructor; [|done].
    eexists _, _. split; [done|]. apply Forall_forall. intros d Hd.
    apply elem_of_list_In, filter_In in Hd. by destruct Hd.
  Qed.

  Lemma grouping_later ds gs : grouping near ds gs →
    ∀ i j o rest g d, i < j → gs !! i = Some (o :: rest) → gs !! j = Some g → d ∈ g → near o d = false.
  Proof.
    induction 1 as [|ds o gs H IH]; intros i j o' rest g d Hij Hi Hj Hd; [done|].
    destruct j as [|j]; [lia|]. destruct i as [|i]; cbn in *.
    - injection Hi as <- <-. assert (Hin : d ∈ concat gs).
      { apply elem_of_list_In, in_concat. exists g. split; [by eapply elem_of_list_In, elem_of_list_lookup_2|].
        by apply elem_of_list_In. }
      rewrite (grouping_perm _ _ H) in Hin. apply elem_of_list_In, filter_In in Hin as [_ E].
      by destruct (near o d).
    - eapply (IH i j); eauto; lia.
  Qed.
End Grouping.

(** ** The loops compute it *)
Section Loops.
  Context {A : arith} {D M : Type} (d_uuid : D → uuid) (fields : D → point A).
  Context (below : M → M → bool) (thr : M) (metric : point A → D → M).
  Let near (o d : D) : bool := below (metric (fields o) d) thr.
  Let loop := cluster_loop d_uuid fields below thr metric.
  (** The cluster of a group: its members added one after the other. *)
  Definition build (g : list D) : cluster A D := foldl (add_detection d_uuid fields) empty_cluster g.

  Lemma absorb_filter p c ds :
    absorb d_uuid fields below thr metric p c ds =
    (foldl (add_detection d_uuid fields) c (List.filter (λ d, below (metric p d) thr) ds),
     List.filter (λ d, negb (below (metric p d) thr)) ds).
  Proof.
    revert c. induction ds as [|d ds IH]; intros c; cbn; [done|].
    destruct (below (metric p d) thr); cbn; [apply IH|]. by rewrite IH.
  Qed.

  Lemma loop_grouping ds gs : grouping near ds gs → ∀ fuel, length gs ≤ fuel → loop fuel ds = Some (build <$> gs).
  Proof.
    induction 1 as [|ds o gs H IH]; intros fuel Hf; unfold loop.
    - by destruct fuel.
    - destruct fuel as [|fuel]; cbn in Hf; [lia|]. cbn [cluster_loop]. rewrite last_snoc.
      rewrite removelast_last, absorb_filter. cbn.
      change (cluster_loop _ _ _ _ _ fuel _) with (loop fuel (List.filter (λ d, negb (near o d)) ds)).
      rewrite IH by lia. done.
  Qed.

  Lemma loop_spec ds : ∃ gs, grouping near ds gs ∧
    ∀ fuel, length ds ≤ fuel → loop fuel ds = Some (build <$> gs).
  Proof.
    destruct (grouping_exists near ds) as (gs & Hg & Hl). exists gs. split; [done|].
    intros fuel Hf. apply loop_grouping; [done|lia].
  Qed.

  Lemma loop_sound ds fuel cs : loop fuel ds = Some cs → ∃ gs, grouping near ds gs ∧ cs = build <$> gs.
  Proof.
    intros H. revert ds cs H. induction fuel as [|fuel IH]; intros ds cs H.
    all: unfold loop in H; cbn [cluster_loop] in H.
    all: destruct ds as [|o ds _] using rev_ind; [injection H as <-; exists []; split; [constructor|done]|].
    all: rewrite last_snoc in H; try done.
    rewrite removelast_last, absorb_filter in H. cbn in H.
    change (cluster_loop _ _ _ _ _ fuel _) with (loop fuel (List.filter (λ d, negb (near o d)) ds)) in H.
    destruct (loop fuel _) as [cs'|] eqn:E; cbn in H; [|done]. injection H as <-.
    apply IH in E as (gs & Hg & ->). exists ((o :: List.filter (near o) ds) :: gs). split; [by constructor|done].
  Qed.

  (** *** Contents of built clusters *)
  Lemma add_lookup c d u : detections (add_detection d_uuid fields c d) !! u =
    match detections c !! u with
    | Some e => Some e
    | None => if decide (u = d_uuid d) then Some d else None
    end.
  Proof.
    unfold add_detection. cbn. destruct (detections c !! d_uuid d) eqn:E.
    - case_decide as Hu; [subst; by rewrite E|]. by destruct (detections c !! u).
    - case_decide as Hu; [subst; by rewrite E, lookup_insert|].
      rewrite lookup_insert_ne by done. by destruct (detections c !! u).
  Qed.

  Lemma foldl_lookup g c u : detections (foldl (add_detection d_uuid fields) c g) !! u =
    match detections c !! u with
    | Some e => Some e
    | None => head (List.filter (λ d, bool_decide (d_uuid d = u)) g)
    end.
  Proof.
    revert c. induction g as [|d g IH]; intros c; cbn; [by destruct (detections c !! u)|].
    rewrite IH, add_lookup. destruct (detections c !! u); [done|].
    case_decide as Hu; case_bool_decide as Hu'; try congruence; done.
  Qed.

  Lemma build_lookup g u : detections (build g) !! u = head (List.filter (λ d, bool_decide (d_uuid d = u)) g).
  Proof. unfold build. by rewrite foldl_lookup. Qed.

  Lemma build_in g u d : detections (build g) !! u = Some d → d ∈ g ∧ d_uuid d = u.
  Proof.
    rewrite build_lookup. destruct (List.filter _ g) as [|e l] eqn:E; cbn; [done|]. intros [= ->].
    assert (H : In d (List.filter (λ d, bool_decide (d_uuid d = u)) g)) by (rewrite E; by left).
    apply filter_In in H as [H1 H2]. split; [by apply elem_of_list_In|]. by apply bool_decide_eq_true in H2.
  Qed.

  Lemma build_has g d : d ∈ g → ∃ e, detections (build g) !! d_uuid d = Some e.
  Proof.
    intros H. rewrite build_lookup. destruct (List.filter _ g) as [|e l] eqn:E; cbn; [|eauto].
    assert (H' : In d (List.filter (λ x, bool_decide (d_uuid x = d_uuid d)) g)).
    { apply filter_In. split; [by apply elem_of_list_In|]. by apply bool_decide_eq_true. }
    by rewrite E in H'.
  Qed.

  (** *** Partition *)
  Lemma nodup_fst_inj {X Y} (f : X → Y) (l : list X) x y :
    NoDup (f <$> l) → x ∈ l → y ∈ l → f x = f y → x = y.
  Proof.
    intros Hn Hx Hy E. apply elem_of_list_lookup in Hx as (i & Hi), Hy as (j & Hj).
    assert (i = j) as ->; [|congruence].
    eapply NoDup_lookup; [exact Hn| |]; rewrite list_lookup_fmap, ?Hi, ?Hj; cbn; [done|by rewrite E].
  Qed.

  Lemma elem_of_concat (gs : list (list D)) d : d ∈ concat gs ↔ ∃ g, g ∈ gs ∧ d ∈ g.
  Proof.
    rewrite elem_of_list_In, in_concat. split; intros (g & H1 & H2); exists g; by rewrite ?elem_of_list_In in *.
  Qed.

  Lemma concat_unique (gs : list (list D)) i j g g' d d' : NoDup (d_uuid <$> concat gs) →
    gs !! i = Some g → gs !! j = Some g' → d ∈ g → d' ∈ g' → d_uuid d = d_uuid d' → i = j.
  Proof.
    revert i j. induction gs as [|h gs IH]; intros i j Hn Hi Hj Hd Hd' E; [done|].
    cbn in Hn. rewrite fmap_app in Hn. apply NoDup_app in Hn as (_ & Hdis & Hn).
    destruct i as [|i], j as [|j]; cbn in Hi, Hj; [done|..].
    - injection Hi as ->. exfalso. apply (Hdis (d_uuid d)); [by apply elem_of_list_fmap_1|].
      rewrite E. apply elem_of_list_fmap_1, elem_of_concat. exists g'. by split; [eapply elem_of_list_lookup_2|].
    - injection Hj as ->. exfalso. apply (Hdis (d_uuid d')); [by apply elem_of_list_fmap_1|].
      rewrite <- E. apply elem_of_list_fmap_1, elem_of_concat. exists g. by split; [eapply elem_of_list_lookup_2|].
    - f_equal. eapply IH; eauto.
  Qed.

  Lemma loop_partition ds cs : NoDup (d_uuid <$> ds) → loop (length ds) ds = Some cs →
    (∀ c, c ∈ cs → detections c ≠ ∅) ∧
    (∀ c u d, c ∈ cs → detections c !! u = Some d → u = d_uuid d ∧ d ∈ ds) ∧
    (∀ d, d ∈ ds → ∃ i c, cs !! i = Some c ∧ detections c !! d_uuid d = Some d ∧
       ∀ j c', cs !! j = Some c' → is_Some (detections c' !! d_uuid d) → j = i).
  Proof.
    intros Hn H. apply loop_sound in H as (gs & Hg & ->).
    pose proof (grouping_perm _ _ _ Hg) as Hp. pose proof (grouping_shape _ _ _ Hg) as Hs.
    rewrite Forall_forall in Hs.
    assert (Hn' : NoDup (d_uuid <$> concat gs)) by (by rewrite Hp).
    split; [|split].
    - intros c (g & -> & Hin)%elem_of_list_fmap E. destruct (Hs g Hin) as (o & rest & -> & _).
      destruct (build_has (o :: rest) o) as (e & He); [by left|]. by rewrite E, lookup_empty in He.
    - intros c u d (g & -> & Hin)%elem_of_list_fmap E. apply build_in in E as [E1 E2]. split; [done|].
      rewrite <- Hp. apply elem_of_concat. eauto.
    - intros d Hd. rewrite <- Hp in Hd. pose proof Hd as Hd0. apply elem_of_concat in Hd as (g & Hgs & Hd).
      pose proof Hgs as Hgs'. apply elem_of_list_lookup in Hgs' as (i & Hi). exists i, (build g).
      split; [by rewrite list_lookup_fmap, Hi|]. split.
      + destruct (build_has g d Hd) as (e & He). rewrite He. f_equal. apply build_in in He as [H1 H2].
        eapply (nodup_fst_inj d_uuid); [exact Hn'| |exact Hd0|exact H2]. apply elem_of_concat. eauto.
      + intros j c' Hj [e He]. rewrite list_lookup_fmap in Hj. destruct (gs !! j) as [g'|] eqn:Ej; [|done].
        injection Hj as <-. apply build_in in He as [H1 H2]. eapply (concat_unique gs j i g' g e d); eauto.
  Qed.

  Lemma loop_geometry ds cs : loop (length ds) ds = Some cs →
    ∃ gs, cs = build <$> gs ∧ concat gs ≡ₚ ds ∧
    Forall (λ g, ∃ o rest, g = o :: rest ∧ rest ++ [o] `sublist_of` ds ∧
      Forall (λ d, below (metric (fields o) d) thr = true) rest) gs ∧
    ∀ i j o rest g d, i < j → gs !! i = Some (o :: rest) → gs !! j = Some g → d ∈ g →
      below (metric (fields o) d) thr = false.
  Proof.
    intros H. apply loop_sound in H as (gs & Hg & ->). exists gs. split; [done|].
    split; [by eapply grouping_perm|]. split; [|intros i j o rest g d; by apply (grouping_later near ds gs Hg)].
    apply Forall_forall. intros g Hin. pose proof (grouping_shape _ _ _ Hg) as Hs. rewrite Forall_forall in Hs.
    destruct (Hs g Hin) as (o & rest & -> & Hr). exists o, rest. split; [done|]. split; [|done].
    by apply (grouping_sublist near ds gs Hg).
  Qed.
End Loops.
