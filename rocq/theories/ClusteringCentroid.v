(** Proofs about the contents and the centroid of a cluster. *)
From stdpp Require Import gmap strings.
From Coq Require Import Reals Lra Lia.
From Verif Require Import Base Uuid Motion RealArith MotionThms PiBounds Clustering ClusteringSpec ClusteringThms.
Local Open Scope nat_scope.

Section Histories.
  Context {A : arith} {D : Type} (d_uuid : D → uuid) (fields : D → point A).
  Implicit Types (h : list (op D)) (c : cluster A D).

  Definition step c (o : op D) : cluster A D :=
    match o with
    | Add d => add_detection d_uuid fields c d
    | Remove u => (remove_detection fields c u).1
    | Clear => clear c
    end.
  Definition run h : cluster A D := foldl step empty_cluster h.

  Lemma run_snoc h o : run (h ++ [o]) = step (run h) o.
  Proof. unfold run. by rewrite foldl_app. Qed.

  Lemma snoc_split {X} (h : list X) o a x b :
    h ++ [o] = a ++ x :: b ↔ (b = [] ∧ x = o ∧ a = h) ∨ (∃ b', b = b' ++ [o] ∧ h = a ++ x :: b').
  Proof.
    split.
    - destruct b as [|y b _] using rev_ind.
      + intros [-> ->]%app_inj_tail. by left.
      + rewrite app_comm_cons, app_assoc. intros [-> ->]%app_inj_tail. right. eauto.
    - intros [(-> & -> & ->)|(b' & -> & ->)]; [done|]. by rewrite <- app_assoc.
  Qed.

  Lemma present_nil u : ¬ present d_uuid [] u.
  Proof. intros (a & d & b & E & _). by destruct a. Qed.
  Lemma present_snoc h o u : present d_uuid (h ++ [o]) u ↔
    (∃ d, o = Add d ∧ d_uuid d = u) ∨ (present d_uuid h u ∧ ¬ drops u o).
  Proof.
    unfold present. split.
    - intros (a & d & b & E & Hu & Hb). apply snoc_split in E as [(-> & <- & ->)|(b' & -> & ->)]; [left; eauto|].
      apply Forall_app in Hb as [Hb1 Hb2]. right. split; [|by inversion Hb2]. eauto 10.
    - intros [(d & -> & Hu)|((a & d & b & -> & Hu & Hb) & Ho)].
      + exists h, d, []. by repeat split.
      + exists a, d, (b ++ [o]). split; [by rewrite <- app_assoc|]. split; [done|].
        apply Forall_app. split; [done|]. by constructor.
  Qed.
  Lemma holds_snoc h o d : holds d_uuid (h ++ [o]) d ↔
    (o = Add d ∧ ¬ present d_uuid h (d_uuid d)) ∨ (holds d_uuid h d ∧ ¬ drops (d_uuid d) o).
  Proof.
    unfold holds. split.
    - intros (a & b & E & Hp & Hb). apply snoc_split in E as [(-> & <- & ->)|(b' & -> & ->)]; [by left|].
      apply Forall_app in Hb as [Hb1 Hb2]. right. split; [|by inversion Hb2]. eauto 10.
    - intros [[-> Hp]|((a & b & -> & Hp & Hb) & Ho)].
      + exists h, []. by repeat split.
      + exists a, (b ++ [o]). split; [by rewrite <- app_assoc|]. split; [done|].
        apply Forall_app. split; [done|]. by constructor.
  Qed.

  Lemma run_contents h u :
    (∀ d, detections (run h) !! u = Some d ↔ holds d_uuid h d ∧ d_uuid d = u) ∧
    (detections (run h) !! u = None ↔ ¬ present d_uuid h u).
  Proof.
    revert u. induction h as [|o h IH] using rev_ind; intros u.
    { unfold run. cbn. rewrite lookup_empty. split.
      - intros d. split; [done|]. intros [(a & b & E & _) _]. by destruct a.
      - split; [intros _; apply present_nil|done]. }
    rewrite run_snoc. destruct (IH u) as [IH1 IH2]. split.
    - intros d. rewrite holds_snoc. destruct o as [e|v|]; cbn [step drops].
      + rewrite add_lookup. destruct (detections (run h) !! u) as [x|] eqn:E.
        * assert (Hx : holds d_uuid h x ∧ d_uuid x = u) by (by apply IH1).
          assert (P : present d_uuid h u).
          { destruct Hx as [(a & b & -> & _ & Hb) Hu]. exists a, x, b. by subst. }
          split.
          -- intros [= ->]. split; [|by apply IH1]. right. split; [apply Hx|tauto].
          -- intros [[[[= ->] Hn]|[Hh _]] Hu]; [by subst|]. apply IH1. auto.
        * pose proof (proj1 IH2 eq_refl) as P. case_decide as Hu.
          -- split; [intros [= ->]; split; [left; by subst|by subst]|].
             intros [[[[= ->] _]|[Hh _]] Hud]; [done|].
             by pose proof (proj2 (IH1 d) (conj Hh Hud)).
          -- split; [done|]. intros [[[[= ->] _]|[Hh _]] Hud]; [congruence|].
             by pose proof (proj2 (IH1 d) (conj Hh Hud)).
      + unfold remove_detection. destruct (detections (run h) !! v) as [x|] eqn:E; cbn.
        * destruct (decide (v = u)) as [->|Hv].
          -- rewrite lookup_delete. split; [done|]. intros [[[[=] _]|[_ Hn]] Hu]. by subst.
          -- rewrite lookup_delete_ne by done. rewrite IH1. split.
             ++ intros [Hh Hu]. split; [|done]. right. split; [done|congruence].
             ++ intros [[[[=] _]|[Hh _]] Hu]. done.
        * rewrite IH1. split; [|intros [[[[=] _]|[Hh _]] Hu]; done].
          intros [Hh Hu]. split; [|done]. right. split; [done|]. intros ->. subst.
          by rewrite (proj2 (IH1 d) (conj Hh eq_refl)) in E.
      + cbn [clear detections]. rewrite lookup_empty. split; [done|]. intros [[[[=] _]|[_ Hn]] _]. tauto.
    - rewrite present_snoc. destruct o as [e|v|]; cbn [step drops].
      + rewrite add_lookup. destruct (detections (run h) !! u) as [x|] eqn:E.
        * split; [done|]. intros Hn. exfalso. apply Hn. right. split; [|tauto].
          destruct (proj1 (IH1 x) eq_refl) as [(a & b & -> & _ & Hb) Hu]. exists a, x, b. by subst.
        * pose proof (proj1 IH2 eq_refl) as P. case_decide as Hu.
          -- split; [done|]. intros Hn. exfalso. apply Hn. left. eauto.
          -- split; [|done]. intros _ [(d & [= ->] & Hd)|[? _]]; [congruence|tauto].
      + unfold remove_detection. destruct (detections (run h) !! v) as [x|] eqn:E; cbn.
        * destruct (decide (v = u)) as [->|Hv].
          -- rewrite lookup_delete. split; [|done]. intros _ [(d & [=] & _)|[_ Hn]]. tauto.
          -- rewrite lookup_delete_ne by done. rewrite IH2. split.
             ++ intros Hn [(d & [=] & _)|[? _]]. tauto.
             ++ intros Hn P. apply Hn. right. split; [done|congruence].
        * rewrite IH2. split.
          -- intros Hn [(d & [=] & _)|[? _]]. tauto.
          -- intros Hn P. apply Hn. right. split; [done|]. intros ->. by apply IH2.
      + cbn [clear detections]. rewrite lookup_empty. split; [|done]. intros _ [(d & [=] & _)|[_ Hn]]. tauto.
  Qed.

  Lemma tidy_snoc h o : tidy d_uuid (h ++ [o]) →
    tidy d_uuid h ∧ o ≠ Clear ∧ (∀ d, o = Add d → detections (run h) !! d_uuid d = None).
  Proof.
    intros [Hc Ha]. split; [|split].
    - split; [intros H; apply Hc, elem_of_app; by left|]. intros a d b ->. apply (Ha a d (b ++ [o])).
      by rewrite <- app_assoc.
    - intros ->. apply Hc, elem_of_app. right. by left.
    - intros d ->. apply run_contents. by apply (Ha h d []).
  Qed.
  Lemma tidy_adds ds : NoDup (d_uuid <$> ds) → tidy d_uuid (Add <$> ds).
  Proof.
    intros Hn. split; [by intros (d & [=] & _)%elem_of_list_fmap|].
    intros a d b E (a' & d' & b' & -> & Hd & _).
    rewrite <- app_assoc in E. apply fmap_app_inv in E as (l1 & l2 & -> & E2 & ->).
    destruct l2 as [|x l2]; [done|]. cbn in E2. injection E2 as -> E2.
    symmetry in E2. apply fmap_app_inv in E2 as (l3 & l4 & -> & E4 & ->).
    destruct l4 as [|y l4]; [done|]. cbn in E4. injection E4 as -> _.
    rewrite fmap_app in Hn. apply NoDup_app in Hn as (_ & _ & Hn). cbn in Hn.
    apply NoDup_cons in Hn as [Hn _]. apply Hn. rewrite fmap_app, Hd. apply elem_of_app. right. by left.
  Qed.
End Histories.

(** ** Centroids over the reals *)
Section Centroids.
  Context {D : Type} (d_uuid : D → uuid) (fields : D → point reals).
  Local Open Scope R_scope.
  Implicit Types (h : list (op D)) (c : cluster reals D) (m : gmap uuid D).

  Notation Sum := (state_sum (run d_uuid fields _)).
  Notation centroid := (get_centroid (A := reals) INR (D := D)).
  Definition heading (d : D) : R := get_angle (p_yaw (fields d)).

  Lemma total_perm (f : D → R) l l' : l ≡ₚ l' → total f l = total f l'.
  Proof. unfold total. induction 1; cbn [foldr]; lra. Qed.

  Definition tot (f : D → R) m : R := total f (map_to_list m).*2.
  Lemma tot_empty f : tot f ∅ = 0.
  Proof. unfold tot. by rewrite map_to_list_empty. Qed.
  Lemma tot_insert f m u d : m !! u = None → tot f (<[u := d]> m) = tot f m + f d.
  Proof. intros H. unfold tot. rewrite (total_perm _ _ _ (fmap_Permutation _ _ _ (map_to_list_insert m u d H))). cbn [fmap list_fmap snd total foldr]. fold (total f (map_to_list m).*2). lra. Qed.
  Lemma tot_delete f m u d : m !! u = Some d → tot f (delete u m) = tot f m - f d.
  Proof.
    intros H. rewrite <- (insert_delete m u d H) at 2.
    rewrite tot_insert by apply lookup_delete. lra.
  Qed.

  (** The sums of a tidy history *)
  Lemma tidy_sum h : tidy d_uuid h → let c := run d_uuid fields h in
    p_x (state_sum c) = tot (λ d, p_x (fields d)) (detections c) ∧
    p_y (state_sum c) = tot (λ d, p_y (fields d)) (detections c) ∧
    p_vel (state_sum c) = tot (λ d, p_vel (fields d)) (detections c) ∧
    p_rate (state_sum c) = tot (λ d, p_rate (fields d)) (detections c) ∧
    on_circle (p_yaw (state_sum c)) ∧
    same_turn (get_angle (p_yaw (state_sum c))) (tot heading (detections c)).
  Proof.
    induction h as [|o h IH] using rev_ind; intros Ht.
    - unfold run. cbn [foldl empty_cluster state_sum detections point_zero p_x p_y p_vel p_rate p_yaw]. rewrite !tot_empty.
      repeat split; try done; [apply circle_of|].
      rewrite get_angle_canonical; [apply same_turn_refl|]. pose proof pi_bounds. cbn. lra.
    - apply tidy_snoc with (fields := fields) in Ht as (Ht & Hc & Ha). specialize (IH Ht). rewrite run_snoc.
      remember (run d_uuid fields h) as c eqn:Ec. destruct IH as (I1 & I2 & I3 & I4 & I5 & I6).
      destruct o as [d|u|]; [| |done]; cbn [step].
      + specialize (Ha d eq_refl). unfold add_detection.
        cbn [state_sum detections element_wise_add p_x p_y p_vel p_rate p_yaw]. rewrite Ha.
        rewrite !tot_insert by done. cbn [nadd reals].
        repeat split; try congruence; [apply circle_of|].
        unfold angle_add. eapply same_turn_trans; [apply get_angle_spec|]. cbn [nadd reals].
        apply same_turn_add; [done|apply same_turn_refl].
      + unfold remove_detection. destruct (detections c !! u) as [d|] eqn:E; [|done].
        cbn [fst state_sum detections element_wise_subtract p_x p_y p_vel p_rate p_yaw].
        rewrite !(tot_delete _ _ _ _ E). cbn [nsub reals].
        repeat split; try congruence; [apply circle_of|].
        unfold angle_sub. eapply same_turn_trans; [apply get_angle_spec|]. cbn [nsub reals].
        apply same_turn_sub; [done|apply same_turn_refl].
  Qed.

  Lemma members_tot c l f : members c l → total f l = tot f (detections c) ∧ length l = size (detections c).
  Proof.
    intros H. split; [by apply total_perm|]. rewrite H, fmap_length. reflexivity.
  Qed.

  Lemma centroid_mean h l q : tidy d_uuid h → members (run d_uuid fields h) l →
    centroid (run d_uuid fields h) = Ok q →
    p_x q = total (λ d, p_x (fields d)) l / INR (length l) ∧
    p_y q = total (λ d, p_y (fields d)) l / INR (length l) ∧
    p_vel q = total (λ d, p_vel (fields d)) l / INR (length l) ∧
    p_rate q = total (λ d, p_rate (fields d)) l / INR (length l) ∧
    ∃ w, 0 <= w < 2 * PI ∧ same_turn w (total heading l) ∧ get_angle (p_yaw q) = w / INR (length l).
  Proof.
    intros Ht Hm. destruct (tidy_sum h Ht) as (I1 & I2 & I3 & I4 & I5 & I6).
    remember (run d_uuid fields h) as c eqn:Ec.
    destruct (members_tot c l (λ _, 0) Hm) as [_ Hl]. unfold get_centroid.
    destruct (decide (detections c = ∅)) as [|Hne]; [done|]. intros E. apply (f_equal (λ r, match r with Ok x => x | _ => q end)) in E.
    subst q. rewrite <- Hl.
    rewrite !(proj1 (members_tot c l _ Hm)). cbn [point_div p_x p_y p_vel p_rate p_yaw ndiv reals].
    split; [by rewrite I1|]. split; [by rewrite I2|]. split; [by rewrite I3|]. split; [by rewrite I4|].
    destruct (circle_is_angle _ I5) as (w & Hw & Ew). exists w.
    assert (Eg : get_angle (p_yaw (state_sum c)) = w) by (rewrite Ew; by apply get_angle_canonical).
    split; [done|]. split; [by rewrite <- Eg|]. unfold angle_div. cbn [ndiv reals]. rewrite Eg.
    assert (Hn : (1 <= length l)%nat).
    { rewrite Hl. apply Nat.le_succ_l, Nat.neq_0_lt_0. intros Hz. by apply Hne, map_size_empty_iff. }
    apply (le_INR 1) in Hn. change (INR 1) with 1 in Hn.
    apply get_angle_canonical. assert (0 < / INR (length l) <= 1).
    { split; [apply Rinv_0_lt_compat; lra|]. rewrite <- Rinv_1. apply Rinv_le_contravar; lra. }
    unfold Rdiv. nra.
  Qed.

  Lemma total_const f k (l : list D) : (∀ d, d ∈ l → f d = k) → total f l = INR (length l) * k.
  Proof.
    induction l as [|d l IH]; intros H; [cbn; lra|].
    cbn [total foldr length]. rewrite S_INR. fold (total f l). rewrite IH by (intros; apply H; by right).
    rewrite H by left. lra.
  Qed.

  (** All detections have one heading: the centroid has it too only if the sum
      of the headings is less than one turn. *)
  Lemma common_heading h l q k : tidy d_uuid h → members (run d_uuid fields h) l →
    centroid (run d_uuid fields h) = Ok q → (∀ d, d ∈ l → heading d = k) → 0 <= k < 2 * PI →
    get_angle (p_yaw q) = k ↔ INR (length l) * k < 2 * PI.
  Proof.
    intros Ht Hm Hq Hk Hr. destruct (centroid_mean h l q Ht Hm Hq) as (_ & _ & _ & _ & w & Hw & Hs & ->).
    rewrite (total_const heading k l Hk) in Hs.
    assert (Hn : INR (length l) <> 0).
    { destruct (members_tot _ l (λ _, 0) Hm) as [_ Hl]. rewrite Hl. apply not_0_INR. intros Hz.
      unfold get_centroid in Hq. destruct (decide _) as [|Hne]; [done|]. by apply Hne, map_size_empty_iff. }
    assert (Hp := pos_INR (length l)). set (n := INR (length l)) in *. split.
    - intros E. assert (w = n * k) by (rewrite <- E; field; done). lra.
    - intros Hlt. assert (w = n * k) as ->; [|change (@eq R (n * k / n) k); field; done]. apply wrap_unique; [done|nra|done].
  Qed.

  (** Wrong centroids *)
  Lemma centroid_after_clear d1 d2 :
    let c := run d_uuid fields [Add d1; Clear; Add d2] in
    members c [d2] ∧ ∃ q, centroid c = Ok q ∧ p_x q = p_x (fields d1) + p_x (fields d2).
  Proof.
    intros c.
    assert (Ed : detections c = {[d_uuid d2 := d2]}) by reflexivity. split.
    - unfold members. rewrite Ed, map_to_list_singleton. done.
    - unfold get_centroid. destruct (decide (detections c = ∅)) as [E|_].
      + rewrite Ed in E. by apply map_non_empty_singleton in E.
      + eexists. split; [done|]. rewrite Ed, map_size_singleton. cbn. lra.
  Qed.
  Lemma centroid_after_duplicate d1 d2 : d_uuid d1 = d_uuid d2 →
    let c := run d_uuid fields [Add d1; Add d2] in
    members c [d1] ∧ ∃ q, centroid c = Ok q ∧ p_x q = p_x (fields d1) + p_x (fields d2).
  Proof.
    intros Hu c.
    assert (Ed : detections c = {[d_uuid d1 := d1]}).
    { unfold c, run. cbn [foldl step]. unfold add_detection, empty_cluster. cbn [detections]. rewrite <- Hu, lookup_empty. by rewrite lookup_insert. }
    split.
    - unfold members. rewrite Ed, map_to_list_singleton. done.
    - unfold get_centroid. destruct (decide (detections c = ∅)) as [E|_].
      + rewrite Ed in E. by apply map_non_empty_singleton in E.
      + eexists. split; [done|]. rewrite Ed, map_size_singleton. cbn. lra.
  Qed.
End Centroids.
