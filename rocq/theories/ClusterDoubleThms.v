(** Clustering in double precision. *)
From stdpp Require Import gmap strings.
From Coq Require Import Reals Lra Lia ZArith.
From Flocq Require Import Core IEEE754.BinarySingleNaN.
From Verif Require Import Base Uuid DynObj Motion Float DoubleArith Clustering ClusteringSpec ClusteringThms
  ClusterGroupsThms SumSquares64.
Local Open Scope nat_scope.

Section Groups.
  Context {D : Type}.
  Implicit Types near : D → D → bool.
  Lemma filter_ext_in' (f g : D → bool) ds : (∀ d, d ∈ ds → f d = g d) → List.filter f ds = List.filter g ds.
  Proof. intros H. apply filter_ext_in. intros d Hd. apply H. by apply elem_of_list_In. Qed.
  Lemma in_filter (f : D → bool) ds d : d ∈ List.filter f ds → d ∈ ds ∧ f d = true.
  Proof. intros [H ?]%elem_of_list_In%filter_In. split; [by apply elem_of_list_In|done]. Qed.
  Lemma grouping_ext near near' ds gs : grouping near ds gs → (∀ a b, a ∈ ds → b ∈ ds → near a b = near' a b) →
    grouping near' ds gs.
  Proof.
    induction 1 as [|ds o gs H IH]; intros He; [constructor|].
    assert (Ho : o ∈ ds ++ [o]) by (apply elem_of_app; right; by left).
    assert (Hi : ∀ d, d ∈ ds → d ∈ ds ++ [o]) by (intros d Hd; apply elem_of_app; by left).
    rewrite (filter_ext_in' (near o) (near' o) ds) by auto. constructor.
    rewrite <- (filter_ext_in' (λ d, negb (near o d)) (λ d, negb (near' o d)) ds) by (intros d Hd; by rewrite He by auto).
    apply IH. intros a b [Ha _]%in_filter [Hb _]%in_filter. auto.
  Qed.

  (** Elements that are near nothing and that nothing is near do not matter. *)
  Context (good : D → bool).
  Definition good_group (g : list D) : bool := match g with o :: _ => good o | [] => false end.
  Lemma filter_comm (f g : D → bool) ds : List.filter f (List.filter g ds) = List.filter g (List.filter f ds).
  Proof.
    induction ds as [|d ds IH]; cbn; [done|]. destruct (g d) eqn:G, (f d) eqn:F; cbn; rewrite ?F, ?G, ?IH; done.
  Qed.
  Lemma grouping_filter near ds gs : (∀ a b, good a = false ∨ good b = false → near a b = false) →
    grouping near ds gs → grouping near (List.filter good ds) (List.filter good_group gs).
  Proof.
    intros Hb. induction 1 as [|ds o gs H IH]; [constructor|].
    rewrite List.filter_app. cbn. destruct (good o) eqn:G.
    - assert (E : List.filter (near o) ds = List.filter (near o) (List.filter good ds)).
      { clear -Hb. induction ds as [|d ds IH]; cbn; [done|]. destruct (good d) eqn:Gd; cbn.
        - by rewrite IH.
        - by rewrite (Hb o d) by auto. }
      rewrite E. constructor. by rewrite filter_comm.
    - rewrite app_nil_r. assert (E : List.filter (λ d, negb (near o d)) ds = ds).
      { clear -Hb G. induction ds as [|d ds IH]; cbn; [done|]. rewrite (Hb o d) by auto. cbn. by f_equal. }
      by rewrite E in IH.
  Qed.
  Lemma grouping_bad near ds gs : (∀ a b, good a = false ∨ good b = false → near a b = false) →
    grouping near ds gs → ∀ g, g ∈ gs → if good_group g then Forall (λ d, good d = true) g else ∃ d, g = [d] ∧ good d = false.
  Proof.
    intros Hb. induction 1 as [|ds o gs H IH]; intros g Hg; [by apply elem_of_nil in Hg|].
    apply elem_of_cons in Hg as [->|Hg]; [|by apply IH]. cbn. destruct (good o) eqn:G.
    - constructor; [done|]. apply Forall_forall. intros d [_ Hd]%in_filter.
      destruct (good d) eqn:E; [done|]. by rewrite (Hb o d) in Hd by auto.
    - exists o. split; [|done]. f_equal.
      clear -Hb G. induction ds as [|d ds IH]; cbn; [done|]. by rewrite (Hb o d) by auto.
  Qed.
End Groups.

Section Loops.
  Context {A : arith} {D M : Type} (d_uuid : D → uuid) (fields : D → point A).
  Lemma loop_same {M' : Type} (below : M → M → bool) (thr : M) (metric : point A → D → M)
      (below' : M' → M' → bool) (thr' : M') (metric' : point A → D → M') ds :
    (∀ a b, a ∈ ds → b ∈ ds → below (metric (fields a) b) thr = below' (metric' (fields a) b) thr') →
    cluster_loop d_uuid fields below thr metric (length ds) ds =
    cluster_loop d_uuid fields below' thr' metric' (length ds) ds.
  Proof.
    intros He. destruct (loop_spec d_uuid fields below thr metric ds) as (gs & Hg & ->); [|done].
    destruct (loop_spec d_uuid fields below' thr' metric' ds) as (gs' & Hg' & ->); [|done].
    assert (Hg2 := grouping_ext _ (λ o d, below' (metric' (fields o) d) thr') ds gs Hg He).
    by rewrite (grouping_unique _ ds gs gs' Hg2 Hg').
  Qed.

  Context (below : M → M → bool) (thr : M) (metric : point A → D → M) (good : D → bool).
  Definition good_cluster (c : cluster A D) : Prop := map_Forall (λ _ d, good d = true) (detections c).
  Global Instance good_cluster_dec c : Decision (good_cluster c).
  Proof. unfold good_cluster. apply _. Defined.
  Lemma loop_filter ds cs : (∀ a b, good a = false ∨ good b = false → below (metric (fields a) b) thr = false) →
    cluster_loop d_uuid fields below thr metric (length ds) ds = Some cs →
    cluster_loop d_uuid fields below thr metric (length (List.filter good ds)) (List.filter good ds) =
      Some (filter good_cluster cs) ∧
    (∀ d, d ∈ ds → good d = false → ∃ c, c ∈ cs ∧ detections c = {[d_uuid d := d]}) ∧
    (∀ c, c ∈ cs → good_cluster c ∨ ∃ d, d ∈ ds ∧ good d = false ∧ detections c = {[d_uuid d := d]}).
  Proof.
    intros Hb H. apply loop_sound in H as (gs & Hg & ->).
    pose proof (grouping_bad good _ ds gs Hb Hg) as Hs. pose proof (grouping_perm _ ds gs Hg) as Hp.
    assert (Hone : ∀ d, detections (build d_uuid fields [d]) = {[d_uuid d := d]}) by (intros d; cbn; by rewrite lookup_empty).
    assert (Hgood : ∀ g, Forall (λ d, good d = true) g → good_cluster (build d_uuid fields g)).
    { intros g Hf u d [Hd _]%build_in. by apply (proj1 (Forall_forall _ g) Hf). }
    split; [|split].
    - destruct (loop_spec d_uuid fields below thr metric (List.filter good ds)) as (gs' & Hg' & ->); [|done].
      rewrite (grouping_unique _ _ _ _ Hg' (grouping_filter good _ ds gs Hb Hg)). f_equal.
      clear Hp Hg Hg' gs'. induction gs as [|g gs IH]; [done|]. rewrite fmap_cons, filter_cons. cbn [List.filter].
      assert (Hs' : ∀ g', g' ∈ gs → if good_group good g' then Forall (λ d, good d = true) g' else ∃ d, g' = [d] ∧ good d = false)
        by (intros g' Hg'; apply Hs; by right).
      specialize (Hs g ltac:(by left)). destruct (good_group good g) eqn:G.
      + rewrite decide_True by auto. rewrite fmap_cons. f_equal. by apply IH.
      + destruct Hs as (d & -> & Hd). rewrite decide_False; [by apply IH|]. intros Hc.
        specialize (Hc (d_uuid d) d). rewrite Hone, lookup_singleton in Hc. by rewrite Hc in Hd.
    - intros d Hd Gd. rewrite <- Hp in Hd. apply elem_of_concat in Hd as (g & Hgi & Hd). specialize (Hs g Hgi).
      destruct (good_group good g).
      + apply (proj1 (Forall_forall _ g) Hs) in Hd. congruence.
      + destruct Hs as (e & -> & _). apply elem_of_list_singleton in Hd as ->. eexists. split; [by apply elem_of_list_fmap_1|]. apply Hone.
    - intros c (g & -> & Hgi)%elem_of_list_fmap. specialize (Hs g Hgi). destruct (good_group good g); [left; auto|right].
      destruct Hs as (d & -> & Hd). exists d. split; [|by rewrite Hone].
      rewrite <- Hp. apply elem_of_concat. exists [d]. split; [done|by left].
  Qed.
End Loops.
