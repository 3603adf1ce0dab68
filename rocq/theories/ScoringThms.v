(** Facts about scoring and gating. *)
From Coq Require Import List Bool Permutation String.
From Flocq Require Import IEEE754.BinarySingleNaN.
From Verif Require Import Base Uuid OrdMap OrdFacts DynObj Float Scoring ScoringSpec.
Import ListNotations.

Section Score.
  Context {F Trk Det : Type} (tu : Trk -> uuid) (du : Det -> uuid) (metric : Trk -> Det -> option F).
  Notation scores_for := (scores_for tu du metric).

  Definition last_opt {A} (l : list A) (o : option A) : option A := fold_left (fun _ x => Some x) l o.
  Lemma last_opt_app {A} (l l' : list A) o : last_opt (l ++ l') o = last_opt l' (last_opt l o).
  Proof. apply fold_left_app. Qed.
  Lemma last_opt_last {A} (l : list A) o : last_opt l o = match rev l with [] => o | x :: _ => Some x end.
  Proof.
    induction l as [|x l IH] using rev_ind; [reflexivity|].
    rewrite last_opt_app, rev_app_distr. reflexivity.
  Qed.

  Lemma pair_key k t d :
    uuid_eqb (tu t) (fst k) && uuid_eqb (du d) (snd k) = true <-> k = (tu t, du d).
  Proof.
    unfold uuid_eqb. destruct k as [a b]; cbn.
    destruct (bytes_compare (tu t) a) eqn:E1; cbn.
    - apply bytes_compare_eq in E1 as <-. destruct (bytes_compare (du d) b) eqn:E2; cbn.
      + apply bytes_compare_eq in E2 as <-. tauto.
      + split; [discriminate|]. intros [= ->]. rewrite (proj2 (bytes_compare_eq _ _) eq_refl) in E2. discriminate.
      + split; [discriminate|]. intros [= ->]. rewrite (proj2 (bytes_compare_eq _ _) eq_refl) in E2. discriminate.
    - split; [discriminate|]. intros [= -> ->]. rewrite (proj2 (bytes_compare_eq _ _) eq_refl) in E1. discriminate.
    - split; [discriminate|]. intros [= -> ->]. rewrite (proj2 (bytes_compare_eq _ _) eq_refl) in E1. discriminate.
  Qed.

  Lemma score_pair_find t d m k :
    om_wf pair_compare m ->
    om_wf pair_compare (score_pair tu du metric t m d) /\
    om_find pair_compare k (score_pair tu du metric t m d) =
    last_opt (if uuid_eqb (tu t) (fst k) && uuid_eqb (du d) (snd k) then
        match metric t d with Some v => [v] | None => [] end else []) (om_find pair_compare k m).
  Proof.
    intros H. unfold score_pair. destruct (metric t d) as [v|].
    - split; [apply om_set_wf; [apply pair_total|exact H]|].
      rewrite om_find_set by first [apply pair_total | exact H].
      destruct (uuid_eqb (tu t) (fst k) && uuid_eqb (du d) (snd k)) eqn:E.
      + apply pair_key in E as ->. rewrite (cmp_refl _ pair_total). reflexivity.
      + destruct (pair_compare k (tu t, du d)) eqn:E2; try reflexivity.
        apply (tc_eq _ pair_total) in E2. apply pair_key in E2. congruence.
    - split; [exact H|]. destruct (_ && _); reflexivity.
  Qed.

  Lemma score_track_find t dets m k :
    om_wf pair_compare m ->
    om_wf pair_compare (score_track tu du metric dets m t) /\
    om_find pair_compare k (score_track tu du metric dets m t) =
    last_opt (flat_map (fun d => if uuid_eqb (tu t) (fst k) && uuid_eqb (du d) (snd k) then
        match metric t d with Some v => [v] | None => [] end else []) dets) (om_find pair_compare k m).
  Proof.
    revert m; induction dets as [|d dets IH]; intros m H; [split; [exact H|reflexivity]|].
    destruct (score_pair_find t d m k H) as [H1 H2].
    destruct (IH _ H1) as [H3 H4]. unfold score_track in *. cbn [fold_left flat_map]. split; [exact H3|].
    rewrite H4, H2, last_opt_app. reflexivity.
  Qed.

  Lemma score_map_find tracks dets :
    om_wf pair_compare (score_tracks_and_detections tu du metric tracks dets) /\
    forall k, om_find pair_compare k (score_tracks_and_detections tu du metric tracks dets) =
      match rev (scores_for tracks dets k) with [] => None | v :: _ => Some v end.
  Proof.
    unfold score_tracks_and_detections, scores_for.
    enough (forall k m, om_wf pair_compare m ->
      om_wf pair_compare (fold_left (score_track tu du metric dets) tracks m) /\
      om_find pair_compare k (fold_left (score_track tu du metric dets) tracks m) =
      last_opt (scores_for tracks dets k) (om_find pair_compare k m)) as HH.
    { split; [apply (HH (EmptyString, EmptyString)); exact I|].
      intros k. rewrite (proj2 (HH k [] I)), last_opt_last. reflexivity. }
    intros k. induction tracks as [|t tracks IH]; intros m H; [split; [exact H|reflexivity]|].
    destruct (score_track_find t dets m k H) as [H1 H2]. destruct (IH _ H1) as [H3 H4].
    cbn [fold_left]. split; [exact H3|]. rewrite H4, H2.
    unfold scores_for. cbn [flat_map]. rewrite last_opt_app. reflexivity.
  Qed.

  Lemma scores_for_in tracks dets k v :
    In v (scores_for tracks dets k) <->
    exists t d, In t tracks /\ In d dets /\ k = (tu t, du d) /\ metric t d = Some v.
  Proof.
    unfold scores_for. rewrite in_flat_map. split.
    - intros (t & Ht & Hv). apply in_flat_map in Hv as (d & Hd & Hv).
      destruct (_ && _) eqn:E in Hv; [|destruct Hv]. apply pair_key in E.
      exists t, d. destruct (metric t d); [|destruct Hv]. destruct Hv as [->|[]]. auto.
    - intros (t & d & Ht & Hd & Hk & Hm). exists t. split; [exact Ht|].
      apply in_flat_map. exists d. split; [exact Hd|].
      apply pair_key in Hk. rewrite Hk, Hm. left. reflexivity.
  Qed.

  (** An entry exists exactly when some pair with these uuids has a score. *)
  Lemma score_map_domain tracks dets k :
    (exists v, om_find pair_compare k (score_tracks_and_detections tu du metric tracks dets) = Some v) <->
    (exists t d v, In t tracks /\ In d dets /\ k = (tu t, du d) /\ metric t d = Some v).
  Proof.
    rewrite (proj2 (score_map_find tracks dets)). split.
    - intros [v Hv]. destruct (rev (scores_for tracks dets k)) as [|x l] eqn:E; [discriminate|].
      assert (In x (scores_for tracks dets k)) as Hin by (apply in_rev; rewrite E; left; reflexivity).
      apply scores_for_in in Hin as (t & d & H). exists t, d, x. tauto.
    - intros (t & d & v & Ht & Hd & Hk & Hm).
      assert (In v (rev (scores_for tracks dets k))) as Hin.
      { apply -> in_rev. apply scores_for_in. eauto 6. }
      destruct (rev (scores_for tracks dets k)) as [|x l]; [destruct Hin|]. eauto.
  Qed.

  Lemma nodup_map_inj {A B} (f : A -> B) l x y :
    NoDup (map f l) -> In x l -> In y l -> f x = f y -> x = y.
  Proof.
    induction l as [|a l IH]; intros Hn Hx Hy Hf; [destruct Hx|]. inversion Hn; subst.
    destruct Hx as [->|Hx], Hy as [->|Hy]; auto.
    - destruct H1. rewrite Hf. apply in_map, Hy.
    - destruct H1. rewrite <- Hf. apply in_map, Hx.
  Qed.

  (** With unique uuids an entry is the score of its pair. *)
  Lemma score_map_unique tracks dets t d :
    NoDup (map tu tracks) -> NoDup (map du dets) -> In t tracks -> In d dets ->
    om_find pair_compare (tu t, du d) (score_tracks_and_detections tu du metric tracks dets) = metric t d.
  Proof.
    intros Hn1 Hn2 Ht Hd. rewrite (proj2 (score_map_find tracks dets)).
    destruct (rev (scores_for tracks dets (tu t, du d))) as [|x l] eqn:E.
    - destruct (metric t d) as [v|] eqn:Em; [|reflexivity]. exfalso.
      assert (In v (rev (scores_for tracks dets (tu t, du d)))) as Hin.
      { apply -> in_rev. apply scores_for_in. eauto 6. }
      rewrite E in Hin. destruct Hin.
    - assert (In x (scores_for tracks dets (tu t, du d))) as Hin by (apply in_rev; rewrite E; left; reflexivity).
      apply scores_for_in in Hin as (t' & d' & Ht' & Hd' & [= E1 E2] & Hm).
      rewrite (nodup_map_inj tu tracks t t') by assumption.
      rewrite (nodup_map_inj du dets d d') by assumption. symmetry. exact Hm.
  Qed.
End Score.

Section Gate.
  Context {F : Type}.
  Implicit Types (m : score_map F) (p q : F -> bool).

  Lemma keys_to_prune_spec p m : keys_to_prune p m = map fst (filter (fun kv => p (snd kv)) m).
  Proof.
    unfold keys_to_prune.
    enough (forall l, fold_left (fun keys '(key, score) => if p score then keys ++ [key] else keys) m l =
      l ++ map fst (filter (fun kv => p (snd kv)) m)) as H by apply H.
    induction m as [|[k v] m IH]; intros l; cbn; [symmetry; apply app_nil_r|].
    rewrite IH. destruct (p v); cbn; [|reflexivity]. rewrite <- app_assoc. reflexivity.
  Qed.

  Lemma prune_spec p m :
    om_wf pair_compare m ->
    prune_track_and_detection_scores_if p m = filter (fun kv => negb (p (snd kv))) m.
  Proof.
    intros H. unfold prune_track_and_detection_scores_if. rewrite keys_to_prune_spec.
    assert (forall keys m', om_wf pair_compare m' ->
      fold_left (fun m key => om_erase pair_compare key m) keys m' =
      filter (fun kv => negb (existsb (fun k => match pair_compare k (fst kv) with Eq => true | _ => false end) keys)) m')
      as HH.
    { intros keys. induction keys as [|k keys IH]; intros m' Hm'; cbn.
      - induction m' as [|kv m' IHm]; [reflexivity|]. cbn. f_equal. apply IHm.
        destruct kv. apply om_wf_cons in Hm'; [tauto|apply pair_total].
      - rewrite om_erase_filter by first [apply pair_total | exact Hm'].
        rewrite IH by (apply om_wf_filter; [apply pair_total|exact Hm']). clear IH Hm'.
        induction m' as [|kv m' IHm]; [reflexivity|]. cbn.
        destruct (pair_compare k (fst kv)); cbn; rewrite IHm; reflexivity. }
    rewrite HH by exact H. apply filter_ext_in. intros [k v] Hin. cbn. f_equal.
    destruct (p v) eqn:E.
    - apply existsb_exists. exists k. split.
      + change k with (fst (k, v)). apply in_map. apply filter_In. auto.
      + rewrite (cmp_refl _ pair_total). reflexivity.
    - apply not_true_is_false. intros Hex. apply existsb_exists in Hex as (k' & Hk' & Heq).
      destruct (pair_compare k' k) eqn:Ek; try discriminate. apply (tc_eq _ pair_total) in Ek as ->.
      apply in_map_iff in Hk' as ([k2 v2] & E2 & Hin2). cbn in E2; subst k2.
      apply filter_In in Hin2 as [Hin2 Hp]. cbn in Hp.
      assert (v = v2) as ->.
      { apply (om_find_in _ pair_total) in Hin; [|exact H]. apply (om_find_in _ pair_total) in Hin2; [|exact H].
        congruence. }
      congruence.
  Qed.

  Lemma prune_wf p m : om_wf pair_compare m -> om_wf pair_compare (prune_track_and_detection_scores_if p m).
  Proof. intros H. rewrite prune_spec by exact H. apply om_wf_filter; [apply pair_total|exact H]. Qed.

  Lemma prune_find p m k :
    om_wf pair_compare m ->
    om_find pair_compare k (prune_track_and_detection_scores_if p m) =
    match om_find pair_compare k m with Some v => if p v then None else Some v | None => None end.
  Proof.
    intros H. pose proof (prune_wf p m H) as H'.
    destruct (om_find pair_compare k (prune_track_and_detection_scores_if p m)) as [v|] eqn:E.
    - apply (om_find_in _ pair_total) in E; [|exact H']. rewrite prune_spec in E by exact H.
      apply filter_In in E as [E1 E2]. apply (om_find_in _ pair_total) in E1; [|exact H].
      rewrite E1. cbn in E2. destruct (p v); [discriminate|reflexivity].
    - destruct (om_find pair_compare k m) as [v|] eqn:E2; [|reflexivity].
      destruct (p v) eqn:Ep; [reflexivity|]. exfalso.
      apply (om_find_none _ pair_total) in E; [|exact H']. apply E.
      change k with (fst (k, v)). apply in_map. rewrite prune_spec by exact H.
      apply filter_In. split; [|cbn; rewrite Ep; reflexivity].
      apply (om_find_in _ pair_total); assumption.
  Qed.

  Lemma filter_filter {A} (f g : A -> bool) l : filter f (filter g l) = filter (fun x => f x && g x) l.
  Proof.
    induction l as [|a l IH]; [reflexivity|]. cbn. destruct (g a) eqn:E; cbn.
    - rewrite andb_true_r. destruct (f a); rewrite IH; reflexivity.
    - rewrite andb_false_r. exact IH.
  Qed.
  Lemma prune_idem p m : om_wf pair_compare m ->
    prune_track_and_detection_scores_if p (prune_track_and_detection_scores_if p m) =
    prune_track_and_detection_scores_if p m.
  Proof.
    intros H. rewrite !prune_spec by first [exact H | apply prune_wf; exact H | apply om_wf_filter; [apply pair_total|exact H]].
    rewrite filter_filter. apply filter_ext. intros kv. destruct (p (snd kv)); reflexivity.
  Qed.
  Lemma prune_comm p q m : om_wf pair_compare m ->
    prune_track_and_detection_scores_if p (prune_track_and_detection_scores_if q m) =
    prune_track_and_detection_scores_if q (prune_track_and_detection_scores_if p m).
  Proof.
    intros H. rewrite !prune_spec by first [exact H | apply prune_wf; exact H | apply om_wf_filter; [apply pair_total|exact H]].
    rewrite !filter_filter. apply filter_ext. intros kv. apply andb_comm.
  Qed.
End Gate.

(** NaN is never greater than a threshold. *)
Lemma nan_not_greater (x t : f32) : is_nan x = true -> f32_gtb x t = false.
Proof. destruct x; try discriminate. intros _. destruct t as [[]|[]| |[]]; reflexivity. Qed.

Lemma nan_survives (m : score_map f32) k v t :
  om_wf pair_compare m -> om_find pair_compare k m = Some v -> is_nan v = true ->
  om_find pair_compare k (prune_track_and_detection_scores_if (fun s => f32_gtb s t) m) = Some v.
Proof. intros H Hf Hn. rewrite prune_find by exact H. rewrite Hf, nan_not_greater by exact Hn. reflexivity. Qed.
