(** Association and fusion composed (lists only). *)
From Coq Require Import String List ZArith NArith Permutation Arith Lia Bool Reals.
From Flocq Require Import IEEE754.BinarySingleNaN.
From Verif Require Import Base Uuid OrdMap OrdFacts DynObj Float DlibMatrix Scoring ScoringSpec ScoringThms Matching MatchingSpec
  AssignProofs MatchingThms Fusing FusingThms Pipeline.
Import ListNotations.
Local Open Scope list_scope.
Local Open Scope nat_scope.

Section Assoc.
  Context {Trk Det : Type} (tu : Trk -> uuid) (du : Det -> uuid) (metric : Trk -> Det -> option f32).
  Context (should_prune : f32 -> bool) (solve : mat Z -> list Z).

  Definition gated (tracks : list Trk) (detections : list Det) : score_map f32 :=
    prune_track_and_detection_scores_if should_prune (score_tracks_and_detections tu du metric tracks detections).

  Lemma gated_wf tracks detections : map_wf (gated tracks detections).
  Proof. apply prune_wf, score_map_find. Qed.

  Lemma gated_in tracks detections k v : In (k, v) (gated tracks detections) ->
    exists t d, In t tracks /\ In d detections /\ k = (tu t, du d) /\ metric t d = Some v /\ should_prune v = false.
  Proof.
    intros H. unfold gated in H.
    pose proof (score_map_find tu du metric tracks detections) as [W F].
    rewrite prune_spec in H by exact W. apply filter_In in H as [H E].
    apply (om_find_in _ pair_total) in H; [|exact W]. rewrite F in H.
    destruct (rev (scores_for tu du metric tracks detections k)) as [|x l] eqn:R; [discriminate|]. injection H as ->.
    assert (In v (scores_for tu du metric tracks detections k)) as D by (apply in_rev; rewrite R; left; reflexivity).
    apply scores_for_in in D as (t & d & ? & ? & ? & ?). cbn in E. apply negb_true_iff in E. eauto 8.
  Qed.

  Lemma gated_length tracks detections : length (gated tracks detections) <= length tracks * length detections.
  Proof.
    rewrite <- (map_length fst). rewrite <- (map_length tu tracks), <- (map_length du detections), <- prod_length.
    apply NoDup_incl_length.
    - apply (om_wf_nodup _ pair_total), gated_wf.
    - intros k H. apply in_map_iff in H as ([k' v] & <- & H).
      apply gated_in in H as (t & d & Ht & Hd & -> & _). apply in_prod; apply in_map; assumption.
  Qed.

  Lemma associate_spec tracks detections a :
    solver_ok solve -> (N.of_nat (length tracks * length detections) < 2 ^ 63)%N ->
    associate tu du metric should_prune solve tracks detections = Ok a ->
    om_wf bytes_compare a /\ one_to_one (assoc_pairs a) /\
    (forall t l, In (t, l) a -> exists trk det, In trk tracks /\ tu trk = t /\ In det detections /\ l = [du det]).
  Proof.
    intros S B H. apply (gnn_one_to_one solve (gated tracks detections)) in H as (W & L & O & P & _); [|exact S|].
    - split; [exact W|]. split; [exact O|]. intros t l H. destruct (L t l H) as [d ->].
      assert (In (t, d) (assoc_pairs a)) as Hp by (apply in_flat_map; exists (t, [d]); split; [exact H|left; reflexivity]).
      apply P in Hp as [Ht Hd]. apply in_tracks in Ht as (d' & v & Ht). apply in_detections in Hd as (t' & v' & Hd).
      apply gated_in in Ht as (trk & x & Ht & _ & [= E _] & _).
      apply gated_in in Hd as (y & det & _ & Hd & [= _ E'] & _).
      exists trk, det. subst. auto.
    - unfold small_map. pose proof (gated_length tracks detections). lia.
  Qed.

  Lemma associate_defined tracks detections :
    solver_ok solve -> (N.of_nat (length tracks * length detections) < 2 ^ 63)%N ->
    NoDup (map tu tracks) -> NoDup (map du detections) ->
    (forall t d v, In t tracks -> In d detections -> metric t d = Some v -> should_prune v = false -> ordinary v) ->
    (exists t d v, In t tracks /\ In d detections /\ metric t d = Some v /\ should_prune v = false /\ (0 < B2R v)%R) ->
    exists a, associate tu du metric should_prune solve tracks detections = Ok a.
  Proof.
    intros S B N M O (t & d & v & Ht & Hd & Hm & Hp & Hv).
    apply (usable_defined solve (gated tracks detections)); [exact S| |].
    - unfold small_map. pose proof (gated_length tracks detections). lia.
    - assert (In ((tu t, du d), v) (gated tracks detections)) as Hin.
      { pose proof (score_map_find tu du metric tracks detections) as [W F].
        unfold gated. rewrite prune_spec by exact W. apply filter_In. cbn. rewrite Hp. split; [|reflexivity].
        apply (om_find_in _ pair_total); [exact W|]. rewrite score_map_unique by assumption. exact Hm. }
      split; [apply gated_wf|]. split; [intros E; rewrite E in Hin; destruct Hin|]. split.
      + intros k v' H. apply gated_in in H as (t' & d' & Ht' & Hd' & _ & Hm' & Hp'). eauto.
      + left. eauto.
  Qed.

  Lemma left_over_spec a detections d :
    In d (left_over du a detections) <-> In d detections /\ ~ exists t l, In (t, l) a /\ In (du d) l.
  Proof.
    unfold left_over. rewrite filter_In, negb_true_iff.
    pose proof (ha_spec a (HasAssociation [] [])) as H.
    split.
    - intros [Hd Hn]. split; [exact Hd|]. intros (t & l & Hl & Hin). apply not_true_iff_false in Hn. apply Hn.
      apply set_count_in. apply H. right. eauto.
    - intros [Hd Hn]. split; [exact Hd|]. apply not_true_iff_false. intros C. apply Hn.
      apply set_count_in in C. apply H in C as [[]|C]. exact C.
  Qed.
End Assoc.

Section Fuse.
  Context {Trk Det : Type} (tu : Trk -> uuid) (du : Det -> uuid) (visit : Trk -> Det -> result Trk).

  Lemma listed_one u v : listed u [v] = true <-> u = v.
  Proof. rewrite listed_in. cbn. intuition congruence. Qed.

  Lemma fuse_detections_none ids t ds out :
    (forall d, In d ds -> ~ In (du d) ids) -> fuse_detections du visit ids t ds out = Ok out.
  Proof.
    induction ds as [|d ds IH]; intros H; [reflexivity|]. cbn.
    destruct (listed (du d) ids) eqn:E; [apply listed_in in E; destruct (H d (or_introl eq_refl) E)|].
    apply IH. intros d' Hd'. apply H. right. exact Hd'.
  Qed.
  Lemma fuse_detections_one t det ds out : NoDup (map du ds) -> In det ds ->
    fuse_detections du visit [du det] t ds out = (let* f := visit t det in Ok (out ++ [f])).
  Proof.
    induction ds as [|d ds IH]; intros N H; [destruct H|]. inversion N as [|? ? N1 N2]; subst. cbn [fuse_detections].
    destruct (listed (du d) [du det]) eqn:E.
    - apply listed_one in E. assert (d = det) as ->.
      { destruct H as [H|H]; [exact H|]. destruct N1. rewrite E. apply in_map, H. }
      destruct (visit t det); try reflexivity. cbn [rbind]. apply fuse_detections_none.
      intros d' Hd' [Heq|[]]. apply N1. rewrite Heq. apply in_map, Hd'.
    - destruct H as [->|H]; [|apply IH; assumption].
      rewrite (proj2 (listed_one _ _) eq_refl) in E. discriminate.
  Qed.
  Lemma fuse_tracks_none key ids ts ds out :
    (forall t, In t ts -> tu t <> key) -> fuse_tracks tu du visit key ids ts ds out = Ok out.
  Proof.
    induction ts as [|t ts IH]; intros H; [reflexivity|]. cbn.
    destruct (uuid_eqb (tu t) key) eqn:E; [apply uuid_eqb_eq in E; destruct (H t (or_introl eq_refl) E)|].
    apply IH. intros t' Ht'. apply H. right. exact Ht'.
  Qed.
  Lemma fuse_tracks_one trk det ts ds out : NoDup (map tu ts) -> NoDup (map du ds) -> In trk ts -> In det ds ->
    fuse_tracks tu du visit (tu trk) [du det] ts ds out = (let* f := visit trk det in Ok (out ++ [f])).
  Proof.
    intros N M. induction ts as [|t ts IH]; intros H D; [destruct H|]. inversion N as [|? ? N1 N2]; subst.
    cbn [fuse_tracks]. destruct (uuid_eqb (tu t) (tu trk)) eqn:E.
    - apply uuid_eqb_eq in E. assert (t = trk) as ->.
      { destruct H as [H|H]; [exact H|]. destruct N1. rewrite E. apply in_map, H. }
      rewrite fuse_detections_one by assumption. destruct (visit trk det); try reflexivity. cbn [rbind].
      apply fuse_tracks_none. intros t' Ht' Heq. apply N1. rewrite <- Heq. apply in_map, Ht'.
    - destruct H as [->|H]; [|apply IH; assumption].
      rewrite (proj2 (uuid_eqb_eq _ _) eq_refl) in E. discriminate.
  Qed.

  (** The entries of [a] name one track and one detection each. *)
  Definition names (tracks : list Trk) (detections : list Det) (e : uuid * list uuid) (trk : Trk) (det : Det) : Prop :=
    In trk tracks /\ In det detections /\ e = (tu trk, [du det]).

  Lemma fuse_defined a ts ds : NoDup (map tu ts) -> NoDup (map du ds) ->
    (forall e, In e a -> exists trk det, names ts ds e trk det) ->
    (forall trk det, In trk ts -> In det ds -> exists f, visit trk det = Ok f) ->
    exists out, fuse_associations tu du visit a ts ds = Ok out.
  Proof.
    intros N M H V. unfold fuse_associations.
    enough (forall acc, exists out, fuse_loop tu du visit a ts ds acc = Ok out) as E by apply E.
    induction a as [|e a IH]; intros acc; [eexists; reflexivity|].
    destruct (H e (or_introl eq_refl)) as (trk & det & Ht & Hd & ->). cbn [fuse_loop].
    rewrite fuse_tracks_one by assumption. destruct (V trk det Ht Hd) as [f ->]. cbn [rbind]. apply IH.
    intros e' He'. apply H. right. exact He'.
  Qed.

  Lemma fuse_each a ts ds out : NoDup (map tu ts) -> NoDup (map du ds) ->
    (forall e, In e a -> exists trk det, names ts ds e trk det) ->
    fuse_associations tu du visit a ts ds = Ok out <->
    Forall2 (fun e f => exists trk det, names ts ds e trk det /\ visit trk det = Ok f) a out.
  Proof.
    intros N M H. unfold fuse_associations.
    enough (forall acc, fuse_loop tu du visit a ts ds acc = Ok out <->
      exists new, out = acc ++ new /\ Forall2 (fun e f => exists trk det, names ts ds e trk det /\ visit trk det = Ok f) a new) as E.
    { rewrite E. split; [intros (new & -> & F); exact F|]. intros F. exists out. split; [reflexivity|exact F]. }
    induction a as [|e a IH]; intros acc.
    - cbn. split; [intros [= <-]; exists []; rewrite app_nil_r; split; [reflexivity|constructor]|].
      intros (new & -> & F). inversion F. rewrite app_nil_r. reflexivity.
    - destruct (H e (or_introl eq_refl)) as (trk & det & Ht & Hd & ->). cbn [fuse_loop].
      rewrite fuse_tracks_one by assumption.
      assert (forall f, (exists trk' det', names ts ds (tu trk, [du det]) trk' det' /\ visit trk' det' = Ok f) <->
                        visit trk det = Ok f) as U.
      { intros f. split.
        - intros (trk' & det' & (Ht' & Hd' & [= E1 E2]) & V).
          rewrite (nodup_map_inj tu ts trk trk'), (nodup_map_inj du ds det det'); assumption.
        - intros V. exists trk, det. split; [split; [|split]|]; auto. }
      assert (forall e, In e a -> exists trk det, names ts ds e trk det) as H' by (intros; apply H; right; assumption).
      destruct (visit trk det) as [f| |] eqn:V; cbn [rbind].
      + rewrite (IH H'). split.
        * intros (new & -> & F). exists (f :: new). rewrite <- app_assoc. split; [reflexivity|].
          constructor; [|exact F]. apply U. reflexivity.
        * intros (new & -> & F). inversion F as [|? f' ? new' Hf F']; subst. apply U in Hf as [= <-].
          exists new'. rewrite <- app_assoc. auto.
      + split; [discriminate|]. intros (new & -> & F). inversion F as [|? f' ? new' Hf F']; subst.
        apply U in Hf. discriminate.
      + split; [discriminate|]. intros (new & -> & F). inversion F as [|? f' ? new' Hf F']; subst.
        apply U in Hf. discriminate.
  Qed.
End Fuse.
