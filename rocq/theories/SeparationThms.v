(** Consequences of optimality: scenes in which the association is determined;
    independence of the order of the inputs. *)
From Coq Require Import String List ZArith NArith Permutation Arith Lia Bool Reals Lra.
From Flocq Require Import Core IEEE754.BinarySingleNaN.
From Verif Require Import Base Uuid OrdMap OrdFacts Float DlibMatrix Scoring ScoringSpec ScoringThms Matching MatchingSpec
  AssignProofs MatchingThms Fusing FusingThms Pipeline PipelineAssoc Properties_Scoring.
Import ListNotations.
Open Scope list_scope.
Open Scope nat_scope.

Lemma pair_dec (p q : uuid * uuid) : {p = q} + {p <> q}.
Proof. decide equality; apply string_dec. Defined.
Lemma one_nodup (l : list (uuid * uuid)) : one_to_one l -> NoDup l.
Proof. intros [H _]. exact (NoDup_map_inv _ _ H). Qed.
Lemma same_or_stray (l m : list (uuid * uuid)) : one_to_one l -> length m = length l ->
  Permutation l m \/ exists p, In p l /\ ~ In p m.
Proof.
  intros H1 HL. destruct (Forall_Exists_dec (fun p => In p m) (fun p => in_dec pair_dec p m) l) as [F|E].
  - left. apply NoDup_Permutation_bis; [now apply one_nodup|lia|]. intros x Hx. rewrite Forall_forall in F. now apply F.
  - right. now apply Exists_exists.
Qed.

Lemma om_in_ext {K V} (cmp : K -> K -> comparison) (m m' : list (K * V)) : total_cmp cmp -> om_wf cmp m -> om_wf cmp m' ->
  (forall k v, In (k, v) m <-> In (k, v) m') -> m = m'.
Proof.
  intros TC Hm Hm' H. apply (om_wf_ext _ TC); [exact Hm|exact Hm'|]. intros k.
  destruct (om_find cmp k m) as [v|] eqn:E.
  - apply (om_find_in _ TC) in E; [|exact Hm]. apply H in E. apply (om_find_in _ TC) in E; [|exact Hm']. now symmetry.
  - destruct (om_find cmp k m') as [v|] eqn:E'; [|reflexivity].
    apply (om_find_in _ TC) in E'; [|exact Hm']. apply H in E'. apply (om_find_in _ TC) in E'; [|exact Hm]. congruence.
Qed.

(** An association map with one detection per track is determined by its pairs. *)
Lemma in_assoc_pairs (a : association_map) t d : In (t, d) (assoc_pairs a) <-> exists l, In (t, l) a /\ In d l.
Proof.
  unfold assoc_pairs. rewrite in_flat_map. split.
  - intros ([t' l] & H & H'). apply in_map_iff in H' as (d' & [= -> ->] & H'). eauto.
  - intros (l & H & H'). exists (t, l). split; [exact H|]. now apply in_map.
Qed.
Lemma assoc_ext (a b : association_map) :
  om_wf bytes_compare a -> om_wf bytes_compare b ->
  (forall t l, In (t, l) a -> exists d, l = [d]) -> (forall t l, In (t, l) b -> exists d, l = [d]) ->
  (forall p, In p (assoc_pairs a) <-> In p (assoc_pairs b)) -> a = b.
Proof.
  intros Ha Hb Sa Sb H. apply (om_in_ext _ _ _ bytes_total); [exact Ha|exact Hb|].
  assert (X : forall a b : association_map, (forall t l, In (t, l) a -> exists d, l = [d]) ->
    (forall t l, In (t, l) b -> exists d, l = [d]) ->
    (forall p, In p (assoc_pairs a) -> In p (assoc_pairs b)) -> forall k v, In (k, v) a -> In (k, v) b).
  { clear. intros a b Sa Sb H k v Hv. destruct (Sa _ _ Hv) as [d ->].
    assert (In (k, d) (assoc_pairs b)) as G by (apply H, in_assoc_pairs; eexists; split; [exact Hv|now left]).
    apply in_assoc_pairs in G as (l & G & G'). destruct (Sb _ _ G) as [d' ->]. destruct G' as [->|[]]. exact G. }
  intros k v. split; apply X; auto; intros p; apply H.
Qed.

(** ** Complete score maps *)
Lemma margin_thm solve (scores : score_map f32) best top :
  solver_ok solve -> small_map scores -> map_wf scores -> complete scores ->
  (forall k v, In (k, v) scores -> ordinary v) ->
  (exists k v, In (k, v) scores /\ (0 < B2R v)%R) ->
  (exists k v, In (k, v) scores /\ top = B2R v) ->
  (forall k v, In (k, v) scores -> (B2R v <= top)%R) ->
  one_to_one best -> length best = Nat.min (length (tracks_of scores)) (length (detections_of scores)) ->
  (forall t d, In (t, d) best -> exists v, In ((t, d), v) scores) ->
  (forall other, one_to_one other -> length other = length best ->
     (forall t d, In (t, d) other -> exists v, In ((t, d), v) scores) -> ~ Permutation other best ->
     (total_score scores best + 21 / 100000000 * top * INR (length best) < total_score scores other)%R) ->
  exists a, gnn_associator solve scores = Ok a /\ Permutation (assoc_pairs a) best.
Proof.
  intros Hs Hsm Hw Hc Ho Hp Ht Hm H1 HL Hin HM.
  destruct (gnn_optimal solve scores Hs Hsm Hw Hc Ho Hp) as (a & E & Hopt).
  exists a. split; [exact E|].
  destruct (gnn_one_to_one solve scores a Hs Hsm E) as (_ & _ & Ha1 & Hain & Hal & Hal').
  assert (LL : length best = length (assoc_pairs a)) by congruence.
  destruct (same_or_stray (assoc_pairs a) best Ha1 LL) as [P|(p & P1 & P2)]; [exact P|exfalso].
  specialize (Hopt best top H1 LL Hin Ht Hm). rewrite <- LL in Hopt.
  assert (Hlt : (total_score scores best + 21 / 100000000 * top * INR (length best) < total_score scores (assoc_pairs a))%R).
  { apply HM; [exact Ha1|congruence| |].
    - intros t d Htd. apply Hain in Htd as [T D]. now apply Hc.
    - intros P. apply P2. now apply (Permutation_in p P). }
  lra.
Qed.

Lemma total_perm scores l m : Permutation l m -> total_score scores l = total_score scores m.
Proof. induction 1; unfold total_score, Rsum in *; cbn [map fold_right] in *; lra. Qed.
Lemma total_split scores (f : uuid * uuid -> bool) l :
  total_score scores l = (total_score scores (filter f l) + total_score scores (filter (fun x => negb (f x)) l))%R.
Proof. unfold total_score, Rsum in *. induction l as [|x l IH]; cbn [map fold_right filter]; [lra|]. destruct (f x); cbn [negb map fold_right]; lra. Qed.
Lemma total_lower scores c l : (forall p, In p l -> (c <= score_of scores p)%R) ->
  (c * INR (length l) <= total_score scores l)%R.
Proof.
  induction l as [|x l IH]; intros H; [cbn; lra|]. rewrite (eq_refl : length (x :: l) = S (length l)), S_INR. unfold total_score, Rsum in *. cbn [map fold_right].
  pose proof (H x (or_introl eq_refl)). specialize (IH (fun p Hp => H p (or_intror Hp))). lra.
Qed.
Lemma total_upper scores c l : (forall p, In p l -> (score_of scores p <= c)%R) ->
  (total_score scores l <= c * INR (length l))%R.
Proof.
  induction l as [|x l IH]; intros H; [cbn; lra|]. rewrite (eq_refl : length (x :: l) = S (length l)), S_INR. unfold total_score, Rsum in *. cbn [map fold_right].
  pose proof (H x (or_introl eq_refl)). specialize (IH (fun p Hp => H p (or_intror Hp))). lra.
Qed.
Definition mem (l : list (uuid * uuid)) (p : uuid * uuid) : bool := if in_dec pair_dec p l then true else false.
Lemma mem_in l p : mem l p = true <-> In p l.
Proof. unfold mem. destruct (in_dec pair_dec p l); split; intros; try easy. Qed.
Lemma filter_length_split {A} (f : A -> bool) l : length l = length (filter f l) + length (filter (fun x => negb (f x)) l).
Proof. induction l as [|x l IH]; cbn; [easy|]. destruct (f x); cbn; lia. Qed.

Lemma separated_margin (scores : score_map f32) best other lo hi :
  NoDup best -> NoDup other -> length other = length best -> ~ Permutation other best ->
  (forall p, In p best -> (score_of scores p <= lo)%R) ->
  (forall p, In p other -> ~ In p best -> (hi <= score_of scores p)%R) ->
  (lo <= hi)%R ->
  (total_score scores best + (hi - lo) <= total_score scores other)%R.
Proof.
  intros Nb No HL HP Hlo Hhi Hlt.
  rewrite (total_split scores (mem other) best), (total_split scores (mem best) other).
  assert (P : Permutation (filter (mem other) best) (filter (mem best) other)).
  { apply NoDup_Permutation; [now apply NoDup_filter|now apply NoDup_filter|].
    intros x. rewrite !filter_In, !mem_in. tauto. }
  rewrite (total_perm scores _ _ P).
  pose proof (filter_length_split (mem other) best) as L1. pose proof (filter_length_split (mem best) other) as L2.
  apply Permutation_length in P.
  pose proof (total_upper scores lo (filter (fun x => negb (mem other x)) best)) as U.
  pose proof (total_lower scores hi (filter (fun x => negb (mem best x)) other)) as L.
  assert (EL : length (filter (fun x => negb (mem other x)) best) = length (filter (fun x => negb (mem best x)) other)) by lia.
  rewrite EL in U.
  assert (G : (1 <= INR (length (filter (fun x => negb (mem best x)) other)))%R).
  { change 1%R with (INR 1). apply le_INR.
    destruct (filter (fun x => negb (mem best x)) other) eqn:Ef; [|cbn; lia]. exfalso. apply HP.
    apply NoDup_Permutation_bis; [exact No|lia|]. intros x Hx. apply mem_in. destruct (mem best x) eqn:Em; [easy|].
    assert (In x []) as [] . rewrite <- Ef. apply filter_In. split; [exact Hx|]. now rewrite Em. }
  assert (U' : (total_score scores (filter (fun x => negb (mem other x)) best) <= lo * INR (length (filter (fun x => negb (mem best x)) other)))%R).
  { apply U. intros p Hp. apply filter_In in Hp as [Hp _]. now apply Hlo. }
  assert (L' : (hi * INR (length (filter (fun x => negb (mem best x)) other)) <= total_score scores (filter (fun x => negb (mem best x)) other))%R).
  { apply L. intros p Hp. apply filter_In in Hp as [Hp Hn]. apply Hhi; [exact Hp|]. intros Hb. apply mem_in in Hb. now rewrite Hb in Hn. }
  nra.
Qed.

Lemma separated_thm solve (scores : score_map f32) best lo hi :
  solver_ok solve -> small_map scores -> map_wf scores -> complete scores ->
  (forall k v, In (k, v) scores -> ordinary v) ->
  (exists k v, In (k, v) scores /\ (0 < B2R v)%R) ->
  one_to_one best -> length best = Nat.min (length (tracks_of scores)) (length (detections_of scores)) ->
  (forall t d, In (t, d) best -> exists v, In ((t, d), v) scores) ->
  (forall k v, In (k, v) scores -> In k best -> (B2R v <= lo)%R) ->
  (forall k v, In (k, v) scores -> ~ In k best -> (hi <= B2R v)%R) ->
  (forall k v, In (k, v) scores -> (lo + 21 / 100000000 * B2R v * INR (length best) < hi)%R) ->
  exists a, gnn_associator solve scores = Ok a /\ Permutation (assoc_pairs a) best.
Proof.
  intros Hs Hsm Hw Hc Ho Hp H1 HL Hin Hlo Hhi Hgap.
  assert (T : exists k0 v0, In (k0, v0) scores /\ forall k v, In (k, v) scores -> (B2R v <= B2R v0)%R).
  { destruct scores as [|[k v] rest]; [destruct Hp as (? & ? & [] & _)|]. clear.
    revert k v. induction rest as [|[k' v'] rest IH]; intros k v.
    - exists k, v. split; [now left|]. intros k0 v0 [[= _ ->]|[]]. lra.
    - destruct (IH k v) as (k0 & v0 & I0 & M0). destruct (Rle_dec (B2R v') (B2R v0)) as [L|G].
      + exists k0, v0. split; [destruct I0; [now left|now right; right]|].
        intros k1 v1 [H|[[= _ ->]|H]]; [apply (M0 k1 v1); now left|exact L|apply (M0 k1 v1); now right].
      + exists k', v'. split; [now right; left|].
        intros k1 v1 [H|[[= _ ->]|H]]; [|lra|]; (eapply Rle_trans; [apply (M0 k1 v1)|lra]); [now left|now right]. }
  destruct T as (k0 & v0 & I0 & M0).
  assert (S : forall k v, In (k, v) scores -> score_of scores k = B2R v).
  { intros k v H. unfold score_of. apply (om_find_in _ pair_total) in H; [|exact Hw]. now rewrite H. }
  apply (margin_thm solve scores best (B2R v0)); auto.
  { exists k0, v0. split; [exact I0|reflexivity]. }
  intros other H1' HL' Hin' HP.
  specialize (Hgap k0 v0 I0).
  assert (0 <= 21 / 100000000 * B2R v0 * INR (length best))%R.
  { apply Rmult_le_pos; [|apply pos_INR]. destruct (Ho _ _ I0). lra. }
  pose proof (separated_margin scores best other lo hi (one_nodup _ H1) (one_nodup _ H1') HL' HP) as X.
  assert (Y : (total_score scores best + (hi - lo) <= total_score scores other)%R); [|lra].
  apply X; [| |lra].
  - intros [t d] Hb. destruct (Hin t d Hb) as [v Hv]. rewrite (S _ _ Hv). now apply (Hlo (t, d)).
  - intros [t d] Hb Hn. destruct (Hin' t d Hb) as [v Hv]. rewrite (S _ _ Hv). now apply (Hhi (t, d)).
Qed.

(** ** Gated score maps *)
Lemma nodup_same (l : list uuid) : NoDup l -> nodup string_dec l = l.
Proof. apply nodup_fixed_point. Qed.
Lemma gated_many solve (scores : score_map f32) :
  solver_ok solve -> small_map scores -> map_wf scores ->
  (forall k v, In (k, v) scores -> ordinary v /\ small_score v) ->
  one_to_one (map fst scores) -> 2 <= length scores ->
  exists a, gnn_associator solve scores = Ok a /\ Permutation (assoc_pairs a) (map fst scores).
Proof.
  intros Hs Hsm Hw Ho H1 HL.
  assert (TL : tracks_of scores = map fst (map fst scores)).
  { unfold tracks_of. rewrite map_map. apply nodup_same. destruct H1 as [H _]. now rewrite map_map in H. }
  assert (DL : detections_of scores = map snd (map fst scores)).
  { unfold detections_of. rewrite map_map. apply nodup_same. destruct H1 as [_ H]. now rewrite map_map in H. }
  assert (Hmiss : missing_pair scores).
  { destruct scores as [|[[t d] v] [|[[t' d'] v'] rest]]; [cbn in HL; lia|cbn in HL; lia|].
    exists t, d'. rewrite TL, DL. cbn [map fst snd]. split; [now left|]. split; [now right; left|].
    destruct H1 as [N1 N2]. cbn [map fst snd] in N1, N2.
    apply NoDup_cons_iff in N1 as [N1 N1']. apply NoDup_cons_iff in N2 as [N2 N2'].
    intros w [[= Hd _]|Hin].
    - apply N2. rewrite Hd. now left.
    - apply N1. change (In (fst (fst ((t, d'), w))) (map fst (map fst (((t', d'), v') :: rest)))).
      now apply in_map, in_map. }
  assert (Hu : usable scores).
  { split; [exact Hw|]. split; [intros ->; cbn in HL; lia|]. split; [intros k v H; apply (Ho k v H)|right; exact Hmiss]. }
  destruct (usable_defined solve scores Hs Hsm Hu) as [a E]. exists a. split; [exact E|].
  destruct (gnn_one_to_one solve scores a Hs Hsm E) as (_ & _ & Ha1 & Hain & Hal & Hal').
  assert (LL : length (map fst scores) = length (assoc_pairs a)).
  { rewrite Hal', Hal, TL, DL, !map_length. lia. }
  assert (FS : forall l : list (uuid * uuid), incl l (map fst scores) -> filter (scored scores) l = l).
  { induction l as [|x l IH]; intros Hl; [reflexivity|]. cbn.
    assert (scored scores x = true) as ->.
    { unfold scored. assert (In x (map fst scores)) as H by (apply Hl; now left).
      apply in_map_iff in H as ([k v] & <- & H). apply (om_find_in _ pair_total) in H; [|exact Hw]. cbn [fst]. now rewrite H. }
    f_equal. apply IH. intros y Hy. apply Hl. now right. }
  pose proof (gnn_max_scored solve scores a Hs Hsm Hw Hmiss Ho E (map fst scores) H1 LL) as Hmax.
  rewrite (FS _ (incl_refl _)) in Hmax.
  assert (Hall : incl (assoc_pairs a) (map fst scores)).
  { intros x Hx. destruct (scored scores x) eqn:Sx.
    - unfold scored in Sx. destruct (om_find pair_compare x scores) as [v|] eqn:Fx; [|discriminate].
      apply (om_find_in _ pair_total) in Fx; [|exact Hw]. change x with (fst (x, v)). now apply in_map.
    - exfalso. assert (length (filter (scored scores) (assoc_pairs a)) < length (assoc_pairs a)).
      { pose proof (filter_length_split (scored scores) (assoc_pairs a)) as Q.
        assert (In x (filter (fun y => negb (scored scores y)) (assoc_pairs a))) as I by (apply filter_In; rewrite Sx; auto).
        destruct (filter (fun y => negb (scored scores y)) (assoc_pairs a)); [destruct I|cbn in Q; lia]. }
      enough (length (map fst scores) <= length (filter (scored scores) (assoc_pairs a))) by lia.
      apply Hmax. intros t d Htd. rewrite TL, DL. split.
      + change t with (fst (t, d)). now apply in_map.
      + change d with (snd (t, d)). now apply in_map. }
  apply NoDup_Permutation_bis; [now apply one_nodup|lia|exact Hall].
Qed.

Lemma gated_thm solve (scores : score_map f32) :
  solver_ok solve -> small_map scores -> map_wf scores ->
  (forall k v, In (k, v) scores -> ordinary v /\ small_score v) ->
  one_to_one (map fst scores) -> 2 <= length scores \/ (exists k v, In (k, v) scores /\ (0 < B2R v)%R) ->
  exists a, gnn_associator solve scores = Ok a /\ Permutation (assoc_pairs a) (map fst scores).
Proof.
  intros Hs Hsm Hw Ho H1 [HL|Hp]; [now apply gated_many|].
  destruct (le_lt_dec 2 (length scores)) as [HL|HL]; [now apply gated_many|].
  destruct scores as [|[[t d] v] [|]]; [destruct Hp as (? & ? & [] & _)| |cbn [length] in HL; lia].
  set (scores := [((t, d), v)]) in *.
  assert (Hu : usable scores).
  { split; [exact Hw|]. split; [discriminate|]. split; [intros k w H; apply (Ho k w H)|left; exact Hp]. }
  destruct (usable_defined solve scores Hs Hsm Hu) as [a E]. exists a. split; [exact E|].
  destruct (gnn_one_to_one solve scores a Hs Hsm E) as (_ & _ & _ & Hain & Hal & Hal').
  change (length a = 1) in Hal. rewrite Hal in Hal'.
  destruct (assoc_pairs a) as [|[t' d'] [|]]; try discriminate Hal'.
  destruct (Hain t' d' (or_introl eq_refl)) as [[<-|[]] [<-|[]]]. apply Permutation_refl.
Qed.

(** Same pairs for any two solvers, hence the same map. *)
Lemma same_map solve solve' (scores : score_map f32) best :
  solver_ok solve -> solver_ok solve' -> small_map scores ->
  (exists a, gnn_associator solve scores = Ok a /\ Permutation (assoc_pairs a) best) ->
  (exists a, gnn_associator solve' scores = Ok a /\ Permutation (assoc_pairs a) best) ->
  gnn_associator solve scores = gnn_associator solve' scores.
Proof.
  intros Hs Hs' Hsm (a & E & P) (a' & E' & P'). rewrite E, E'. f_equal.
  destruct (gnn_one_to_one solve scores a Hs Hsm E) as (W & S & _).
  destruct (gnn_one_to_one solve' scores a' Hs' Hsm E') as (W' & S' & _).
  apply assoc_ext; auto. intros p. split; intros H.
  - apply (Permutation_in p (Permutation_sym P')), (Permutation_in p P), H.
  - apply (Permutation_in p (Permutation_sym P)), (Permutation_in p P'), H.
Qed.

(** ** Independence of the order of tracks and detections *)
Section Orders.
  Context {Trk Det : Type} (tu : Trk -> uuid) (du : Det -> uuid).

  Lemma score_in {F} (metric : Trk -> Det -> option F) ts ds k v : NoDup (map tu ts) -> NoDup (map du ds) ->
    In (k, v) (score_tracks_and_detections tu du metric ts ds) <->
    exists t d, In t ts /\ In d ds /\ k = (tu t, du d) /\ metric t d = Some v.
  Proof.
    intros N M. destruct (C19_score_map F Trk Det tu du metric ts ds) as (_ & Hk & _ & Hu). split.
    - intros H. destruct (proj1 (Hk k) (ex_intro _ v H)) as (t & d & _ & Ht & Hd & -> & _).
      exists t, d. split; [exact Ht|]. split; [exact Hd|]. split; [reflexivity|]. now apply (Hu N M).
    - intros (t & d & Ht & Hd & -> & Hv). now apply (Hu N M).
  Qed.
  Lemma score_order {F} (metric : Trk -> Det -> option F) ts ts' ds ds' :
    Permutation ts ts' -> Permutation ds ds' -> NoDup (map tu ts) -> NoDup (map du ds) ->
    score_tracks_and_detections tu du metric ts ds = score_tracks_and_detections tu du metric ts' ds'.
  Proof.
    intros P Q N M.
    assert (NoDup (map tu ts')) as N' by (apply (Permutation_NoDup (Permutation_map tu P)), N).
    assert (NoDup (map du ds')) as M' by (apply (Permutation_NoDup (Permutation_map du Q)), M).
    apply (om_in_ext _ _ _ pair_total); try (apply C19_score_map).
    intros k v. rewrite !score_in by assumption. split; intros (t & d & Ht & Hd & R); exists t, d; (split; [|split; [|exact R]]).
    - exact (Permutation_in _ P Ht).
    - exact (Permutation_in _ Q Hd).
    - exact (Permutation_in _ (Permutation_sym P) Ht).
    - exact (Permutation_in _ (Permutation_sym Q) Hd).
  Qed.

  Lemma find_order {X} (f : X -> uuid) u l l' : Permutation l l' -> NoDup (map f l) ->
    find (fun x => uuid_eqb (f x) u) l = find (fun x => uuid_eqb (f x) u) l'.
  Proof.
    induction 1 as [|x l l' P IH|x y l|l m n P IH Q IH']; intros N.
    - reflexivity.
    - cbn in *. inversion N; subst. rewrite IH by assumption. reflexivity.
    - cbn. destruct (uuid_eqb (f y) u) eqn:E1, (uuid_eqb (f x) u) eqn:E2; try reflexivity. exfalso.
      apply uuid_eqb_eq in E1, E2. inversion N as [|? ? N1]; subst. apply N1. left. congruence.
    - rewrite IH by exact N. apply IH'. exact (Permutation_NoDup (Permutation_map f P) N).
  Qed.

  Context (visit : Trk -> Det -> result Trk).
  Lemma fuse_detections_find d t ds out : NoDup (map du ds) ->
    fuse_detections du visit [d] t ds out =
    match find (fun x => uuid_eqb (du x) d) ds with
    | Some det => let* f := visit t det in Ok (out ++ [f])
    | None => Ok out
    end.
  Proof.
    intros N. destruct (find (fun x => uuid_eqb (du x) d) ds) as [det|] eqn:E.
    - apply find_some in E as [H1 H2]. apply uuid_eqb_eq in H2. subst d. now apply fuse_detections_one.
    - apply fuse_detections_none. intros x Hx [H|[]]. apply (find_none _ _ E) in Hx.
      rewrite (proj2 (uuid_eqb_eq _ _) (eq_sym H)) in Hx. discriminate.
  Qed.
  Lemma fuse_tracks_find u d ts ds out : NoDup (map tu ts) -> NoDup (map du ds) ->
    fuse_tracks tu du visit u [d] ts ds out =
    match find (fun x => uuid_eqb (tu x) u) ts, find (fun x => uuid_eqb (du x) d) ds with
    | Some t, Some det => let* f := visit t det in Ok (out ++ [f])
    | _, _ => Ok out
    end.
  Proof.
    intros N M. induction ts as [|t ts IH]; [reflexivity|]. cbn [fuse_tracks find].
    inversion N as [|? ? N1 N2]; subst. destruct (uuid_eqb (tu t) u) eqn:E; [|now apply IH].
    apply uuid_eqb_eq in E. rewrite fuse_detections_find by exact M.
    assert (R : forall o, fuse_tracks tu du visit u [d] ts ds o = Ok o).
    { intros o. apply fuse_tracks_none. intros x Hx Hu. apply N1. rewrite E, <- Hu. now apply in_map. }
    destruct (find (fun x => uuid_eqb (du x) d) ds) as [det|]; [|apply R].
    destruct (visit t det); cbn [rbind]; [apply R|reflexivity|reflexivity].
  Qed.
  Lemma fuse_order a ts ts' ds ds' : (forall u l, In (u, l) a -> exists d, l = [d]) ->
    Permutation ts ts' -> Permutation ds ds' -> NoDup (map tu ts) -> NoDup (map du ds) ->
    fuse_associations tu du visit a ts ds = fuse_associations tu du visit a ts' ds'.
  Proof.
    intros S P Q N M. unfold fuse_associations. generalize (@nil Trk).
    assert (NoDup (map tu ts')) as N' by (apply (Permutation_NoDup (Permutation_map tu P)), N).
    assert (NoDup (map du ds')) as M' by (apply (Permutation_NoDup (Permutation_map du Q)), M).
    induction a as [|[u l] a IH]; intros out; [reflexivity|]. cbn [fuse_loop].
    destruct (S u l (or_introl eq_refl)) as [d ->]. rewrite !fuse_tracks_find by assumption.
    rewrite (find_order tu u ts ts' P N), (find_order du d ds ds' Q M).
    assert (forall o, fuse_loop tu du visit a ts ds o = fuse_loop tu du visit a ts' ds' o) as R.
    { apply IH. intros u' l' H. apply (S u' l'). now right. }
    destruct (find (fun x => uuid_eqb (tu x) u) ts') as [t|]; [|apply R].
    destruct (find (fun x => uuid_eqb (du x) d) ds') as [det|]; [|apply R].
    destruct (visit t det); cbn [rbind]; [apply R|reflexivity|reflexivity].
  Qed.
End Orders.
