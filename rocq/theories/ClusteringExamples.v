(** Concrete detections for the clustering properties. *)
From stdpp Require Import gmap strings.
From Coq Require Import Reals Lra Lia.
From Verif Require Import Base Uuid DynObj Motion RealArith MotionThms PiBounds
  Clustering ClusteringSpec ClusteringThms ClusteringCentroid.
Local Open Scope R_scope.

(** A CTRV detection at (x, 0), not moving, with heading [h]. *)
Definition det : Type := dyn_obj R (ctrv_state reals) unit.
Definition at_x (u : uuid) (x h : R) : det :=
  DynObj 0 (CtrvState (A := reals) x 0 0 (angleR h) 0) () u kUnknown.
Definition pt : det → point reals := ctrv_point.
Definition distance2 : point reals → det → R := squared_euclidean_distance (A := reals) pt.
Definition clusters (threshold : R) (ds : list det) : option (list (cluster reals det)) :=
  cluster_loop_default o_uuid pt threshold (length ds) ds.

Lemma distance2_heading p u x h : distance2 p (at_x u x h) =
  (p_x p - x) * (p_x p - x) + p_y p * p_y p + p_vel p * p_vel p
  + (get_angle (p_yaw p) - get_angle (angleR h)) * (get_angle (p_yaw p) - get_angle (angleR h)) + p_rate p * p_rate p.
Proof.
  unfold distance2, squared_euclidean_distance, pt, ctrv_point, at_x.
  cbn [p_x p_y p_vel p_yaw p_rate o_state v_x v_y v_vel v_yaw v_rate nadd nsub nmul n0 reals]. lra.
Qed.
Lemma distance2_line u x u' x' h :
  distance2 (pt (at_x u x h)) (at_x u' x' h) = (x - x') * (x - x').
Proof.
  rewrite distance2_heading. unfold pt, ctrv_point, at_x.
  cbn [p_x p_y p_vel p_yaw p_rate o_state v_x v_y v_vel v_yaw v_rate]. lra.
Qed.

Lemma lt_true x y : nlt reals x y = true ↔ x < y.
Proof. cbn. destruct (Rlt_dec x y); split; intros; try done; lra. Qed.
Lemma lt_false x y : nlt reals x y = false ↔ y <= x.
Proof. cbn. destruct (Rlt_dec x y); split; intros; try done; lra. Qed.

Lemma grouping_step' {D} (near : D → D → bool) all ds o g rest gs :
  all = ds ++ [o] → List.filter (near o) ds = g → List.filter (λ d, negb (near o d)) ds = rest →
  grouping near rest gs → grouping near all ((o :: g) :: gs).
Proof. intros -> <- <- H. by constructor. Qed.

Definition near_by (threshold : R) (o d : det) : bool := nlt reals (distance2 (pt o) d) threshold.
Lemma clusters_of threshold ds gs : grouping (near_by threshold) ds gs →
  clusters threshold ds = Some (build o_uuid pt <$> gs).
Proof.
  intros H. apply (loop_grouping o_uuid pt (nlt reals) threshold distance2 ds gs H).
  destruct (grouping_exists (near_by threshold) ds) as (gs' & H' & Hl).
  by rewrite (grouping_unique _ _ _ _ H H').
Qed.

Definition uA : uuid := "a". Definition uB : uuid := "b". Definition uC : uuid := "c". Definition uD : uuid := "d".

Section Line.
  Context (T : R) (HT : 0 < T).
  Let s := sqrt T.
  Lemma s_sq : s * s = T. Proof. apply sqrt_sqrt. lra. Qed.
  Lemma s_pos : 0 < s. Proof. by apply sqrt_lt_R0. Qed.

  (** Three detections on a line: a - b - c with c the last one *)
  Lemma three_separated :
    let a := at_x uA (1.7 * s) 0 in let b := at_x uB (0.9 * s) 0 in let c := at_x uC 0 0 in
    distance2 (pt a) b < T ∧
    clusters T [a; b; c] = Some [build o_uuid pt [c; b]; build o_uuid pt [a]].
  Proof.
    intros a b c. pose proof s_sq as E. pose proof s_pos as P. split.
    { unfold a, b. rewrite distance2_line. nra. }
    assert (Hca : near_by T c a = false) by (apply lt_false; unfold c, a; rewrite distance2_line; nra).
    assert (Hcb : near_by T c b = true) by (apply lt_true; unfold c, b; rewrite distance2_line; nra).
    rewrite (clusters_of T [a; b; c] [[c; b]; [a]]); [done|].
    eapply (grouping_step' _ _ [a; b]); [done|cbn [List.filter]; by rewrite Hca, Hcb|cbn [List.filter]; by rewrite Hca, Hcb|].
    cbn [negb]. eapply (grouping_step' _ _ []); [done..|]. constructor.
  Qed.

  (** Four detections, two on one side of the origin and one on the other *)
  Lemma member_far_from_centroid :
    let a := at_x uA (0.9 * s) 0 in let b := at_x uB (0.9 * s) 0 in
    let c := at_x uC (- (0.9 * s)) 0 in let d := at_x uD 0 0 in
    ∃ q, clusters T [a; b; c; d] = Some [build o_uuid pt [d; a; b; c]] ∧
    detections (build o_uuid pt [d; a; b; c]) !! uC = Some c ∧
    get_centroid (A := reals) INR (build o_uuid pt [d; a; b; c]) = Ok q ∧
    T < distance2 q c.
  Proof.
    intros a b c d. pose proof s_sq as E. pose proof s_pos as P.
    assert (Hda : near_by T d a = true) by (apply lt_true; unfold d, a; rewrite distance2_line; nra).
    assert (Hdb : near_by T d b = true) by (apply lt_true; unfold d, b; rewrite distance2_line; nra).
    assert (Hdc : near_by T d c = true) by (apply lt_true; unfold d, c; rewrite distance2_line; nra).
    unfold get_centroid. destruct (decide _) as [Hn|_].
    { exfalso. apply (f_equal (lookup uC)) in Hn. rewrite build_lookup in Hn. done. }
    eexists. split; [|split; [by rewrite build_lookup|split; [done|]]].
    { rewrite (clusters_of T [a; b; c; d] [[d; a; b; c]]); [done|].
      eapply (grouping_step' _ _ [a; b; c]); [done|cbn [List.filter]; by rewrite Hda, Hdb, Hdc..|]. constructor. }
    assert (Es : size (detections (build o_uuid pt [d; a; b; c])) = 4%nat) by reflexivity.
    rewrite Es. set (q := point_div _ _). unfold c. rewrite distance2_heading.
    assert (Ex : p_x q = 0.9 * s / 4).
    { unfold q, build, point_div, add_detection. cbn. lra. }
    rewrite Ex. pose proof (Rle_0_sqr (p_y q)) as S1. pose proof (Rle_0_sqr (p_vel q)) as S2.
    pose proof (Rle_0_sqr (get_angle (p_yaw q) - get_angle (angleR 0))) as S3. pose proof (Rle_0_sqr (p_rate q)) as S4.
    unfold Rsqr in *. nra.
  Qed.
End Line.

(** The clusters made by the loop have tidy histories. *)
Lemma clusters_mean {D M} (d_uuid : D → uuid) (fields : D → point reals) (below : M → M → bool) thr metric ds cs :
  NoDup (d_uuid <$> ds) → cluster_loop d_uuid fields below thr metric (length ds) ds = Some cs →
  ∀ c q l, c ∈ cs → members c l → get_centroid (A := reals) INR c = Ok q →
  p_x q = (total (λ d, p_x (fields d)) l / INR (length l))%R ∧
  p_y q = (total (λ d, p_y (fields d)) l / INR (length l))%R ∧
  p_vel q = (total (λ d, p_vel (fields d)) l / INR (length l))%R ∧
  p_rate q = (total (λ d, p_rate (fields d)) l / INR (length l))%R.
Proof.
  intros Hn H c q l Hc Hm Hq. apply loop_sound in H as (gs & Hg & ->).
  apply elem_of_list_fmap in Hc as (g & -> & Hin).
  assert (E : build d_uuid fields g = run d_uuid fields (Add <$> g)).
  { unfold build, run. generalize (@empty_cluster reals D). clear. induction g as [|d g IH]; intros c; [done|]. cbn. apply IH. }
  rewrite E in Hm, Hq.
  assert (Hg' : NoDup (d_uuid <$> g)).
  { rewrite <- (grouping_perm _ _ _ Hg) in Hn. apply elem_of_list_split in Hin as (g1 & g2 & ->).
    rewrite concat_app, fmap_app in Hn. apply NoDup_app in Hn as (_ & _ & Hn).
    cbn in Hn. rewrite fmap_app in Hn. by apply NoDup_app in Hn as (Hn & _ & _). }
  destruct (centroid_mean d_uuid fields _ l q (tidy_adds d_uuid g Hg') Hm Hq) as (E1 & E2 & E3 & E4 & _). auto.
Qed.

(** A check for tidy histories *)
Fixpoint tidyb {D} (d_uuid : D → uuid) (in_it : list uuid) (h : list (op D)) : bool :=
  match h with
  | [] => true
  | Add d :: h' => bool_decide (d_uuid d ∉ in_it) && tidyb d_uuid (d_uuid d :: in_it) h'
  | Remove u :: h' => tidyb d_uuid (List.filter (λ v, bool_decide (v ≠ u)) in_it) h'
  | Clear :: _ => false
  end.
Lemma tidyb_ok {D} (d_uuid : D → uuid) h2 h1 in_it :
  tidy d_uuid h1 → (∀ u, present d_uuid h1 u → u ∈ in_it) → tidyb d_uuid in_it h2 = true → tidy d_uuid (h1 ++ h2).
Proof.
  revert h1 in_it. induction h2 as [|o h2 IH]; intros h1 in_it H1 Hi Hb; [by rewrite app_nil_r|].
  replace (h1 ++ o :: h2) with ((h1 ++ [o]) ++ h2) by (by rewrite <- app_assoc).
  destruct o as [d|u|]; cbn in Hb; [| |done].
  - apply andb_true_iff in Hb as [Hd Hb]. apply bool_decide_eq_true in Hd. eapply IH; [|clear IH|exact Hb].
    + destruct H1 as [Hc Ha]. split.
      * rewrite elem_of_app. intros [?|?%elem_of_list_singleton]; done.
      * intros a e b E. apply snoc_split in E as [(-> & [= ->] & ->)|(b' & -> & ->)].
        -- intros P. by apply Hd, Hi.
        -- by apply (Ha a e b').
    + intros u P. apply present_snoc in P as [(e & [= <-] & <-)|[P _]]; [by left|right; by apply Hi].
  - eapply IH; [|clear IH|exact Hb].
    + destruct H1 as [Hc Ha]. split.
      * rewrite elem_of_app. intros [?|?%elem_of_list_singleton]; done.
      * intros a e b E. apply snoc_split in E as [(-> & [=] & ->)|(b' & -> & ->)]. by apply (Ha a e b').
    + intros v P. apply present_snoc in P as [(e & [=] & _)|[P Hd]]. cbn in Hd.
      apply elem_of_list_In, filter_In. split; [by apply elem_of_list_In, Hi|].
      apply bool_decide_eq_true. congruence.
Qed.
Lemma tidy_by {D} (d_uuid : D → uuid) h : tidyb d_uuid [] h = true → tidy d_uuid h.
Proof.
  intros H. apply (tidyb_ok d_uuid h [] []); [|by intros u P%present_nil|done].
  split; [by intros ?%elem_of_nil|]. intros a d b E. by destruct a.
Qed.

Lemma members_insert {A D} (s s' : point A) (m : gmap uuid D) u d l : m !! u = None →
  members (Cluster s m) l → members (Cluster s' (<[u := d]> m)) (l ++ [d]).
Proof.
  unfold members. cbn [detections]. intros Hu ->. rewrite map_to_list_insert by done.
  rewrite fmap_cons. cbn [snd]. by rewrite Permutation_app_comm.
Qed.
Lemma members_two {A D} (s : point A) u1 u2 (d1 d2 : D) : u1 ≠ u2 →
  members (Cluster s (<[u2 := d2]> (<[u1 := d1]> ∅))) [d1; d2].
Proof.
  intros H. apply (members_insert s s _ u2 d2 [d1]); [by rewrite lookup_insert_ne, lookup_empty|].
  unfold members. cbn [detections]. by rewrite insert_empty, map_to_list_singleton.
Qed.

(** Two detections heading south *)
Lemma two_south : let d u := at_x u 0 (3 * PI / 2) in
  ∃ q, get_centroid (A := reals) INR (run o_uuid pt [Add (d uA); Add (d uB)]) = Ok q ∧ get_angle (p_yaw q) = PI / 2.
Proof.
  intros d. pose proof pi_bounds as PB. set (c := run o_uuid pt _).
  assert (Hm : members c [d uA; d uB]) by (by apply (members_two _ uA uB)).
  destruct (get_centroid (A := reals) INR c) as [q|e|] eqn:E.
  2, 3: unfold get_centroid in E; destruct (decide _) as [H|]; [|done];
        by apply (f_equal (lookup uA)) in H.
  exists q. split; [done|].
  destruct (centroid_mean o_uuid pt [Add (d uA); Add (d uB)] [d uA; d uB] q (tidy_by o_uuid [Add (d uA); Add (d uB)] eq_refl) Hm E) as (_ & _ & _ & _ & w & Hw & Hs & ->).
  assert (Hh : ∀ u, heading pt (d u) = 3 * PI / 2).
  { intros u. unfold heading, d, pt, ctrv_point, at_x. cbn [o_state v_yaw p_yaw]. apply get_angle_canonical. lra. }
  cbn [total foldr] in Hs. rewrite !Hh in Hs.
  assert (w = PI) as ->; [|cbn; lra]. apply wrap_unique; [done|lra|].
  eapply same_turn_trans; [exact Hs|]. exists 1%Z. lra.
Qed.

(** Headings on both sides of zero *)
Lemma seam_split (eps : R) : 0 < eps < 0.1 →
  let a := at_x uA 0 eps in let b := at_x uB 0 (- eps) in
  (get_angle (p_yaw (pt b)) = 2 * PI - eps ∧ get_angle (p_yaw (pt a)) = eps) ∧
  36 < distance2 (pt a) b ∧
  ∀ T, T <= 36 → ∃ cs, clusters T [a; b] = Some cs ∧ length cs = 2%nat.
Proof.
  intros He a b. pose proof pi_bounds as PB.
  assert (Ea : get_angle (p_yaw (pt a)) = eps) by (apply get_angle_canonical; lra).
  assert (Eb : get_angle (angleR (- eps)) = 2 * PI - eps).
  { rewrite (angle_of_turn (- eps) (2 * PI - eps)); [apply get_angle_canonical; lra|]. exists (-1)%Z. lra. }
  assert (Hd : 36 < distance2 (pt a) b).
  { unfold b. rewrite distance2_heading, Eb, Ea. unfold a, pt, ctrv_point, at_x.
    cbn [p_x p_y p_vel p_yaw p_rate o_state v_x v_y v_vel v_yaw v_rate]. nra. }
  assert (Hd' : 36 < distance2 (pt b) a).
  { unfold a. rewrite distance2_heading. change (p_yaw (pt b)) with (angleR (- eps)). rewrite Eb.
    change (angleR eps) with (p_yaw (pt a)). rewrite Ea. unfold b, pt, ctrv_point, at_x.
    cbn [p_x p_y p_vel p_yaw p_rate o_state v_x v_y v_vel v_yaw v_rate]. nra. }
  split; [by split|]. split; [done|]. intros T HT.
  assert (H : near_by T b a = false) by (apply lt_false; lra).
  eexists. split; [apply (clusters_of _ _ [[b]; [a]])|done].
  eapply (grouping_step' _ _ [a]); [done|cbn [List.filter]; by rewrite H..|].
  eapply (grouping_step' _ _ []); [done..|]. constructor.
Qed.
