(** Theorems about track matching. *)
From Coq Require Import String List ZArith NArith Permutation Arith Lia Bool Reals Lra.
From Flocq Require Import Core IEEE754.BinarySingleNaN.
From Verif Require Import Base Uuid OrdMap OrdFacts DynObj Float DlibMatrix Scoring Matching MatchingSpec
  AssignProofs FloatProofs MatchingProofs.
Import ListNotations.
Open Scope nat_scope.

(** ** Facts about score maps *)
Section Maps.
  Context {F : Type}.
  Implicit Types scores : score_map F.

  Lemma find_in scores k v : map_wf scores -> om_find pair_compare k scores = Some v <-> In (k, v) scores.
  Proof. intros H. apply (om_find_in _ pair_total). exact H. Qed.
  Lemma in_tracks scores t : In t (tracks_of scores) <-> exists d v, In ((t, d), v) scores.
  Proof.
    unfold tracks_of. rewrite nodup_In, in_map_iff. split.
    - intros ([[t' d] v] & <- & H). exists d, v. exact H.
    - intros (d & v & H). exists ((t, d), v). auto.
  Qed.
  Lemma in_detections scores d : In d (detections_of scores) <-> exists t v, In ((t, d), v) scores.
  Proof.
    unfold detections_of. rewrite nodup_In, in_map_iff. split.
    - intros ([[t d'] v] & <- & H). exists t, v. exact H.
    - intros (t & v & H). exists ((t, d), v). auto.
  Qed.
End Maps.

(** ** C26: one-to-one *)
Lemma gnn_one_to_one solve scores a :
  solver_ok solve -> small_map scores -> gnn_associator solve scores = Ok a ->
  om_wf bytes_compare a /\
  (forall t l, In (t, l) a -> exists d, l = [d]) /\
  one_to_one (assoc_pairs a) /\
  (forall t d, In (t, d) (assoc_pairs a) -> In t (tracks_of scores) /\ In d (detections_of scores)) /\
  length a = Nat.min (length (tracks_of scores)) (length (detections_of scores)) /\
  length (assoc_pairs a) = length a.
Proof.
  intros Hsolve Hsmall E.
  destruct (gnn_returns solve scores a Hsolve Hsmall E) as
    (m & ts & ds & costs & Mx & M & Es & Em & EM & Ec & Hnr & Hnc & Hel & -> & HM & Hopt & Hwf).
  destruct (uuid_sets_spec scores ts ds Es) as (W1 & W2 & I1 & I2).
  destruct (uuid_sets_length scores ts ds Es) as [L1 L2].
  split; [exact Hwf|]. split; [|split; [|split; [|split]]].
  - intros t l Hin. apply in_map_iff in Hin as ([i j] & [= <- <-] & _). eauto.
  - rewrite matched_pairs. apply (named_one_to_one ts ds costs); try assumption;
      apply (os_wf_nodup _ bytes_total); assumption.
  - intros t d Hin. rewrite matched_pairs in Hin. apply named_in in Hin as (i & j & Hij & -> & ->).
    destruct HM as (_ & Hb & _). destruct (Hb i j Hij) as [Hi Hj]. rewrite <- I1, <- I2.
    split; apply nth_In; ulia.
  - unfold matched. rewrite map_length. destruct HM as (_ & _ & HL). rewrite HL. ulia.
  - rewrite matched_pairs. unfold matched, named. rewrite !map_length. reflexivity.
Qed.

(** ** Definedness and costs (C32) *)

Lemma score_or_max_ordinary scores t d : map_wf scores -> (forall k v, In (k, v) scores -> ordinary v) ->
  ordinary (score_or_max scores t d).
Proof.
  intros Hw Ho. unfold score_or_max. destruct (om_find _ _ _) as [v|] eqn:E.
  - apply find_in in E; [|exact Hw]. apply (Ho _ _ E).
  - split; [reflexivity|]. pose proof flt_max_lower. pose proof (bpow_gt_0 radix2 127). lra.
Qed.

Lemma nonempty_sets scores ts ds : uuid_sets scores = (ts, ds) -> scores <> [] -> 0 < length ts /\ 0 < length ds.
Proof.
  intros Es Hne. destruct (uuid_sets_spec scores ts ds Es) as (_ & _ & I1 & I2).
  destruct scores as [|[[t d] v] l]; [contradiction|].
  assert (In t ts) as Ht by (apply I1, in_tracks; exists d, v; left; reflexivity).
  assert (In d ds) as Hd by (apply I2, in_detections; exists t, v; left; reflexivity).
  destruct ts; [destruct Ht|]. destruct ds; [destruct Hd|]. cbn. lia.
Qed.

Lemma index_of scores ts ds t d : uuid_sets scores = (ts, ds) -> In t (tracks_of scores) -> In d (detections_of scores) ->
  exists r c, r < length ts /\ c < length ds /\ nth r ts EmptyString = t /\ nth c ds EmptyString = d.
Proof.
  intros Es Ht Hd. destruct (uuid_sets_spec scores ts ds Es) as (_ & _ & I1 & I2).
  apply I1 in Ht. apply I2 in Hd. apply (In_nth _ _ EmptyString) in Ht as (r & Hr & Er).
  apply (In_nth _ _ EmptyString) in Hd as (c & Hc & Ec). exists r, c. auto.
Qed.

(** The matrices of a usable score map. *)
Lemma usable_costs scores ts ds : usable scores -> uuid_sets scores = (ts, ds) ->
  exists m Mx costs,
    score_matrix_from_score_map scores = Ok (m, ts, ds) /\ dlib_max m = Ok Mx /\
    cost_matrix_from_score_matrix m = Ok costs /\
    nr m = length ts /\ nc m = length ds /\ nr costs = length ts /\ nc costs = length ds /\
    is_finite Mx = true /\ (0 < B2R Mx)%R /\
    (exists t d, In t (tracks_of scores) /\ In d (detections_of scores) /\ Mx = score_or_max scores t d) /\
    (forall t d, In t (tracks_of scores) -> In d (detections_of scores) ->
       (B2R (score_or_max scores t d) <= B2R Mx)%R) /\
    forall r c, r < length ts -> c < length ds ->
      elem m r c = Some (score_or_max scores (nth r ts EmptyString) (nth c ds EmptyString)) /\
      elem costs r c = Some (cost_real (B2R (score_or_max scores (nth r ts EmptyString) (nth c ds EmptyString))) (B2R Mx)).
Proof.
  intros (Hw & Hne & Ho & Hpos) Es.
  destruct (uuid_sets_spec scores ts ds Es) as (W1 & W2 & I1 & I2).
  destruct (nonempty_sets scores ts ds Es Hne) as [P1 P2].
  destruct (score_matrix_spec scores ts ds Es) as (m & Em & Hmr & Hmc & Hm).
  assert (initialised m) as Hini.
  { intros i j Hi Hj. rewrite Hm by ulia. eexists. reflexivity. }
  destruct (dlib_max_spec m Hini) as (Mx & EM & (i0 & j0 & Hi0 & Hj0 & Hij0) & Hmax); [ulia|ulia| |].
  { intros i j v Hi Hj Hv. rewrite Hm in Hv by ulia. injection Hv as <-.
    apply (score_or_max_ordinary scores _ _ Hw Ho). }
  rewrite Hm in Hij0 by ulia. injection Hij0 as EMx.
  assert (ordinary Mx) as [HMf HM0] by (rewrite <- EMx; apply score_or_max_ordinary; assumption).
  assert (forall t d, In t (tracks_of scores) -> In d (detections_of scores) ->
       (B2R (score_or_max scores t d) <= B2R Mx)%R) as Hle.
  { intros t d Ht Hd. destruct (index_of scores ts ds t d Es Ht Hd) as (r & c & Hr & Hc & <- & <-).
    apply (Hmax r c); [ulia|ulia|]. apply Hm; assumption. }
  assert (0 < B2R Mx)%R as HMpos.
  { destruct Hpos as [([t d] & v & Hin & Hv)|(t & d & Ht & Hd & Hno)].
    - assert (In t (tracks_of scores)) as Ht by (apply in_tracks; eauto).
      assert (In d (detections_of scores)) as Hd by (apply in_detections; eauto).
      specialize (Hle t d Ht Hd). unfold score_or_max in Hle.
      apply find_in in Hin; [|exact Hw]. rewrite Hin in Hle. lra.
    - specialize (Hle t d Ht Hd). unfold score_or_max in Hle.
      destruct (om_find _ _ _) as [v|] eqn:E in Hle.
      + apply find_in in E; [|exact Hw]. destruct (Hno _ E).
      + pose proof flt_max_lower. pose proof (bpow_gt_0 radix2 127). lra. }
  assert (forall r c, r < length ts -> c < length ds ->
    scaled_cost (score_or_max scores (nth r ts EmptyString) (nth c ds EmptyString)) Mx =
    Ok (cost_real (B2R (score_or_max scores (nth r ts EmptyString) (nth c ds EmptyString))) (B2R Mx))) as Hsc.
  { intros r c Hr Hc. apply scaled_cost_real; [apply score_or_max_ordinary; assumption|exact HMf|exact HMpos|].
    apply Hle; [apply I1|apply I2]; apply nth_In; ulia. }
  destruct (cost_matrix_total m Mx Hini EM) as (costs & Ec).
  { intros r c v Hr Hc Hv. rewrite Hm in Hv by ulia. injection Hv as <-. eexists. apply Hsc; ulia. }
  destruct (cost_matrix_partial m costs Ec) as (Mx' & EM' & Hnr & Hnc & Hel).
  rewrite EM in EM'. injection EM' as <-.
  exists m, Mx, costs. split; [exact Em|]. split; [exact EM|]. split; [exact Ec|].
  do 4 (split; [ulia|]). split; [exact HMf|]. split; [exact HMpos|]. split; [|split; [exact Hle|]].
  - exists (nth i0 ts EmptyString), (nth j0 ds EmptyString).
    split; [apply I1, nth_In; ulia|]. split; [apply I2, nth_In; ulia|]. symmetry. exact EMx.
  - intros r c Hr Hc. split; [apply Hm; assumption|].
    destruct (Hel r c) as (v & z & Hv & Hz & He); [ulia|ulia|]. rewrite Hm in Hv by ulia. injection Hv as <-.
    rewrite Hsc in Hz by assumption. injection Hz as <-. exact He.
Qed.

Lemma usable_defined solve scores : solver_ok solve -> small_map scores -> usable scores ->
  exists a, gnn_associator solve scores = Ok a.
Proof.
  intros Hsolve Hsmall Hu. destruct (uuid_sets scores) as [ts ds] eqn:Es.
  destruct (usable_costs scores ts ds Hu Es) as
    (m & Mx & costs & Em & EM & Ec & Hmr & Hmc & Hnr & Hnc & _ & _ & _ & _ & Hel).
  destruct (gnn_after_costs solve scores m ts ds costs Hsolve Hsmall Es Em Ec Hnr Hnc) as (M & E & _).
  - intros i j Hi Hj. destruct (Hel i j) as [_ He]; [ulia|ulia|]. eauto.
  - eauto.
Qed.

Lemma usable_cost_matrix scores : usable scores ->
  exists m ts ds costs,
    score_matrix_from_score_map scores = Ok (m, ts, ds) /\ cost_matrix_from_score_matrix m = Ok costs /\
    nr costs = nr m /\ nc costs = nc m /\
    (forall r c, r < nr m -> c < nc m -> exists z, elem costs r c = Some z /\ (0 <= z <= 100000000)%Z) /\
    (forall r c r' c' v v' z z', r < nr m -> c < nc m -> r' < nr m -> c' < nc m ->
       elem m r c = Some v -> elem m r' c' = Some v' -> elem costs r c = Some z -> elem costs r' c' = Some z' ->
       (B2R v <= B2R v')%R -> (z' <= z)%Z).
Proof.
  intros Hu. destruct (uuid_sets scores) as [ts ds] eqn:Es.
  destruct (uuid_sets_spec scores ts ds Es) as (W1 & W2 & I1 & I2).
  destruct (usable_costs scores ts ds Hu Es) as
    (m & Mx & costs & Em & EM & Ec & Hmr & Hmc & Hnr & Hnc & HMf & HMpos & _ & Hle & Hel).
  exists m, ts, ds, costs. split; [exact Em|]. split; [exact Ec|]. split; [ulia|]. split; [ulia|]. split.
  - intros r c Hr Hc. destruct (Hel r c) as [_ He]; [ulia|ulia|]. eexists. split; [exact He|].
    apply cost_bounds; [|exact HMpos]. destruct Hu as (Hw & _ & Ho & _).
    split; [apply score_or_max_ordinary; assumption|]. apply Hle; [apply I1|apply I2]; apply nth_In; ulia.
  - intros r c r' c' v v' z z' Hr Hc Hr' Hc' Hv Hv' Hz Hz' Hvv.
    destruct (Hel r c) as [Hm Hcst]; [ulia|ulia|]. destruct (Hel r' c') as [Hm' Hcst']; [ulia|ulia|].
    rewrite Hm in Hv. rewrite Hm' in Hv'. rewrite Hcst in Hz. rewrite Hcst' in Hz'.
    injection Hv as <-. injection Hv' as <-. injection Hz as <-. injection Hz' as <-.
    apply cost_antitone; assumption.
Qed.

(** ** C27: optimality *)
Lemma Rsum_app l l' : Rsum (l ++ l') = (Rsum l + Rsum l')%R.
Proof. unfold Rsum. induction l as [|x l IH]; cbn; [lra|rewrite IH; lra]. Qed.

Lemma sum_error {A} (z : A -> Z) (s : A -> R) (top : R) (l : list A) :
  (0 < top)%R ->
  (forall x, In x l -> (- 11 < IZR (z x) - 100000000 * (1 - s x / top) < 10)%R) ->
  (- 11 * INR (length l) <= IZR (Zsum (map z l)) - 100000000 * (INR (length l) - Rsum (map s l) / top)
    <= 10 * INR (length l))%R.
Proof.
  intros Htop. induction l as [|x l IH]; intros H; cbn [map length].
  - cbn. unfold Rsum, Zsum. cbn. unfold Rdiv. lra.
  - specialize (IH (fun y Hy => H y (or_intror Hy))). specialize (H x (or_introl eq_refl)).
    change (Zsum (z x :: map z l)) with (z x + Zsum (map z l))%Z.
    change (Rsum (s x :: map s l)) with (s x + Rsum (map s l))%R.
    rewrite plus_IZR, S_INR. unfold Rdiv in *. rewrite Rmult_plus_distr_r. lra.
Qed.

Lemma gnn_optimal solve scores :
  solver_ok solve -> small_map scores -> map_wf scores -> complete scores ->
  (forall k v, In (k, v) scores -> ordinary v) ->
  (exists k v, In (k, v) scores /\ (0 < B2R v)%R) ->
  exists a, gnn_associator solve scores = Ok a /\
    forall l top,
      one_to_one l -> length l = length (assoc_pairs a) ->
      (forall t d, In (t, d) l -> exists v, In ((t, d), v) scores) ->
      (exists k v, In (k, v) scores /\ top = B2R v) ->
      (forall k v, In (k, v) scores -> (B2R v <= top)%R) ->
      (total_score scores (assoc_pairs a) <=
       total_score scores l + 21 / 100000000 * top * INR (length (assoc_pairs a)))%R.
Proof.
  intros Hsolve Hsmall Hw Hcomp Ho Hpos.
  assert (usable scores) as Hu.
  { split; [exact Hw|]. split; [|split; [exact Ho|left; exact Hpos]].
    destruct Hpos as (k & v & Hin & _). intros ->. destruct Hin. }
  destruct (uuid_sets scores) as [ts ds] eqn:Es.
  destruct (uuid_sets_spec scores ts ds Es) as (W1 & W2 & I1 & I2).
  destruct (usable_costs scores ts ds Hu Es) as
    (m & Mx & costs & Em & EM & Ec & Hmr & Hmc & Hnr & Hnc & HMf & HMpos & (tm & dm & Htm & Hdm & EMx) & Hle & Hel).
  destruct (gnn_after_costs solve scores m ts ds costs Hsolve Hsmall Es Em Ec Hnr Hnc) as (M & E & HM & Hopt & _).
  { intros i j Hi Hj. destruct (Hel i j) as [_ He]; [ulia|ulia|]. eauto. }
  exists (matched ts ds M). split; [exact E|].
  intros l top Hone Hlen Hl (kt & vt & Htin & Htop) Hbound. rewrite matched_pairs in *.
  (* the pairs of the competing association as positions *)
  assert (length l = length M) as HLM by (rewrite Hlen; unfold named; apply map_length).
  destruct (named_full ts ds costs l Hnr Hnc) as (M' & -> & HM').
  { intros t d Hin. destruct (Hl t d Hin) as (v & Hv). rewrite I1, I2, in_tracks, in_detections.
    split; [exists d, v|exists t, v]; exact Hv. }
  { exact Hone. }
  { rewrite HLM. destruct HM as (_ & _ & HL). ulia. }
  (* the largest score *)
  assert (forall t d, In t (tracks_of scores) -> In d (detections_of scores) ->
    B2R (score_or_max scores t d) = score_of scores (t, d) /\ exists v, In ((t, d), v) scores /\ score_of scores (t, d) = B2R v) as Hsc.
  { intros t d Ht Hd. destruct (Hcomp t d Ht Hd) as (v & Hv). unfold score_or_max, score_of.
    pose proof Hv as Hv'. apply find_in in Hv'; [|exact Hw]. rewrite Hv'. eauto. }
  assert (B2R Mx = top) as Etop.
  { apply Rle_antisym.
    - rewrite EMx. destruct (Hsc tm dm Htm Hdm) as (-> & v & Hv & ->). apply (Hbound _ _ Hv).
    - destruct kt as [tt dt]. rewrite Htop.
      assert (In tt (tracks_of scores)) as Ht by (apply in_tracks; eauto).
      assert (In dt (detections_of scores)) as Hd by (apply in_detections; eauto).
      specialize (Hle tt dt Ht Hd). rewrite (proj1 (Hsc tt dt Ht Hd)) in Hle.
      unfold score_of in Hle. apply find_in in Htin; [|exact Hw]. rewrite Htin in Hle. exact Hle. }
  rewrite Etop in *.
  set (s := fun ij : nat * nat => score_of scores (nth (fst ij) ts EmptyString, nth (snd ij) ds EmptyString)).
  assert (forall L, (forall i j, In (i, j) L -> i < nr costs /\ j < nc costs) ->
    (- 11 * INR (length L) <= IZR (Zsum (map (entry_of costs) L)) - 100000000 * (INR (length L) - Rsum (map s L) / top)
    <= 10 * INR (length L))%R) as Herr.
  { intros L HL. apply sum_error; [exact HMpos|]. intros [i j] Hij. destruct (HL i j Hij) as [Hi Hj].
    destruct (Hel i j) as [_ He]; [ulia|ulia|]. unfold entry_of. cbn [fst snd]. rewrite He. unfold s. cbn [fst snd].
    assert (In (nth i ts EmptyString) (tracks_of scores)) as Ht by (apply I1, nth_In; ulia).
    assert (In (nth j ds EmptyString) (detections_of scores)) as Hd by (apply I2, nth_In; ulia).
    destruct (Hsc _ _ Ht Hd) as (Es1 & v & Hv & Es2). rewrite Es1.
    apply cost_error; [|exact HMpos]. split.
    - rewrite Es2. apply (Ho _ _ Hv).
    - rewrite Es2. apply (Hbound _ _ Hv). }
  pose proof (Herr M (proj1 (proj2 HM))) as E1. pose proof (Herr M' (proj1 (proj2 HM'))) as E2.
  pose proof (IZR_le _ _ (Hopt M' HM')) as Hz.
  assert (forall L, total_score scores (named ts ds L) = Rsum (map s L)) as Htot.
  { intros L. unfold total_score, named. rewrite map_map. reflexivity. }
  rewrite !Htot. unfold named in *. rewrite !map_length in *. rewrite Hlen in E2.
  set (n := INR (length M)) in *. set (A := Rsum (map s M)) in *. set (B := Rsum (map s M')) in *.
  assert (A / top - B / top <= 21 / 100000000 * n)%R as Hd by lra.
  apply (Rmult_le_compat_r top) in Hd; [|lra]. unfold Rdiv in Hd at 1 2.
  rewrite Rmult_minus_distr_r, !Rmult_assoc, Rinv_l, !Rmult_1_r in Hd by lra. lra.
Qed.

(** ** C29: with a missing pair the values do not matter *)
Lemma for_range_ext {S} lo hi (b b' : nat -> S -> result S) s :
  (forall i s, lo <= i < hi -> b i s = b' i s) -> for_range lo hi b s = for_range lo hi b' s.
Proof.
  unfold for_range. remember (hi - lo) as k eqn:Hk. revert lo Hk s. induction k as [|k IH]; intros lo Hk s H; [reflexivity|].
  cbn. rewrite H by lia. destruct (b' lo s) as [s1| |]; cbn; [|reflexivity|reflexivity].
  apply IH; [lia|]. intros i s2 Hi. apply H. lia.
Qed.


Lemma missing_usable scores : map_wf scores -> missing_pair scores ->
  (forall k v, In (k, v) scores -> ordinary v) -> usable scores.
Proof.
  intros Hw Hm Ho. split; [exact Hw|]. split; [|split; [exact Ho|right; exact Hm]].
  destruct Hm as (t & d & Ht & _). intros ->. destruct Ht.
Qed.

(** The cost matrix in this case: 0 for missing pairs, 10^8 for the others. *)
Lemma missing_costs scores ts ds : map_wf scores -> missing_pair scores ->
  (forall k v, In (k, v) scores -> ordinary v /\ small_score v) -> uuid_sets scores = (ts, ds) ->
  exists m Mx, score_matrix_from_score_map scores = Ok (m, ts, ds) /\ dlib_max m = Ok Mx /\
    nr m = length ts /\ nc m = length ds /\
    forall r c, r < length ts -> c < length ds ->
      (let* score := mat_get m r c in scaled_cost score Mx) =
      Ok (match om_find pair_compare (nth r ts EmptyString, nth c ds EmptyString) scores with
          | Some _ => 100000000%Z | None => 0%Z end).
Proof.
  intros Hw Hmiss Ho Es.
  assert (usable scores) as Hu by (apply missing_usable; try assumption; intros k v H; apply (Ho k v H)).
  destruct (usable_costs scores ts ds Hu Es) as
    (m & Mx & costs & Em & EM & Ec & Hmr & Hmc & Hnr & Hnc & HMf & HMpos & _ & Hle & Hel).
  assert (B2R Mx = B2R flt_max) as EMx.
  { apply Rle_antisym; [apply flt_max_upper|]. destruct Hmiss as (t & d & Ht & Hd & Hno).
    specialize (Hle t d Ht Hd). unfold score_or_max in Hle. destruct (om_find _ _ _) as [v|] eqn:E in Hle; [|exact Hle].
    apply find_in in E; [|exact Hw]. destruct (Hno _ E). }
  exists m, Mx. do 2 (split; [assumption|]). do 2 (split; [ulia|]).
  intros r c Hr Hc. destruct (Hel r c Hr Hc) as [Hm Hcst].
  rewrite (mat_get_ok m r c _ ltac:(ulia) ltac:(ulia) Hm). cbn [rbind].
  rewrite scaled_cost_real; [|apply score_or_max_ordinary; [exact Hw|apply Hu]|exact HMf|exact HMpos|rewrite EMx; apply flt_max_upper].
  rewrite EMx. f_equal. unfold score_or_max. destruct (om_find _ _ _) as [v|] eqn:E.
  - apply find_in in E; [|exact Hw]. apply cost_of_ordinary. destruct (Ho _ _ E) as [[_ H0] H1]. split; assumption.
  - apply cost_of_missing. rewrite <- EMx. exact HMpos.
Qed.

Lemma missing_cost_entries scores ts ds : map_wf scores -> missing_pair scores ->
  (forall k v, In (k, v) scores -> ordinary v /\ small_score v) -> uuid_sets scores = (ts, ds) ->
  exists m costs, score_matrix_from_score_map scores = Ok (m, ts, ds) /\
    cost_matrix_from_score_matrix m = Ok costs /\ nr costs = length ts /\ nc costs = length ds /\
    forall r c, r < length ts -> c < length ds ->
      elem costs r c = Some (match om_find pair_compare (nth r ts EmptyString, nth c ds EmptyString) scores with
          | Some _ => 100000000%Z | None => 0%Z end).
Proof.
  intros Hw Hmiss Ho Es. destruct (missing_costs scores ts ds Hw Hmiss Ho Es) as (m & Mx & Em & EM & Hnr & Hnc & Hf).
  assert (initialised m) as Hini.
  { intros i j Hi Hj. specialize (Hf i j ltac:(ulia) ltac:(ulia)). unfold mat_get in Hf.
    destruct (_ && _); [|discriminate]. destruct (elem m i j) as [v|]; [eauto|discriminate]. }
  destruct (cost_matrix_total m Mx Hini EM) as (costs & Ec).
  { intros r c v Hr Hc Hv. specialize (Hf r c ltac:(ulia) ltac:(ulia)). rewrite (mat_get_ok m r c v Hr Hc Hv) in Hf. eauto. }
  destruct (cost_matrix_partial m costs Ec) as (Mx' & EM' & Hnr' & Hnc' & Hel). rewrite EM in EM'. injection EM' as <-.
  exists m, costs. do 2 (split; [assumption|]). do 2 (split; [ulia|]). intros r c Hr Hc.
  destruct (Hel r c ltac:(ulia) ltac:(ulia)) as (v & z & Hv & Hz & He). rewrite He. f_equal.
  specialize (Hf r c Hr Hc). rewrite (mat_get_ok m r c v ltac:(ulia) ltac:(ulia) Hv) in Hf. cbn [rbind] in Hf.
  rewrite Hz in Hf. injection Hf as ->. reflexivity.
Qed.

Lemma find_same_keys {F} (s s' : score_map F) k : map fst s = map fst s' ->
  match om_find pair_compare k s with Some _ => true | None => false end =
  match om_find pair_compare k s' with Some _ => true | None => false end.
Proof.
  revert s'; induction s as [|[k0 v0] s IH]; intros [|[k1 v1] s'] E; try discriminate; [reflexivity|].
  cbn in E. injection E as -> E. cbn. destruct (pair_compare k k1); [reflexivity|reflexivity|apply IH, E].
Qed.

Lemma uuid_sets_keys (s s' : score_map f32) : map fst s = map fst s' -> uuid_sets s = uuid_sets s'.
Proof.
  unfold uuid_sets. generalize (@pair (list string) (list string) [] []). revert s'.
  induction s as [|[k v] s IH]; intros [|[k' v'] s'] [a b] E; try discriminate; [reflexivity|].
  cbn in E. injection E as -> E. cbn [fold_left fst]. apply IH, E.
Qed.

Lemma gnn_ignores_values solve s s' :
  map_wf s -> map fst s = map fst s' -> missing_pair s ->
  (forall k v, In (k, v) s -> ordinary v /\ small_score v) ->
  (forall k v, In (k, v) s' -> ordinary v /\ small_score v) ->
  gnn_associator solve s = gnn_associator solve s'.
Proof.
  intros Hw Hk Hmiss Ho Ho'. destruct (uuid_sets s) as [ts ds] eqn:Es.
  pose proof Es as Es'. rewrite (uuid_sets_keys s s' Hk) in Es'.
  assert (map_wf s') as Hw' by (unfold map_wf, om_wf in *; rewrite <- Hk; exact Hw).
  assert (forall k, (exists v, In (k, v) s) <-> (exists v, In (k, v) s')) as Hin.
  { intros k. assert (forall (x : score_map f32), (exists v, In (k, v) x) <-> In k (map fst x)) as G.
    { intros x. rewrite in_map_iff. split; [intros [v H]; exists (k, v); auto|intros ([k1 v] & <- & H); eauto]. }
    rewrite !G, Hk. tauto. }
  assert (missing_pair s') as Hmiss'.
  { destruct Hmiss as (t & d & Ht & Hd & Hno). exists t, d. rewrite in_tracks in *. rewrite in_detections in *.
    split; [|split].
    - destruct Ht as (d' & v & H). exists d'. apply Hin. eauto.
    - destruct Hd as (t' & v & H). exists t'. apply Hin. eauto.
    - intros v H. destruct (proj2 (Hin (t, d))) as [v' Hv']; [eauto|]. apply (Hno _ Hv'). }
  destruct (missing_costs s ts ds Hw Hmiss Ho Es) as (m & Mx & Em & EM & Hnr & Hnc & Hf).
  destruct (missing_costs s' ts ds Hw' Hmiss' Ho' Es') as (m' & Mx' & Em' & EM' & Hnr' & Hnc' & Hf').
  unfold gnn_associator. rewrite Em, Em'. cbn [rbind].
  assert (cost_matrix_from_score_matrix m = cost_matrix_from_score_matrix m') as ->; [|reflexivity].
  unfold cost_matrix_from_score_matrix. rewrite EM, EM'. cbn [rbind]. rewrite Hnr, Hnc, Hnr', Hnc'.
  apply for_range_ext. intros r x Hr. apply for_range_ext. intros c x' Hc.
  specialize (Hf r c ltac:(ulia) ltac:(ulia)). specialize (Hf' r c ltac:(ulia) ltac:(ulia)).
  pose proof (find_same_keys s s' (nth r ts EmptyString, nth c ds EmptyString) Hk) as Hsame.
  assert (forall v (y : result Z), (let* score := v in scaled_cost score Mx) = y ->
    (let* score := v in let* cost := scaled_cost score Mx in mat_set x' r c cost) = let* cost := y in mat_set x' r c cost) as G1.
  { intros [v| |] y <-; reflexivity. }
  assert (forall v (y : result Z), (let* score := v in scaled_cost score Mx') = y ->
    (let* score := v in let* cost := scaled_cost score Mx' in mat_set x' r c cost) = let* cost := y in mat_set x' r c cost) as G2.
  { intros [v| |] y <-; reflexivity. }
  rewrite (G1 _ _ Hf), (G2 _ _ Hf').
  destruct (om_find pair_compare _ s), (om_find pair_compare _ s'); try discriminate; reflexivity.
Qed.

(** ** With a missing pair, as many associated pairs as possible have a score *)

Lemma gnn_max_scored solve scores a :
  solver_ok solve -> small_map scores -> map_wf scores -> missing_pair scores ->
  (forall k v, In (k, v) scores -> ordinary v /\ small_score v) ->
  gnn_associator solve scores = Ok a ->
  forall l, one_to_one l -> length l = length (assoc_pairs a) ->
    (forall t d, In (t, d) l -> In t (tracks_of scores) /\ In d (detections_of scores)) ->
    length (filter (scored scores) l) <= length (filter (scored scores) (assoc_pairs a)).
Proof.
  intros Hsolve Hsmall Hw Hmiss Ho E l Hone Hlen Hl. destruct (uuid_sets scores) as [ts ds] eqn:Es.
  destruct (uuid_sets_spec scores ts ds Es) as (W1 & W2 & I1 & I2).
  destruct (missing_cost_entries scores ts ds Hw Hmiss Ho Es) as (m & costs & Em & Ec & Hnr & Hnc & Hel).
  destruct (gnn_after_costs solve scores m ts ds costs Hsolve Hsmall Es Em Ec Hnr Hnc) as (M & E' & HM & Hopt & _).
  { intros i j Hi Hj. rewrite Hel by ulia. eauto. }
  rewrite E' in E. injection E as <-. rewrite matched_pairs in *.
  assert (length l = length M) as HLM by (rewrite Hlen; unfold named; apply map_length).
  destruct (named_full ts ds costs l Hnr Hnc) as (M' & -> & HM').
  { intros t d Hin. rewrite I1, I2. apply Hl, Hin. }
  { exact Hone. }
  { rewrite HLM. destruct HM as (_ & _ & HL). ulia. }
  assert (forall L, (forall i j, In (i, j) L -> i < nr costs /\ j < nc costs) ->
    Zsum (map (entry_of costs) L) = (100000000 * Z.of_nat (length (filter (scored scores) (named ts ds L))))%Z) as Hsum.
  { intros L HL. unfold Zsum. induction L as [|[i j] L IH]; [reflexivity|].
    cbn [map fold_right named filter]. rewrite IH by (intros; apply HL; right; assumption).
    destruct (HL i j) as [Hi Hj]; [left; reflexivity|]. unfold entry_of at 1. cbn [fst snd]. rewrite Hel by ulia.
    unfold scored at 2. fold (named ts ds L). destruct (om_find _ _ _); cbn [length]; lia. }
  specialize (Hopt M' HM'). rewrite !Hsum in Hopt; [lia|apply HM|apply HM'].
Qed.

(** ** C31 *)
Lemma gnn_empty_ub solve : gnn_associator solve [] = UB.
Proof. reflexivity. Qed.

Lemma zero_cost_ub (x y : f32) : is_finite x = true -> is_finite y = true -> B2R x = 0%R -> B2R y = 0%R -> scaled_cost x y = UB.
Proof.
  assert (forall z : f32, is_finite z = true -> B2R z = 0%R -> exists s, z = B754_zero s) as Hz.
  { intros [s|s| |s m e Hb] Hf H0; try discriminate; [eauto|]. exfalso. cbn in H0.
    apply eq_0_F2R in H0. destruct s; discriminate. }
  intros Fx Fy Hx Hy. destruct (Hz x Fx Hx) as [sx ->], (Hz y Fy Hy) as [sy ->]. destruct sx, sy; reflexivity.
Qed.

Lemma gnn_zero_ub solve scores : map_wf scores -> scores <> [] -> complete scores ->
  (forall k v, In (k, v) scores -> is_finite v = true /\ B2R v = 0%R) -> gnn_associator solve scores = UB.
Proof.
  intros Hw Hne Hcomp Hz. destruct (uuid_sets scores) as [ts ds] eqn:Es.
  destruct (uuid_sets_spec scores ts ds Es) as (W1 & W2 & I1 & I2).
  destruct (nonempty_sets scores ts ds Es Hne) as [P1 P2].
  destruct (score_matrix_spec scores ts ds Es) as (m & Em & Hmr & Hmc & Hm).
  assert (forall r c, r < length ts -> c < length ds -> exists v, elem m r c = Some v /\ is_finite v = true /\ B2R v = 0%R) as Hv.
  { intros r c Hr Hc. rewrite Hm by assumption. eexists. split; [reflexivity|].
    destruct (Hcomp (nth r ts EmptyString) (nth c ds EmptyString)) as (v & Hin).
    - apply I1, nth_In; exact Hr.
    - apply I2, nth_In; exact Hc.
    - unfold score_or_max. apply find_in in Hin; [|exact Hw]. destruct (om_find _ _ _) as [w|] eqn:Ew.
      + apply find_in in Ew; [|exact Hw]. apply (Hz _ _ Ew).
      + discriminate. }
  assert (initialised m) as Hini.
  { intros i j Hi Hj. destruct (Hv i j) as (v & E & _); [ulia|ulia|]. eauto. }
  destruct (dlib_max_spec m Hini) as (Mx & EM & (i0 & j0 & Hi0 & Hj0 & Hij0) & _); [ulia|ulia| |].
  { intros i j v Hi Hj E. destruct (Hv i j) as (v' & E' & F & _); [ulia|ulia|]. congruence. }
  destruct (Hv i0 j0) as (v' & E' & FM & ZM); [ulia|ulia|]. rewrite E' in Hij0. injection Hij0 as ->.
  unfold gnn_associator. rewrite Em. cbn [rbind].
  assert (cost_matrix_from_score_matrix m = UB) as ->; [|reflexivity].
  unfold cost_matrix_from_score_matrix. rewrite EM. cbn [rbind].
  destruct (Hv 0 0 P1 P2) as (v0 & E0 & F0 & Z0).
  unfold for_range at 1. destruct (nr m) as [|R] eqn:ER; [ulia|]. cbn [Nat.sub for_loop].
  unfold for_range at 1. destruct (nc m) as [|C] eqn:EC; [ulia|]. cbn [Nat.sub for_loop].
  rewrite (mat_get_ok m 0 0 v0) by (try lia; exact E0). cbn [rbind]. rewrite zero_cost_ub by assumption. reflexivity.
Qed.

(** ** C35 *)
Lemma get_element_at_spec s i : os_wf bytes_compare s ->
  (forall x, get_element_at s i = Ok x <-> In x s /\ N.of_nat (length (filter (fun y => uuid_ltb y x) s)) = i) /\
  (get_element_at s i = Throw out_of_range <-> (N.of_nat (length s) <= i)%N).
Proof.
  intros Hw.
  assert (forall n, n < length s -> length (filter (fun y => uuid_ltb y (nth n s EmptyString)) s) = n) as Hrank.
  { clear i. induction s as [|a s IH]; intros n Hn; [cbn in Hn; lia|].
    apply (os_wf_cons _ bytes_total) in Hw as [H1 H2]. cbn [length] in Hn. destruct n as [|n].
    - cbn [nth]. cbn [filter]. unfold uuid_ltb at 1. rewrite (cmp_refl _ bytes_total).
      rewrite filter_none; [reflexivity|]. intros x Hx. unfold uuid_ltb.
      rewrite (proj2 (cmp_gt_lt _ bytes_total x a) (H1 x Hx)). reflexivity.
    - cbn [nth filter]. unfold uuid_ltb at 1. rewrite H1 by (apply nth_In; lia). cbn [length]. rewrite IH by (auto; lia). reflexivity. }
  unfold get_element_at. split.
  - intros x. destruct (N.leb_spec (N.of_nat (length s)) i) as [Hge|Hlt].
    + split; [discriminate|]. intros [Hx Hi]. exfalso.
      apply (In_nth _ _ EmptyString) in Hx as (n & Hn & <-). rewrite Hrank in Hi by exact Hn. unfold uuid in *; lia.
    + rewrite (nth_lookup s (N.to_nat i) EmptyString) by (unfold uuid in *; lia). split.
      * intros [= <-]. split; [apply nth_In; unfold uuid in *; lia|]. rewrite Hrank by (unfold uuid in *; lia). apply N2Nat.id.
      * intros [Hx Hi]. apply (In_nth _ _ EmptyString) in Hx as (n & Hn & <-). rewrite Hrank in Hi by exact Hn.
        subst i. rewrite Nat2N.id. reflexivity.
  - destruct (N.leb_spec (N.of_nat (length s)) i) as [Hge|Hlt]; [split; auto|].
    split; [|intros; lia]. destruct (nth_error s (N.to_nat i)); discriminate.
Qed.

(** ** C34 *)
Lemma ha_spec a : forall h,
  (forall u, In u (associated_tracks (fold_left (fun h '(track_uuid, detection_uuids) =>
    HasAssociation (track_uuid :: associated_tracks h) (detection_uuids ++ associated_detections h)) a h)) <->
    In u (associated_tracks h) \/ exists l, In (u, l) a) /\
  (forall u, In u (associated_detections (fold_left (fun h '(track_uuid, detection_uuids) =>
    HasAssociation (track_uuid :: associated_tracks h) (detection_uuids ++ associated_detections h)) a h)) <->
    In u (associated_detections h) \/ exists t l, In (t, l) a /\ In u l).
Proof.
  induction a as [|[t l] a IH]; intros h; cbn [fold_left].
  - split; intros u; (split; [auto|]); intros [H|H]; [exact H|destruct H as [l []]|exact H|destruct H as (t & l & [] & _)].
  - destruct (IH (HasAssociation (t :: associated_tracks h) (l ++ associated_detections h))) as [IH1 IH2].
    cbn [associated_tracks associated_detections] in *. split; intros u.
    + rewrite IH1. cbn [In]. split.
      * intros [[->|H]|[l' H]]; [right; exists l; auto|auto|right; exists l'; auto].
      * intros [H|[l' [[= -> ->]|H]]]; [auto|auto|right; exists l'; exact H].
    + rewrite IH2, in_app_iff. cbn [In]. split.
      * intros [[H|H]|(t' & l' & H & Hu)]; [right; exists t, l; auto|auto|right; exists t', l'; auto].
      * intros [H|(t' & l' & [[= -> ->]|H] & Hu)]; [auto|auto|right; exists t', l'; auto].
Qed.
Lemma set_count_in u s : set_count u s = true <-> In u s.
Proof.
  unfold set_count. rewrite existsb_exists. unfold uuid_eqb. split.
  - intros (x & Hx & E). destruct (bytes_compare u x) eqn:Ec; try discriminate. apply bytes_compare_eq in Ec as ->. exact Hx.
  - intros H. exists u. split; [exact H|]. rewrite (cmp_refl _ bytes_total). reflexivity.
Qed.
