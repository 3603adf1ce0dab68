(** From score maps to associations. *)
From Coq Require Import String List ZArith NArith Permutation Arith Lia Bool Reals Lra.
From Flocq Require Import Core IEEE754.BinarySingleNaN.
From Verif Require Import Base Uuid OrdMap OrdFacts Float DlibMatrix Scoring Matching MatchingSpec
  AssignProofs FloatProofs.
Import ListNotations.
Open Scope nat_scope.

(** ** The sets of uuids *)
Section Sets.
  Context (scores : score_map f32).

  Lemma uuid_sets_spec ts ds : uuid_sets scores = (ts, ds) ->
    os_wf bytes_compare ts /\ os_wf bytes_compare ds /\
    (forall t, In t ts <-> In t (tracks_of scores)) /\ (forall d, In d ds <-> In d (detections_of scores)).
  Proof.
    unfold uuid_sets, tracks_of, detections_of.
    enough (forall l a b, os_wf bytes_compare a -> os_wf bytes_compare b ->
      fold_left (fun '(track_set, detection_set) (pair : uuid * uuid * f32) =>
        (os_insert bytes_compare (fst (fst pair)) track_set,
         os_insert bytes_compare (snd (fst pair)) detection_set)) l (a, b) = (ts, ds) ->
      os_wf bytes_compare ts /\ os_wf bytes_compare ds /\
      (forall t, In t ts <-> In t a \/ In t (map (fun kv => fst (fst kv)) l)) /\
      (forall d, In d ds <-> In d b \/ In d (map (fun kv => snd (fst kv)) l))) as H.
    { intros E. destruct (H scores [] [] I I E) as (H1 & H2 & H3 & H4).
      split; [exact H1|]. split; [exact H2|]. split; intros x; rewrite nodup_In; [rewrite H3|rewrite H4]; cbn; tauto. }
    induction l as [|[[t d] v] l IH]; intros a b Ha Hb E; cbn [fold_left map fst snd] in *.
    - injection E as -> ->. cbn. tauto.
    - apply IH in E; [|apply os_insert_wf; [apply bytes_total|assumption]..].
      destruct E as (H1 & H2 & H3 & H4). split; [exact H1|]. split; [exact H2|]. cbn [In].
      split; intros x; [rewrite H3|rewrite H4]; rewrite os_insert_in by apply bytes_total; intuition auto.
  Qed.

  Lemma same_length {A} (l l' : list A) : NoDup l -> NoDup l' -> (forall x, In x l <-> In x l') -> length l = length l'.
  Proof.
    intros H1 H2 H. apply Nat.le_antisymm; apply NoDup_incl_length; try assumption; intros x Hx; apply H, Hx.
  Qed.
  Lemma uuid_sets_length ts ds : uuid_sets scores = (ts, ds) ->
    length ts = length (tracks_of scores) /\ length ds = length (detections_of scores).
  Proof.
    intros E. destruct (uuid_sets_spec ts ds E) as (H1 & H2 & H3 & H4). split; apply same_length; try assumption;
      first [apply NoDup_nodup | apply (os_wf_nodup _ bytes_total); assumption].
  Qed.
  Lemma nodup_length {A} dec (l : list A) : length (nodup dec l) <= length l.
  Proof. induction l as [|a l IH]; cbn; [lia|]. destruct (in_dec dec a l); cbn; lia. Qed.
  Lemma sets_bound ts ds : uuid_sets scores = (ts, ds) -> length ts <= length scores /\ length ds <= length scores.
  Proof.
    intros E. destruct (uuid_sets_length ts ds E) as [-> ->]. unfold tracks_of, detections_of.
    split; (eapply Nat.le_trans; [apply nodup_length|]; rewrite map_length; lia).
  Qed.
End Sets.

Lemma nth_lookup {A} (l : list A) i d : i < length l -> nth_error l i = Some (nth i l d).
Proof. intros H. apply nth_error_nth'. exact H. Qed.

(** ** The score matrix *)
Definition score_or_max (scores : score_map f32) (t d : uuid) : f32 :=
  match om_find pair_compare (t, d) scores with Some v => v | None => flt_max end.

Lemma score_matrix_spec scores ts ds : uuid_sets scores = (ts, ds) ->
  exists m, score_matrix_from_score_map scores = Ok (m, ts, ds) /\
    nr m = length ts /\ nc m = length ds /\
    forall r c, r < length ts -> c < length ds ->
      elem m r c = Some (score_or_max scores (nth r ts EmptyString) (nth c ds EmptyString)).
Proof.
  intros E. unfold score_matrix_from_score_map. rewrite E.
  set (m0 := mat_fill flt_max (mat_new (length ts) (length ds))).
  destruct (fill_range m0 0 (nr m0) 0 (nc m0)
    (fun r c m => match nth_error ts r, nth_error ds c with
      | Some track_uuid, Some detection_uuid =>
          match om_find pair_compare (track_uuid, detection_uuid) scores with
          | Some score => mat_set m r c score
          | None => Ok m
          end
      | _, _ => UB end)
    (fun r c old => match om_find pair_compare (nth r ts EmptyString, nth c ds EmptyString) scores with
       | Some v => Some v | None => old end)) as (m & Em & Hnr & Hnc & Hm); [lia|lia| |].
  { intros i j m Hi Hj Hnr Hnc. cbn [nr nc m0 mat_fill mat_new] in *.
    rewrite (nth_lookup ts i EmptyString), (nth_lookup ds j EmptyString) by lia.
    destruct (om_find _ _ _) as [v|] eqn:Ef.
    - rewrite mat_set_ok by lia. eexists. split; [reflexivity|]. cbn. split; [lia|]. split; [lia|]. reflexivity.
    - exists m. split; [reflexivity|]. split; [exact Hnr|]. split; [exact Hnc|]. intros a b.
      destruct (Nat.eqb_spec a i) as [->|]; [|reflexivity]. destruct (Nat.eqb_spec b j) as [->|]; reflexivity. }
  exists m. rewrite Em. split; [reflexivity|]. split; [exact Hnr|]. split; [exact Hnc|].
  intros r c Hr Hc. rewrite Hm. cbn [nr nc m0 mat_fill mat_new elem].
  assert (in_range 0 (length ts) r = true) as -> by (apply in_range_spec; lia).
  assert (in_range 0 (length ds) c = true) as -> by (apply in_range_spec; lia). cbn [andb].
  unfold score_or_max. destruct (om_find _ _ _); reflexivity.
Qed.

(** ** Loops that return *)
Lemma for_range_partial {S} (P : nat -> S -> Prop) lo hi body s s' :
  lo <= hi -> P lo s ->
  (forall i s s1, lo <= i < hi -> P i s -> body i s = Ok s1 -> P (i + 1) s1) ->
  for_range lo hi body s = Ok s' -> P hi s'.
Proof.
  unfold for_range. intros Hle. remember (hi - lo) as k eqn:Hk. revert lo Hle Hk s.
  induction k as [|k IH]; intros lo Hle Hk s Hp Hb E.
  - cbn in E. injection E as <-. assert (lo = hi) as -> by lia. exact Hp.
  - cbn in E. destruct (body lo s) as [s1| |] eqn:E1; cbn in E; try discriminate.
    eapply (IH (lo + 1)); [lia|lia| | |exact E].
    + eapply Hb; [|exact Hp|exact E1]. lia.
    + intros i s2 s3 Hi. apply Hb. lia.
Qed.

(** Element-wise computation of a matrix, when it returns. *)
Lemma compute_partial {A} (R C : nat) (f : nat -> nat -> result A) (m : mat A) body :
  (forall r c m, body r c m = let* v := f r c in mat_set m r c v) ->
  for_range 0 R (fun r m => for_range 0 C (fun c m => body r c m) m) (mat_new R C) = Ok m ->
  nr m = R /\ nc m = C /\ forall r c, r < R -> c < C -> exists v, f r c = Ok v /\ elem m r c = Some v.
Proof.
  intros Hbody E.
  apply (for_range_partial (fun i m => nr m = R /\ nc m = C /\
    forall r c, r < i -> c < C -> exists v, f r c = Ok v /\ elem m r c = Some v) 0 R) in E; [exact E|lia| |].
  - cbn. split; [reflexivity|]. split; [reflexivity|]. intros; lia.
  - clear E m. intros i m m1 Hi (Hnr & Hnc & Hm) E.
    apply (for_range_partial (fun j m => nr m = R /\ nc m = C /\
      (forall r c, r < i -> c < C -> exists v, f r c = Ok v /\ elem m r c = Some v) /\
      (forall c, c < j -> exists v, f i c = Ok v /\ elem m i c = Some v)) 0 C) in E; [|lia| |].
    + destruct E as (H1 & H2 & H3 & H4). split; [exact H1|]. split; [exact H2|].
      intros r c Hr Hc. destruct (Nat.eq_dec r i) as [->|]; [apply H4|apply H3]; lia.
    + split; [exact Hnr|]. split; [exact Hnc|]. split; [exact Hm|]. intros; lia.
    + clear E m1 m Hnr Hnc Hm. intros j m m1 Hj (Hnr & Hnc & Hm & Hrow) E. rewrite Hbody in E.
      destruct (f i j) as [v| |] eqn:Ef; cbn [rbind] in E; try discriminate.
      rewrite mat_set_ok in E by lia. injection E as <-. cbn [nr nc elem].
      split; [exact Hnr|]. split; [exact Hnc|]. split.
      * intros r c Hr Hc. destruct (Hm r c Hr Hc) as (w & Hw1 & Hw2). exists w. split; [exact Hw1|].
        destruct (Nat.eqb_spec r i); [lia|]. exact Hw2.
      * intros c Hc. destruct (Nat.eq_dec c j) as [->|Hn].
        -- exists v. rewrite !Nat.eqb_refl. auto.
        -- destruct (Hrow c ltac:(lia)) as (w & Hw1 & Hw2). exists w. split; [exact Hw1|].
           destruct (Nat.eqb_spec c j); [lia|]. rewrite andb_false_r. exact Hw2.
Qed.

Lemma compute_total {A} (R C : nat) (f : nat -> nat -> result A) body :
  (forall r c m, body r c m = let* v := f r c in mat_set m r c v) ->
  (forall r c, r < R -> c < C -> exists v, f r c = Ok v) ->
  exists m, for_range 0 R (fun r m => for_range 0 C (fun c m => body r c m) m) (mat_new R C) = Ok m.
Proof.
  intros Hbody Hf.
  destruct (for_range_inv (fun _ (m : mat A) => nr m = R /\ nc m = C) 0 R
    (fun r m => for_range 0 C (fun c m => body r c m) m) (mat_new R C)) as (m & E & _).
  - lia.
  - split; reflexivity.
  - intros i m Hi (Hnr & Hnc). apply for_range_inv with (P := fun _ (m : mat A) => nr m = R /\ nc m = C); [lia|split; assumption|].
    intros j m1 Hj (Hnr1 & Hnc1). rewrite Hbody. destruct (Hf i j) as [v ->]; [lia|lia|]. cbn [rbind].
    rewrite mat_set_ok by lia. eexists. split; [reflexivity|]. cbn. split; assumption.
  - exists m. exact E.
Qed.

(** ** The largest score *)
Lemma dlib_max_spec (m : mat f32) : initialised m -> 0 < nr m -> 0 < nc m ->
  (forall i j v, i < nr m -> j < nc m -> elem m i j = Some v -> is_finite v = true) ->
  exists M, dlib_max m = Ok M /\ (exists i j, i < nr m /\ j < nc m /\ elem m i j = Some M) /\
    forall i j v, i < nr m -> j < nc m -> elem m i j = Some v -> (B2R v <= B2R M)%R.
Proof.
  intros Hini Hr Hc Hfin. unfold dlib_max. destruct (Hini 0 0 Hr Hc) as [v0 Hv0].
  rewrite (mat_get_ok m 0 0 v0) by assumption. cbn [rbind].
  set (is_elem := fun v => exists i j, i < nr m /\ j < nc m /\ elem m i j = Some v).
  destruct (for_range_inv (fun i v => is_elem v /\
      forall a b w, a < i -> b < nc m -> elem m a b = Some w -> (B2R w <= B2R v)%R) 0 (nr m)
    (fun r v => for_range 0 (nc m) (fun c v => let* x := mat_get m r c in Ok (if f32_gtb x v then x else v)) v) v0)
    as (M & E & HM1 & HM2).
  - lia.
  - split; [exists 0, 0; auto|]. intros; lia.
  - intros i v Hi (Hv & Hall).
    destruct (for_range_inv (fun j v' => is_elem v' /\ (B2R v <= B2R v')%R /\
        forall b w, b < j -> elem m i b = Some w -> (B2R w <= B2R v')%R) 0 (nc m)
      (fun c v => let* x := mat_get m i c in Ok (if f32_gtb x v then x else v)) v) as (v' & E & Hv' & Hle & Hrow).
    + lia.
    + split; [exact Hv|]. split; [lra|]. intros; lia.
    + intros j v1 Hj (Hv1 & Hle1 & Hrow1). destruct (Hini i j) as [x Hx]; [lia|lia|].
      rewrite (mat_get_ok m i j x) by (try lia; exact Hx). cbn [rbind]. eexists. split; [reflexivity|].
      assert (is_finite x = true) as Fx by (apply (Hfin i j); [lia|lia|exact Hx]).
      assert (is_finite v1 = true) as Fv1 by (destruct Hv1 as (a & b & Ha & Hb & Hab); apply (Hfin a b); assumption).
      unfold f32_gtb. rewrite Bltb_correct by assumption.
      destruct (Rlt_bool_spec (B2R v1) (B2R x)) as [Hlt|Hge].
      * split; [exists i, j; repeat split; try lia; exact Hx|]. split; [lra|].
        intros b w Hb Hw. destruct (Nat.eq_dec b j) as [->|Hn]; [rewrite Hx in Hw; injection Hw as <-; lra|].
        specialize (Hrow1 b w ltac:(lia) Hw). lra.
      * split; [exact Hv1|]. split; [lra|].
        intros b w Hb Hw. destruct (Nat.eq_dec b j) as [->|Hn]; [rewrite Hx in Hw; injection Hw as <-; lra|].
        apply (Hrow1 b w); [lia|exact Hw].
    + exists v'. split; [exact E|]. split; [exact Hv'|]. intros a b w Ha Hb Hw.
      destruct (Nat.eq_dec a i) as [->|Hn]; [apply (Hrow b w); [exact Hb|exact Hw]|].
      specialize (Hall a b w ltac:(lia) Hb Hw). lra.
  - exists M. split; [exact E|]. split; [exact HM1|]. intros i j v Hi Hj Hv. apply (HM2 i j v); assumption.
Qed.

(** ** The cost matrix *)
Lemma cost_matrix_partial (m : mat f32) costs : cost_matrix_from_score_matrix m = Ok costs ->
  exists M, dlib_max m = Ok M /\ nr costs = nr m /\ nc costs = nc m /\
    forall r c, r < nr m -> c < nc m -> exists v z, elem m r c = Some v /\ scaled_cost v M = Ok z /\ elem costs r c = Some z.
Proof.
  unfold cost_matrix_from_score_matrix. destruct (dlib_max m) as [M| |] eqn:EM; cbn [rbind]; try discriminate.
  intros E. exists M. split; [reflexivity|].
  apply compute_partial with (f := fun r c => let* score := mat_get m r c in scaled_cost score M) in E.
  - destruct E as (H1 & H2 & H3). split; [exact H1|]. split; [exact H2|]. intros r c Hr Hc.
    destruct (H3 r c Hr Hc) as (z & Ez & Hz). unfold mat_get in Ez.
    destruct (_ && _); [|discriminate]. destruct (elem m r c) as [v|]; [|discriminate]. cbn in Ez. eauto.
  - intros r c m1. destruct (mat_get m r c); reflexivity.
Qed.

Lemma cost_matrix_total (m : mat f32) M : initialised m -> dlib_max m = Ok M ->
  (forall r c v, r < nr m -> c < nc m -> elem m r c = Some v -> exists z, scaled_cost v M = Ok z) ->
  exists costs, cost_matrix_from_score_matrix m = Ok costs.
Proof.
  intros Hini EM Hz. unfold cost_matrix_from_score_matrix. rewrite EM. cbn [rbind].
  apply compute_total with (f := fun r c => let* score := mat_get m r c in scaled_cost score M).
  - intros r c m1. destruct (mat_get m r c); reflexivity.
  - intros r c Hr Hc. destruct (Hini r c Hr Hc) as [v Hv]. rewrite (mat_get_ok m r c v) by assumption.
    cbn [rbind]. apply (Hz r c v); assumption.
Qed.

Ltac ulia := unfold uuid in *; lia.

(** ** From the assignment to the association map *)
Definition matched (ts ds : list uuid) (M : list (nat * nat)) : association_map :=
  map (fun ij => (nth (fst ij) ts EmptyString, [nth (snd ij) ds EmptyString])) M.
Definition named (ts ds : list uuid) (M : list (nat * nat)) : list (uuid * uuid) :=
  map (fun ij => (nth (fst ij) ts EmptyString, nth (snd ij) ds EmptyString)) M.

Lemma matched_pairs ts ds M : assoc_pairs (matched ts ds M) = named ts ds M.
Proof. induction M as [|[i j] M IH]; [reflexivity|]. cbn. f_equal. exact IH. Qed.

Lemma om_find_larger {V} k (a : list (uuid * V)) : (forall k', In k' (map fst a) -> bytes_compare k' k = Lt) ->
  om_find bytes_compare k a = None.
Proof.
  induction a as [|[k0 v0] a IH]; intros H; [reflexivity|]. cbn.
  assert (bytes_compare k k0 = Gt) as ->.
  { apply (cmp_gt_lt _ bytes_total). apply H. left. reflexivity. }
  apply IH. intros k' Hk'. apply H. right. exact Hk'.
Qed.
Lemma om_set_larger {V} k (v : V) (a : list (uuid * V)) : (forall k', In k' (map fst a) -> bytes_compare k' k = Lt) ->
  om_set bytes_compare k v a = a ++ [(k, v)].
Proof.
  induction a as [|[k0 v0] a IH]; intros H; [reflexivity|]. cbn.
  assert (bytes_compare k k0 = Gt) as ->.
  { apply (cmp_gt_lt _ bytes_total). apply H. left. reflexivity. }
  rewrite IH; [reflexivity|]. intros k' Hk'. apply H. right. exact Hk'.
Qed.

Lemma os_wf_nth ts i j : os_wf bytes_compare ts -> i < j < length ts ->
  bytes_compare (nth i ts EmptyString) (nth j ts EmptyString) = Lt.
Proof.
  revert i j; induction ts as [|t ts IH]; intros i j Hw Hij; [cbn in Hij; ulia|].
  apply (os_wf_cons _ bytes_total) in Hw as [H1 H2]. cbn in Hij.
  destruct j as [|j]; [ulia|]. destruct i as [|i]; cbn [nth].
  - apply H1, nth_In. ulia.
  - apply IH; [exact H2|ulia].
Qed.

Lemma size_of_long_small n : (N.of_nat n < 2 ^ 63)%N -> size_of_long (Z.of_nat n) = N.of_nat n.
Proof.
  intros H. unfold size_of_long. rewrite Z.mod_small; [ulia|]. split; [ulia|].
  apply Z.lt_trans with (2 ^ 63)%Z; [|reflexivity]. change (2 ^ 63)%Z with (Z.of_N (2 ^ 63)). ulia.
Qed.

Lemma get_element_at_nth (ts : list uuid) i : i < length ts -> get_element_at ts (N.of_nat i) = Ok (nth i ts EmptyString).
Proof.
  intros H. unfold get_element_at. destruct (N.leb_spec (N.of_nat (length ts)) (N.of_nat i)); [ulia|].
  rewrite Nat2N.id, (nth_lookup ts i EmptyString) by exact H. reflexivity.
Qed.

Lemma association_loop_spec ts ds : os_wf bytes_compare ts ->
  forall l i acc, i + length l <= length ts ->
  (forall j, In j l -> (N.of_nat j < 2 ^ 63)%N) ->
  (forall k j, In k (map fst acc) -> i <= j < length ts -> bytes_compare k (nth j ts EmptyString) = Lt) ->
  association_loop i (map Z.of_nat l) ts ds acc =
  Ok (acc ++ matched ts ds (filter (in_block (length ts) (length ds)) (combine (seq i (length l)) l))).
Proof.
  intros Hw. induction l as [|j l IH]; intros i acc Hi Hl Hacc; cbn [length] in *.
  - cbn. rewrite app_nil_r. reflexivity.
  - cbn [map association_loop seq combine filter]. rewrite size_of_long_small by (apply Hl; left; reflexivity).
    unfold in_block at 1. cbn [fst snd]. assert (i <? length ts = true) as -> by (apply Nat.ltb_lt; ulia).
    cbn [andb]. destruct (N.leb_spec (N.of_nat (length ds)) (N.of_nat j)) as [Hge|Hlt].
    + assert (j <? length ds = false) as -> by (apply Nat.ltb_ge; ulia).
      apply IH; [ulia|intros; apply Hl; right; assumption|]. intros k j' Hk Hj'. apply Hacc; [exact Hk|ulia].
    + assert (j <? length ds = true) as -> by (apply Nat.ltb_lt; ulia).
      rewrite (get_element_at_nth ts i), (get_element_at_nth ds j) by ulia. cbn [rbind]. unfold assoc_push.
      assert (forall k', In k' (map fst acc) -> bytes_compare k' (nth i ts EmptyString) = Lt) as Hlt'.
      { intros k' Hk'. apply Hacc; [exact Hk'|ulia]. }
      rewrite om_find_larger, om_set_larger by exact Hlt'.
      rewrite IH; [|ulia|intros; apply Hl; right; assumption|].
      * cbn [matched map fst snd]. rewrite <- app_assoc. reflexivity.
      * intros k j' Hk Hj'. rewrite map_app, in_app_iff in Hk. destruct Hk as [Hk|[<-|[]]].
        -- apply Hacc; [exact Hk|ulia].
        -- cbn [fst]. apply os_wf_nth; [exact Hw|ulia].
Qed.

Lemma association_loop_wf assignments ts ds : forall i acc a, om_wf bytes_compare acc ->
  association_loop i assignments ts ds acc = Ok a -> om_wf bytes_compare a.
Proof.
  induction assignments as [|z l IH]; intros i acc a Hw E; cbn in E; [injection E as <-; exact Hw|].
  destruct (_ <=? _)%N; [eapply IH; eassumption|].
  destruct (get_element_at ts _) as [t| |]; cbn in E; try discriminate.
  destruct (get_element_at ds _) as [d| |]; cbn in E; try discriminate.
  eapply IH; [|exact E]. apply om_set_wf; [apply bytes_total|exact Hw].
Qed.

Lemma filter_none {A} (f : A -> bool) l : (forall x, In x l -> f x = false) -> filter f l = [].
Proof.
  induction l as [|a l IH]; intros H; [reflexivity|]. cbn. rewrite H by (left; reflexivity).
  apply IH. intros; apply H; right; assumption.
Qed.

Lemma block_firstn r c n s : r <= n -> length s = n ->
  filter (in_block r c) (combine (seq 0 r) (firstn r s)) = block_pairs r c n s.
Proof.
  intros Hr Hs. unfold block_pairs. rewrite <- (firstn_skipn r s) at 2.
  replace n with (r + (n - r)) by ulia. rewrite seq_app.
  assert (forall {A B} (l1 l2 : list A) (k1 k2 : list B), length l1 = length k1 ->
    combine (l1 ++ l2) (k1 ++ k2) = combine l1 k1 ++ combine l2 k2) as Hc.
  { intros A B l1. induction l1 as [|a l1 IH]; intros l2 [|b k1] k2 HL; try discriminate; [reflexivity|].
    cbn. rewrite IH by (cbn in HL; ulia). reflexivity. }
  rewrite Hc by (rewrite seq_length, firstn_length; ulia). rewrite filter_app, (filter_none _ (combine (seq (0 + r) _) _)).
  - rewrite app_nil_r. reflexivity.
  - intros [i j] Hin. apply in_combine_l, in_seq in Hin. unfold in_block. cbn [fst snd].
    assert (i <? r = false) as -> by (apply Nat.ltb_ge; ulia). reflexivity.
Qed.


(** The call after the cost matrix has been computed. *)
Lemma gnn_after_costs solve scores m ts ds costs :
  solver_ok solve -> small_map scores ->
  uuid_sets scores = (ts, ds) ->
  score_matrix_from_score_map scores = Ok (m, ts, ds) ->
  cost_matrix_from_score_matrix m = Ok costs -> nr costs = length ts -> nc costs = length ds -> initialised costs ->
  exists M, gnn_associator solve scores = Ok (matched ts ds M) /\ full_matching costs M /\
    (forall M', full_matching costs M' -> (Zsum (map (entry_of costs) M') <= Zsum (map (entry_of costs) M))%Z) /\
    om_wf bytes_compare (matched ts ds M).
Proof.
  intros Hsolve Hsmall Es Em Ec Hnr Hnc Hini. unfold gnn_associator. rewrite Em. cbn [rbind]. rewrite Ec. cbn [rbind].
  destruct (make_square_spec costs int_lowest Hini) as (sq & Esq & Hsnr & Hsnc & Hb & Hp & _).
  rewrite Esq. cbn [rbind].
  assert (initialised sq) as Hsq.
  { intros i j Hi Hj. destruct (le_lt_dec (nr costs) i) as [H1|H1]; [exists int_lowest; apply Hp; auto|].
    destruct (le_lt_dec (nc costs) j) as [H2|H2]; [exists int_lowest; apply Hp; auto|].
    rewrite Hb by assumption. apply Hini; assumption. }
  destruct (Hsolve sq ltac:(ulia) Hsq) as (s & Eres & Hmax). rewrite Eres.
  pose proof (proj1 Hmax) as Hassign. rewrite Hsnr in Hassign. pose proof (assignment_length _ _ Hassign) as HL.
  rewrite map_length, HL. assert (Nat.max (nr costs) (nc costs) <? length ts = false) as -> by (apply Nat.ltb_ge; ulia).
  destruct (uuid_sets_spec scores ts ds Es) as (Hw & Hwd & _).
  destruct (sets_bound scores ts ds Es) as [B1 B2]. unfold small_map in Hsmall.
  unfold association_map_from_score_map. rewrite firstn_map.
  assert (length (firstn (length ts) s) = length ts) as HLf by (rewrite firstn_length; ulia).
  assert (association_loop 0 (map Z.of_nat (firstn (length ts) s)) ts ds [] =
    Ok (matched ts ds (block_pairs (length ts) (length ds) (Nat.max (nr costs) (nc costs)) s))) as Eloop.
  { rewrite (association_loop_spec ts ds Hw).
    - rewrite HLf, <- (block_firstn (length ts) (length ds) (Nat.max (nr costs) (nc costs)) s) by ulia. reflexivity.
    - ulia.
    - intros j Hj. assert (In j s) as Hjs by (rewrite <- (firstn_skipn (length ts) s); apply in_app_iff; left; exact Hj).
      apply (assignment_lt _ _ _ Hassign) in Hjs. ulia.
    - intros k j []. }
  exists (block_pairs (length ts) (length ds) (Nat.max (nr costs) (nc costs)) s).
  split; [exact Eloop|]. rewrite <- Hnr, <- Hnc. split; [apply block_full; exact Hassign|]. split.
  - intros M' HM'. apply (padded_optimal costs sq int_lowest Hsnr Hsnc Hb Hp s Hassign); [exact Hmax|exact HM'].
  - rewrite Hnr, Hnc in *. eapply association_loop_wf; [|exact Eloop]. exact I.
Qed.

(** What holds whenever the call returns. *)
Lemma gnn_returns solve scores a :
  solver_ok solve -> small_map scores -> gnn_associator solve scores = Ok a ->
  exists m ts ds costs Mx M,
    uuid_sets scores = (ts, ds) /\
    score_matrix_from_score_map scores = Ok (m, ts, ds) /\ dlib_max m = Ok Mx /\
    cost_matrix_from_score_matrix m = Ok costs /\ nr costs = length ts /\ nc costs = length ds /\
    (forall r c, r < length ts -> c < length ds -> exists z,
       scaled_cost (score_or_max scores (nth r ts EmptyString) (nth c ds EmptyString)) Mx = Ok z /\
       elem costs r c = Some z) /\
    a = matched ts ds M /\ full_matching costs M /\
    (forall M', full_matching costs M' -> (Zsum (map (entry_of costs) M') <= Zsum (map (entry_of costs) M))%Z) /\
    om_wf bytes_compare a.
Proof.
  intros Hsolve Hsmall E. destruct (uuid_sets scores) as [ts ds] eqn:Es.
  destruct (score_matrix_spec scores ts ds Es) as (m & Em & Hmr & Hmc & Hm).
  destruct (cost_matrix_from_score_matrix m) as [costs| |] eqn:Ec;
    [|unfold gnn_associator in E; rewrite Em in E; cbn [rbind] in E; rewrite Ec in E; discriminate..].
  destruct (cost_matrix_partial m costs Ec) as (Mx & EM & Hnr & Hnc & Hel).
  assert (initialised costs) as Hini.
  { intros i j Hi Hj. destruct (Hel i j) as (v & z & _ & _ & Hz); [ulia|ulia|]. exists z. exact Hz. }
  destruct (gnn_after_costs solve scores m ts ds costs Hsolve Hsmall Es Em Ec) as (M & E' & HM & Hopt & Hwf); [ulia|ulia|exact Hini|].
  rewrite E' in E. injection E as <-.
  exists m, ts, ds, costs, Mx, M. do 4 (split; [first [reflexivity|assumption]|]). split; [ulia|]. split; [ulia|]. split; [|tauto].
  intros r c Hr Hc. destruct (Hel r c) as (v & z & Hv & Hz1 & Hz2); [ulia|ulia|].
  rewrite Hm in Hv by ulia. injection Hv as <-. exists z. auto.
Qed.

(** The index pairs correspond to pairs of uuids. *)
Lemma named_in ts ds M t d : In (t, d) (named ts ds M) <-> exists i j, In (i, j) M /\ t = nth i ts EmptyString /\ d = nth j ds EmptyString.
Proof.
  unfold named. rewrite in_map_iff. split.
  - intros ([i j] & [= <- <-] & Hin). exists i, j. auto.
  - intros (i & j & Hin & -> & ->). exists (i, j). auto.
Qed.

Lemma nodup_map_on {A B} (f : A -> B) l : NoDup l -> (forall x y, In x l -> In y l -> f x = f y -> x = y) -> NoDup (map f l).
Proof.
  induction l as [|a l IH]; intros Hn Hinj; [constructor|]. inversion Hn; subst. cbn. constructor.
  - intros Hin. apply in_map_iff in Hin as (x & E & Hx). apply Hinj in E; [|right; exact Hx|left; reflexivity]. subst. contradiction.
  - apply IH; [assumption|]. intros x y Hx Hy. apply Hinj; right; assumption.
Qed.

Lemma named_one_to_one ts ds (costs : mat Z) M : NoDup ts -> NoDup ds -> nr costs = length ts -> nc costs = length ds ->
  full_matching costs M -> one_to_one (named ts ds M).
Proof.
  intros Hts Hds Hnr Hnc ((H1 & H2) & Hin & _). unfold one_to_one, named. rewrite !map_map. cbn [fst snd]. split.
  - rewrite <- (map_map fst (fun i => nth i ts EmptyString)). apply nodup_map_on; [exact H1|].
    intros x y Hx Hy E. apply in_map_iff in Hx as ([i j] & <- & Hij), Hy as ([i' j'] & <- & Hij'). cbn [fst] in *.
    eapply (proj1 (NoDup_nth ts EmptyString)); [exact Hts| | |exact E].
    + rewrite <- Hnr. apply (Hin i j Hij).
    + rewrite <- Hnr. apply (Hin i' j' Hij').
  - rewrite <- (map_map snd (fun i => nth i ds EmptyString)). apply nodup_map_on; [exact H2|].
    intros x y Hx Hy E. apply in_map_iff in Hx as ([i j] & <- & Hij), Hy as ([i' j'] & <- & Hij'). cbn [snd] in *.
    eapply (proj1 (NoDup_nth ds EmptyString)); [exact Hds| | |exact E].
    + rewrite <- Hnc. apply (Hin i j Hij).
    + rewrite <- Hnc. apply (Hin i' j' Hij').
Qed.

(** Every one-to-one set of uuid pairs of full size comes from index pairs. *)
Lemma indices_exist (ts ds : list uuid) l :
  (forall t d, In (t, d) l -> In t ts /\ In d ds) ->
  exists M, l = named ts ds M /\ forall i j, In (i, j) M -> i < length ts /\ j < length ds.
Proof.
  induction l as [|[t d] l IH]; intros Hl; [exists []; split; [reflexivity|intros i j []]|].
  destruct IH as (M & E & HM); [intros; apply Hl; right; assumption|].
  destruct (Hl t d) as [Ht Hd]; [left; reflexivity|].
  apply (In_nth _ _ EmptyString) in Ht as (i & Hi & Ei). apply (In_nth _ _ EmptyString) in Hd as (j & Hj & Ej).
  exists ((i, j) :: M). split; [unfold named; cbn [map fst snd]; f_equal; [f_equal; symmetry; assumption|exact E]|].
  intros i' j' [[= <- <-]|Hin]; [auto|apply HM; exact Hin].
Qed.

Lemma named_full ts ds (costs : mat Z) l : nr costs = length ts -> nc costs = length ds ->
  (forall t d, In (t, d) l -> In t ts /\ In d ds) -> one_to_one l ->
  length l = Nat.min (length ts) (length ds) ->
  exists M, l = named ts ds M /\ full_matching costs M.
Proof.
  intros Hnr Hnc Hl (H1 & H2) Hlen. destruct (indices_exist ts ds l Hl) as (M & -> & HM). exists M. split; [reflexivity|].
  unfold named in *. rewrite map_map in H1, H2. rewrite map_length in Hlen. cbn [fst snd] in H1, H2.
  rewrite <- (map_map fst (fun i => nth i ts EmptyString)) in H1.
  rewrite <- (map_map snd (fun i => nth i ds EmptyString)) in H2.
  split; [|split].
  - split; [eapply NoDup_map_inv; exact H1|eapply NoDup_map_inv; exact H2].
  - intros i j Hij. rewrite Hnr, Hnc. apply HM, Hij.
  - rewrite Hnr, Hnc. exact Hlen.
Qed.
