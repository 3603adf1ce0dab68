(** dlib's solver meets its contract for the matrices of gnn_associator when there are
    no more tracks than detections, and overflows when there are more. *)
From Coq Require Import String List ZArith NArith Arith Bool Lia Permutation Reals.
From Flocq Require Import IEEE754.BinarySingleNaN.
From Verif Require Import Base Uuid OrdMap Float DlibMatrix Scoring Matching MatchingSpec AssignProofs MatchingProofs MatchingThms
  MatchingExamples Assignment HungarianThms ScoringThms Pipeline PipelineAssoc.
Import ListNotations.
Local Open Scope Z_scope.

(** ** Tight edges of feasible labels are maximal *)
Lemma sum_labels (l l' : nat -> Z) : forall (a b : list nat), length a = length b ->
  Zsum (map (fun ij => l (fst ij) + l' (snd ij)) (combine a b)) = Zsum (map l a) + Zsum (map l' b).
Proof.
  induction a as [|x a IH]; intros [|y b] H; cbn in H; try discriminate; [reflexivity|].
  cbn [combine map fst snd]. unfold Zsum in *. cbn [fold_right]. rewrite IH by congruence. lia.
Qed.
Lemma sum_le (f g : nat * nat -> Z) : forall l, (forall ij, In ij l -> f ij <= g ij) -> Zsum (map f l) <= Zsum (map g l).
Proof.
  induction l as [|a l IH]; intros H; [reflexivity|]. unfold Zsum in *. cbn [map fold_right].
  specialize (IH (fun ij Hij => H ij (or_intror Hij))). specialize (H a (or_introl eq_refl)). lia.
Qed.
Lemma tight_maximal (m : mat Z) f l l' :
  (forall x, (x < nr m)%nat -> (f x < nr m)%nat) -> (forall x x', (x < nr m)%nat -> (x' < nr m)%nat -> f x = f x' -> x = x') ->
  (forall x y, (x < nr m)%nat -> (y < nr m)%nat -> entry_of m (x, y) <= l x + l' y) ->
  (forall x, (x < nr m)%nat -> entry_of m (x, f x) = l x + l' (f x)) ->
  max_assignment m (map f (seq 0 (nr m))).
Proof.
  intros Hb Hi Hf Ht. set (n := nr m) in *.
  assert (P : is_assignment n (map f (seq 0 n))).
  { apply NoDup_Permutation_bis.
    - apply nodup_map_on; [apply seq_NoDup|]. intros x y Hx Hy. apply in_seq in Hx, Hy. apply Hi; lia.
    - rewrite map_length. lia.
    - intros y Hy. apply in_map_iff in Hy. destruct Hy as (x & <- & Hx). apply in_seq in Hx. apply in_seq. specialize (Hb x). lia. }
  split; [exact P|]. intros s' Hs'. fold n in Hs'. unfold assignment_cost. fold n.
  assert (L' : length s' = n) by (rewrite (Permutation_length Hs'), seq_length; reflexivity).
  transitivity (Zsum (map (fun ij => l (fst ij) + l' (snd ij)) (combine (seq 0 n) s'))).
  - apply sum_le. intros [i j] Hij. pose proof (in_combine_l _ _ _ _ Hij) as Hi'. pose proof (in_combine_r _ _ _ _ Hij) as Hj'.
    apply in_seq in Hi'. apply (Permutation_in _ Hs'), in_seq in Hj'. apply (Hf i j); lia.
  - rewrite sum_labels by (rewrite seq_length; congruence). rewrite (Zsum_perm _ _ (Permutation_map l' Hs')).
    rewrite <- (Zsum_perm _ _ (Permutation_map l' P)). rewrite <- sum_labels by (now rewrite map_length).
    apply Z.eq_le_incl. f_equal. apply map_ext_in. intros [i j] Hij.
    assert (E : j = f i /\ (i < n)%nat).
    { clear -Hij. assert (G : forall a k, In (i, j) (combine (seq a k) (map f (seq a k))) -> j = f i /\ (i < a + k)%nat).
      { intros a k. revert a. induction k as [|k IH]; intros a; cbn; [intros []|]. intros [[= <- <-]|H]; [split; [reflexivity|lia]|]. apply IH in H. split; [tauto|lia]. }
      apply (G 0%nat n Hij). }
    destruct E as [-> Hin]. cbn [fst snd]. symmetry. apply Ht. exact Hin.
Qed.

(** ** No overflow *)
Lemma int_checked_ok z : - 2 ^ 31 <= z <= int_highest -> int_checked z = Done z.
Proof.
  unfold int_checked, int_highest. intros H. replace (- 2 ^ 31 <=? z) with true by (symmetry; apply Z.leb_le; lia).
  replace (z <? 2 ^ 31) with true by (symmetry; apply Z.ltb_lt; lia). reflexivity.
Qed.
Lemma dlib_solve_ok norm (m : mat Z) (R : nat) (hi : Z) :
  (forall z, - 2 ^ 31 <= z <= int_highest -> norm z = Done z) ->
  (R <= nr m)%nat -> 0 <= hi < 2 ^ 30 ->
  (forall i j, (i < R)%nat -> (j < nr m)%nat -> exists z, elem m i j = Some z /\ 0 <= z <= hi) ->
  (forall i j, (R <= i < nr m)%nat -> (j < nr m)%nat -> elem m i j = Some int_lowest) ->
  exists s, dlib_solve norm m = Done (map Z.of_nat s) /\ max_assignment m s.
Proof.
  intros Hn HR Hhi H1 H2. unfold dlib_solve.
  destruct (assignment_found norm (- 2 ^ 31) int_highest (nr m) (fun i j => match elem m i j with Some z => z | None => 0 end) Hn R 0 hi int_lowest)
    as (f & l & l' & E & F1 & F2 & F3 & F4).
  - exact HR.
  - lia.
  - unfold int_highest. lia.
  - unfold int_lowest. lia.
  - intros x y Hx Hy. destruct (H1 x y Hx Hy) as (z & -> & Hz). exact Hz.
  - intros x y Hx Hy. now rewrite (H2 x y Hx Hy).
  - exists (map f (seq 0 (nr m))). split; [rewrite E, map_map; reflexivity|].
    apply (tight_maximal m f l l'); auto.
Qed.

(** ** Overflow *)
Lemma compute_slack_overflow (norm : Z -> outcome Z) c x y : (forall z, norm z = Done z \/ norm z = Overflow) -> forall ys s,
  In y ys -> norm (lx s x + ly s y - c x y) = Overflow -> compute_slack norm c x ys s = Overflow.
Proof.
  intros N. induction ys as [|z ys IH]; intros s Hi Ho; [destruct Hi|]. cbn [compute_slack].
  destruct (N (lx s x + ly s z)) as [->| ->]; cbn [obind]; [|reflexivity].
  destruct (N (lx s x + ly s z - c x z)) as [E|E]; rewrite E; cbn [obind]; [|reflexivity].
  destruct Hi as [->|Hi]; [congruence|]. apply IH; [exact Hi|]. destruct (_ <? _); exact Ho.
Qed.
Lemma assignment_overflow (norm : Z -> outcome Z) imax n c y : (forall z, norm z = Done z \/ norm z = Overflow) ->
  (y < n)%nat -> norm (row_max n c 0 + 0 - c 0%nat y) = Overflow -> max_cost_assignment norm imax n c = Overflow.
Proof.
  intros N Hy Ho. unfold max_cost_assignment. set (m0 := Matching _ _ _ _ _).
  set (s0 := Search (row_max n c) (fun _ => 0) (upd (fun _ => false) 0%nat true) (fun _ => false) (fun _ => imax) (fun _ => 0%nat) (fun _ => None) [0%nat]).
  assert (E0 : round_start imax n m0 = s0) by (unfold round_start, m0; destruct n; [lia|reflexivity]).
  assert (E1 : find_path norm imax n c (S n) (m_yx m0) s0 = Overflow).
  { cbn [find_path drain queue s0]. rewrite (compute_slack_overflow norm c 0%nat y N (seq 0 n)); [reflexivity|apply in_seq; lia|exact Ho]. }
  assert (E2 : rounds norm imax n c n m0 = Overflow).
  { destruct n as [|k]; [lia|]. cbn [rounds]. unfold round. rewrite E0, E1. reflexivity. }
  now rewrite E2.
Qed.
Lemma int_checked_cases z : int_checked z = Done z \/ int_checked z = Overflow.
Proof. unfold int_checked. destruct (_ && _); auto. Qed.
Lemma dlib_solve_overflow (m : mat Z) :
  (exists j z, (j < nr m)%nat /\ elem m 0 j = Some z /\ 0 <= z) ->
  (exists j, (j < nr m)%nat /\ elem m 0 j = Some int_lowest) ->
  dlib_solve int_checked m = Overflow.
Proof.
  intros (j & z & Hj & Ej & Hz) (k & Hk & Ek). unfold dlib_solve. apply (assignment_overflow _ _ _ _ k int_checked_cases Hk).
  set (c := fun i j => _). destruct (fold_max_le c 0 (seq 0 (nr m)) (c 0%nat 0%nat)) as (_ & B & _). fold (row_max (nr m) c 0) in B.
  specialize (B j ltac:(apply in_seq; lia)). assert (Cj : c 0%nat j = z) by (unfold c; now rewrite Ej).
  assert (Ck : c 0%nat k = int_lowest) by (unfold c; now rewrite Ek). rewrite Cj in B. rewrite ?Ck, ?Ek.
  unfold int_checked, int_lowest in *. replace (_ <? 2 ^ 31) with false by (symmetry; apply Z.ltb_ge; lia). now rewrite andb_false_r.
Qed.

(** ** The matrix of gnn_associator *)
Lemma usable_square scores : usable scores ->
  exists m ts ds costs sq, uuid_sets scores = (ts, ds) /\
    score_matrix_from_score_map scores = Ok (m, ts, ds) /\ cost_matrix_from_score_matrix m = Ok costs /\
    make_square_matrix costs int_lowest = Ok sq /\ nr sq = Nat.max (length ts) (length ds) /\ nc sq = nr sq /\
    (0 < length ts)%nat /\ (0 < length ds)%nat /\
    (forall i j, (i < length ts)%nat -> (j < length ds)%nat -> exists z, elem sq i j = Some z /\ 0 <= z <= 100000000) /\
    (forall i j, (i < nr sq)%nat -> (j < nr sq)%nat -> (length ts <= i \/ length ds <= j)%nat -> elem sq i j = Some int_lowest).
Proof.
  intros Hu. destruct (uuid_sets scores) as [ts ds] eqn:Es.
  destruct (usable_costs scores ts ds Hu Es) as (m & Mx & costs & Em & EM & Ec & Hmr & Hmc & Hnr & Hnc & _).
  destruct (usable_cost_matrix scores Hu) as (m' & ts' & ds' & costs' & Em' & Ec' & Hr' & Hc' & Hz & _).
  rewrite Em in Em'. injection Em' as <- <- <-. rewrite Ec in Ec'. injection Ec' as <-.
  assert (Hini : initialised costs).
  { intros i j Hi Hj. destruct (Hz i j) as (z & E & _); [congruence|congruence|]. eauto. }
  destruct (make_square_spec costs int_lowest Hini) as (sq & Esq & Hsnr & Hsnc & Hb & Hp & _).
  assert (Ht : (0 < length ts)%nat /\ (0 < length ds)%nat).
  { destruct Hu as (_ & Hne & _). destruct scores as [|[[t d] v] scores]; [congruence|].
    destruct (uuid_sets_spec _ ts ds Es) as (_ & _ & I1 & I2).
    assert (H1 : In t (tracks_of (((t, d), v) :: scores))) by (apply in_tracks; exists d, v; now left).
    assert (H2 : In d (detections_of (((t, d), v) :: scores))) by (apply in_detections; exists t, v; now left).
    apply I1 in H1. apply I2 in H2. destruct ts; [destruct H1|]. destruct ds; [destruct H2|]. cbn. lia. }
  exists m, ts, ds, costs, sq. rewrite Hnr, Hnc in *.
  split; [reflexivity|]. split; [exact Em|]. split; [exact Ec|]. split; [exact Esq|]. split; [exact Hsnr|]. split; [congruence|].
  split; [apply Ht|]. split; [apply Ht|]. split.
  - intros i j Hi Hj. rewrite Hb by assumption. apply Hz; congruence.
  - intros i j Hi Hj Ho. apply Hp; [exact Hi|congruence|exact Ho].
Qed.

(** A solver that meets the contract and agrees with dlib's where that is right *)
Definition is_maximal (m : mat Z) (l : list Z) : bool :=
  let s := map Z.to_nat l in
  (if list_eq_dec Z.eq_dec l (map Z.of_nat s) then true else false) && (length s =? nr m)%nat &&
  forallb (fun j => existsb (Nat.eqb j) s) (seq 0 (nr m)) &&
  (assignment_cost m (map Z.to_nat (try_all m)) <=? assignment_cost m s).
Definition dlib_or_try_all (norm : Z -> outcome Z) (m : mat Z) : list Z :=
  match dlib_solve norm m with
  | Done l => if is_maximal m l then l else try_all m
  | _ => try_all m
  end.
Lemma to_of_nat s : map Z.to_nat (map Z.of_nat s) = s.
Proof. rewrite map_map. rewrite (map_ext _ (fun x => x)); [apply map_id|]. intros x. apply Nat2Z.id. Qed.
Lemma dlib_or_try_all_ok norm : solver_ok (dlib_or_try_all norm).
Proof.
  intros m Hsq Hi. unfold dlib_or_try_all. destruct (try_all_ok m Hsq Hi) as (s0 & E0 & M0).
  destruct (dlib_solve norm m) as [l| |]; [|eauto|eauto]. destruct (is_maximal m l) eqn:E; [|eauto].
  unfold is_maximal in E. apply andb_true_iff in E. destruct E as [E E4]. apply andb_true_iff in E. destruct E as [E E3].
  apply andb_true_iff in E. destruct E as [E1 E2]. destruct (list_eq_dec _ _ _) as [El|]; [|discriminate].
  exists (map Z.to_nat l). split; [exact El|]. rewrite E0, to_of_nat in E4. apply Z.leb_le in E4. apply Nat.eqb_eq in E2. split.
  - unfold is_assignment. symmetry. apply NoDup_Permutation_bis; [apply seq_NoDup|rewrite seq_length, E2; reflexivity|].
    intros j Hj. rewrite forallb_forall in E3. specialize (E3 j Hj). apply existsb_exists in E3. destruct E3 as (k & Hk & Ek). apply Nat.eqb_eq in Ek. now subst.
  - intros s' Hs'. pose proof (proj2 M0 s' Hs'). lia.
Qed.
Lemma dlib_or_try_all_agrees norm m s : nr m = nc m -> initialised m -> dlib_solve norm m = Done (map Z.of_nat s) -> max_assignment m s ->
  dlib_or_try_all norm m = map Z.of_nat s.
Proof.
  intros Hsq Hi E [P M]. unfold dlib_or_try_all. rewrite E. destruct (try_all_ok m Hsq Hi) as (s0 & E0 & M0).
  replace (is_maximal m (map Z.of_nat s)) with true; [reflexivity|]. symmetry. unfold is_maximal. rewrite E0, !to_of_nat.
  destruct (list_eq_dec _ _ _) as [_|N]; [|congruence]. unfold is_assignment in P. cbn [andb].
  rewrite (Permutation_length P), seq_length, Nat.eqb_refl. cbn [andb].
  apply andb_true_iff. split; [|apply Z.leb_le, M, (proj1 M0)]. apply forallb_forall. intros j Hj.
  apply existsb_exists. exists j. split; [|apply Nat.eqb_refl]. apply (Permutation_in _ (Permutation_sym P) Hj).
Qed.

(** ** gnn_associator with dlib's solver *)
Lemma gnn_dlib_ok norm scores : (forall z, - 2 ^ 31 <= z <= int_highest -> norm z = Done z) ->
  usable scores -> (length (tracks_of scores) <= length (detections_of scores))%nat ->
  gnn_associator_dlib norm scores = gnn_associator (dlib_or_try_all norm) scores.
Proof.
  intros Hn Hu Hle. destruct (usable_square scores Hu) as (m & ts & ds & costs & sq & Es & Em & Ec & Esq & Hr & Hc & Ht & Hd & Hz & Hp).
  destruct (uuid_sets_length scores ts ds Es) as [L1 L2].
  assert (Hsq : (nr sq = length ds)%nat) by lia.
  destruct (dlib_solve_ok norm sq (length ts) 100000000 Hn) as (s & Es' & Ms).
  - lia.
  - lia.
  - intros i j Hi Hj. apply Hz; lia.
  - intros i j Hi Hj. apply Hp; lia.
  - assert (Hini : initialised sq).
    { intros i j Hi Hj. destruct (Nat.lt_ge_cases i (length ts)) as [H|H]; [destruct (Hz i j) as (z & E & _); [lia|lia|eauto]|].
      exists int_lowest. apply Hp; lia. }
    unfold gnn_associator_dlib, gnn_associator. rewrite Em. cbn [rbind]. rewrite Ec. cbn [rbind]. rewrite Esq. cbn [rbind].
    rewrite Es', (dlib_or_try_all_agrees norm sq s (eq_sym Hc) Hini Es' Ms). reflexivity.
Qed.
Lemma gnn_dlib_undefined scores :
  usable scores -> (length (detections_of scores) < length (tracks_of scores))%nat ->
  gnn_associator_dlib int_checked scores = UB.
Proof.
  intros Hu Hlt. destruct (usable_square scores Hu) as (m & ts & ds & costs & sq & Es & Em & Ec & Esq & Hr & Hc & Ht & Hd & Hz & Hp).
  destruct (uuid_sets_length scores ts ds Es) as [L1 L2].
  unfold gnn_associator_dlib. rewrite Em. cbn [rbind]. rewrite Ec. cbn [rbind]. rewrite Esq. cbn [rbind].
  rewrite dlib_solve_overflow; [reflexivity| |].
  - exists 0%nat. destruct (Hz 0%nat 0%nat Ht Hd) as (z & E & B). exists z. split; [lia|]. split; [exact E|lia].
  - exists (length ds). split; [lia|]. apply Hp; lia.
Qed.

(** ** Scoring, gating and association *)
Section Scene.
  Context {Trk Det : Type} (tu : Trk -> uuid) (du : Det -> uuid) (metric : Trk -> Det -> option f32) (should_prune : f32 -> bool).
  Context (tracks : list Trk) (detections : list Det).
  Hypothesis N1 : NoDup (map tu tracks).
  Hypothesis N2 : NoDup (map du detections).
  Notation g := (gated tu du metric should_prune tracks detections).

  Lemma gated_has t d v : In t tracks -> In d detections -> metric t d = Some v -> should_prune v = false -> In ((tu t, du d), v) g.
  Proof.
    intros Ht Hd Hm Hp. pose proof (score_map_find tu du metric tracks detections) as [W F].
    unfold gated. rewrite prune_spec by exact W. apply filter_In. cbn. rewrite Hp. split; [|reflexivity].
    apply (OrdFacts.om_find_in _ OrdFacts.pair_total); [exact W|]. rewrite score_map_unique by assumption. exact Hm.
  Qed.
  Lemma scene_usable :
    (forall t d v, In t tracks -> In d detections -> metric t d = Some v -> should_prune v = false -> ordinary v) ->
    (exists t d v, In t tracks /\ In d detections /\ metric t d = Some v /\ should_prune v = false /\ (0 < B2R v)%R) -> usable g.
  Proof.
    intros O (t & d & v & Ht & Hd & Hm & Hp & Hv). pose proof (gated_has t d v Ht Hd Hm Hp) as Hin.
    split; [apply gated_wf|]. split; [intros E; rewrite E in Hin; destruct Hin|]. split.
    - intros k v' H. apply gated_in in H as (t' & d' & Ht' & Hd' & _ & Hm' & Hp'). eauto.
    - left. eauto.
  Qed.
  Lemma gated_tracks_le : (length (tracks_of g) <= length tracks)%nat.
  Proof.
    rewrite <- (map_length tu tracks). apply NoDup_incl_length; [apply NoDup_nodup|]. intros u Hu. apply in_tracks in Hu as (d & v & H).
    apply gated_in in H as (t & d' & Ht & _ & [= -> _] & _). now apply in_map.
  Qed.
  Lemma gated_detections_le : (length (detections_of g) <= length detections)%nat.
  Proof.
    rewrite <- (map_length du detections). apply NoDup_incl_length; [apply NoDup_nodup|]. intros u Hu. apply in_detections in Hu as (t & v & H).
    apply gated_in in H as (t' & d & _ & Hd & [= _ ->] & _). now apply in_map.
  Qed.
  Lemma gated_tracks_all : (forall t, In t tracks -> exists d v, In d detections /\ metric t d = Some v /\ should_prune v = false) ->
    (length tracks <= length (tracks_of g))%nat.
  Proof.
    intros H. rewrite <- (map_length tu tracks). apply NoDup_incl_length; [exact N1|]. intros u Hu. apply in_map_iff in Hu as (t & <- & Ht).
    destruct (H t Ht) as (d & v & Hd & Hm & Hp). apply in_tracks. exists (du d), v. now apply gated_has.
  Qed.
  Lemma gated_detections_all : (forall d, In d detections -> exists t v, In t tracks /\ metric t d = Some v /\ should_prune v = false) ->
    (length detections <= length (detections_of g))%nat.
  Proof.
    intros H. rewrite <- (map_length du detections). apply NoDup_incl_length; [exact N2|]. intros u Hu. apply in_map_iff in Hu as (d & <- & Hd).
    destruct (H d Hd) as (t & v & Ht & Hm & Hp). apply in_detections. exists (tu t), v. now apply gated_has.
  Qed.
End Scene.
