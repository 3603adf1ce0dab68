(** Properties C26 - C35 and C72: track matching.

    [solver_ok solve]: [solve] meets the contract of dlib::max_cost_assignment
    (MatchingSpec.v).  [map_wf]: sorted without repeated keys, as every std::map.
    [small_map]: fewer than 2^63 entries. *)
From Coq Require Import String List ZArith NArith Permutation Arith Lia Bool Reals Lra.
From Flocq Require Import Core IEEE754.BinarySingleNaN.
From Verif Require Import Base Uuid OrdMap OrdFacts DynObj Float DlibMatrix Scoring Matching MatchingSpec
  AssignProofs MatchingThms MatchingExamples.
Import ListNotations.
Open Scope string_scope.
Open Scope list_scope.
Open Scope nat_scope.

(** The contract can be met. *)
Theorem C26_contract_satisfiable : solver_ok try_all.
Proof. exact try_all_ok. Qed.

(** ** C26 *)
Theorem C26_one_to_one : forall solve (scores : score_map f32) (a : association_map),
  solver_ok solve -> small_map scores -> gnn_associator solve scores = Ok a ->
  om_wf bytes_compare a /\
  (forall t l, In (t, l) a -> exists d, l = [d]) /\
  one_to_one (assoc_pairs a) /\
  (forall t d, In (t, d) (assoc_pairs a) -> In t (tracks_of scores) /\ In d (detections_of scores)) /\
  length a = Nat.min (length (tracks_of scores)) (length (detections_of scores)) /\
  length (assoc_pairs a) = length a.
Proof. exact gnn_one_to_one. Qed.
Example C26_case : solver_ok try_all /\ small_map full /\
  gnn_associator try_all full = Ok [("t1", ["d2"]); ("t2", ["d1"])] /\
  length (tracks_of full) = 2 /\ length (detections_of full) = 3.
Proof. split; [apply try_all_ok|]. vm_compute. repeat split. Qed.

(** ** C27 *)
Theorem C27_optimal_on_complete_maps : forall solve (scores : score_map f32),
  solver_ok solve -> small_map scores -> map_wf scores -> complete scores ->
  (forall k v, In (k, v) scores -> ordinary v) ->
  (exists k v, In (k, v) scores /\ (0 < B2R v)%R) ->
  exists a, gnn_associator solve scores = Ok a /\
    forall l top,
      one_to_one l -> length l = length (assoc_pairs a) ->
      (forall t d, In (t, d) l -> exists v, In ((t, d), v) scores) ->
      (exists k v, In (k, v) scores /\ top = B2R v) ->
      (forall k v, In (k, v) scores -> (B2R v <= top)%R) ->
      (total_score scores (assoc_pairs a) <=
       total_score scores l + 21 / 100000000 * top * INR (length (assoc_pairs a)))%R.
Proof. exact gnn_optimal. Qed.
Example C27_case : small_map full /\ map_wf full /\ complete full /\
  (forall k v, In (k, v) full -> ordinary v) /\ (exists k v, In (k, v) full /\ (0 < B2R v)%R).
Proof.
  split; [reflexivity|]. split; [apply wf_full|]. split; [apply full_complete|]. split; [apply full_ok|].
  exists ("t1", "d1"), (f32_of_Z 5). split; [left; reflexivity|]. rewrite (proj1 (f32_small 5 eq_refl)). lra.
Qed.

(** ** C28.  The map [hall] of the witness gives four of nine pairs a score. *)
Theorem C28_gated_pairs_not_associated_refuted :
  exists scores : score_map f32, map_wf scores /\ small_map scores /\
    (forall k v, In (k, v) scores -> ordinary v) /\
    forall solve, solver_ok solve ->
      exists a t d, gnn_associator solve scores = Ok a /\ In (t, d) (assoc_pairs a) /\
        forall v, ~ In ((t, d), v) scores.
Proof.
  exists hall. split; [apply wf_hall|]. split; [reflexivity|]. split; [intros k v H; apply (hall_ok k v H)|].
  exact unscored_pair.
Qed.
(** In general: always when too few pairs can be matched one-to-one. *)
Theorem C28_unscored_pair_associated : forall solve (scores : score_map f32) a,
  solver_ok solve -> small_map scores -> gnn_associator solve scores = Ok a ->
  (forall l, one_to_one l -> (forall td, In td l -> exists v, In (td, v) scores) ->
     length l < Nat.min (length (tracks_of scores)) (length (detections_of scores))) ->
  exists t d, In (t, d) (assoc_pairs a) /\ forall v, ~ In ((t, d), v) scores.
Proof.
  intros solve scores a Hs Hsm E Hno. destruct (gnn_one_to_one solve scores a Hs Hsm E) as (_ & _ & H1 & _ & HL & HLa).
  destruct (Forall_Exists_dec (fun td => In td (map fst scores))) with (l := assoc_pairs a) as [Hall|Hex].
  - intros td. apply in_dec. intros [x1 x2] [y1 y2]. destruct (string_dec x1 y1), (string_dec x2 y2); (left; congruence) || (right; congruence).
  - exfalso. specialize (Hno (assoc_pairs a) H1). rewrite HLa, HL in Hno.
    enough (Nat.min (length (tracks_of scores)) (length (detections_of scores)) <
            Nat.min (length (tracks_of scores)) (length (detections_of scores))) by lia.
    apply Hno. intros td Htd. rewrite Forall_forall in Hall. specialize (Hall td Htd).
    apply in_map_iff in Hall as ([k v] & <- & Hin). eauto.
  - apply Exists_exists in Hex as ([t d] & Hin & Hn). exists t, d. split; [exact Hin|].
    intros v Hv. apply Hn. apply in_map_iff. exists ((t, d), v). auto.
Qed.
Example C28_case : gnn_associator try_all hall = Ok [("t1", ["d1"]); ("t2", ["d2"]); ("t3", ["d3"])] /\
  scored hall ("t2", "d2") = false.
Proof. vm_compute. split; reflexivity. Qed.

(** ** C29.  For every function [solve], whatever it returns. *)
Theorem C29_missing_pair_erases_values : forall solve (s s' : score_map f32),
  map_wf s -> map fst s = map fst s' -> missing_pair s ->
  (forall k v, In (k, v) s -> ordinary v /\ small_score v) ->
  (forall k v, In (k, v) s' -> ordinary v /\ small_score v) ->
  gnn_associator solve s = gnn_associator solve s'.
Proof. exact gnn_ignores_values. Qed.
Example C29_case : map_wf gate_a /\ map fst gate_a = map fst gate_b /\ missing_pair gate_a /\
  (forall k v, In (k, v) gate_a -> ordinary v /\ small_score v) /\
  (forall k v, In (k, v) gate_b -> ordinary v /\ small_score v) /\
  gnn_associator try_all gate_a = Ok [("t1", ["d2"]); ("t2", ["d3"])].
Proof.
  split; [apply wf_gate_a|]. split; [reflexivity|]. split; [apply gate_a_missing|].
  split; [apply gate_a_ok|]. split; [apply gate_b_ok|]. vm_compute. reflexivity.
Qed.

(** ** C30.  Whatever solver is used. *)
Theorem C30_optimal_after_gating_refuted : forall solve, solver_ok solve ->
  exists (scores : score_map f32) a l,
    map_wf scores /\ small_map scores /\ (forall k v, In (k, v) scores -> ordinary v) /\
    gnn_associator solve scores = Ok a /\
    one_to_one l /\ length l = length (assoc_pairs a) /\
    (forall t d, In (t, d) l -> exists v, In ((t, d), v) scores) /\
    (forall t d, In (t, d) (assoc_pairs a) -> exists v, In ((t, d), v) scores) /\
    (0 < total_score scores l)%R /\
    (1000000000 * total_score scores l <= total_score scores (assoc_pairs a))%R.
Proof. exact nearest_lost. Qed.

(** ** C31 *)
Theorem C31_empty_map_undefined : forall solve, gnn_associator solve [] = UB.
Proof. exact gnn_empty_ub. Qed.
Theorem C31_all_zero_undefined : forall solve (scores : score_map f32),
  map_wf scores -> scores <> [] -> complete scores ->
  (forall k v, In (k, v) scores -> is_finite v = true /\ B2R v = 0%R) -> gnn_associator solve scores = UB.
Proof. exact gnn_zero_ub. Qed.
Example C31_case :
  let scores := [(("t1", "d1"), f32_of_Z 0)] in
  map_wf scores /\ scores <> [] /\ complete scores /\
  (forall k v, In (k, v) scores -> is_finite v = true /\ B2R v = 0%R) /\ gnn_associator try_all scores = UB.
Proof.
  split; [repeat split|]. split; [discriminate|]. split.
  - intros t d [<-|[]] [<-|[]]. eexists. left. reflexivity.
  - split; [|reflexivity]. intros k v [H|[]]. apply pair_equal_spec in H as [_ <-]. split; reflexivity.
Qed.

(** ** C32.  [usable]: sorted, not empty, ordinary scores, one of them positive or one pair missing. *)
Theorem C32_defined : forall solve (scores : score_map f32),
  solver_ok solve -> small_map scores -> usable scores -> exists a, gnn_associator solve scores = Ok a.
Proof. exact usable_defined. Qed.
Theorem C32_costs : forall scores : score_map f32, usable scores ->
  exists m ts ds costs,
    score_matrix_from_score_map scores = Ok (m, ts, ds) /\ cost_matrix_from_score_matrix m = Ok costs /\
    nr costs = nr m /\ nc costs = nc m /\
    (forall r c, r < nr m -> c < nc m -> exists z, elem costs r c = Some z /\ (0 <= z <= 100000000)%Z) /\
    (forall r c r' c' v v' z z', r < nr m -> c < nc m -> r' < nr m -> c' < nc m ->
       elem m r c = Some v -> elem m r' c' = Some v' -> elem costs r c = Some z -> elem costs r' c' = Some z' ->
       (B2R v <= B2R v')%R -> (z' <= z)%Z).
Proof. exact usable_cost_matrix. Qed.
Example C32_case : usable full /\ usable hall /\
  match score_matrix_from_score_map full with
  | Ok (m, _, _) => match cost_matrix_from_score_matrix m with
                    | Ok c => map (fun j => elem c 0 j) [0; 1; 2] = [Some 44444440; Some 77777776; Some 0]%Z
                    | _ => False end
  | _ => False end.
Proof.
  split.
  - destruct C27_case as (_ & Hw & _ & Ho & Hp). split; [exact Hw|]. split; [discriminate|]. split; [exact Ho|]. left. exact Hp.
  - split; [apply missing_usable; [apply wf_hall|apply hall_missing|intros k v H; apply (hall_ok k v H)]|].
    vm_compute. reflexivity.
Qed.

(** ** C33 *)
Theorem C33_square_padding : forall (A : Type) (m : mat A) (pad : A), initialised m ->
  exists sq, make_square_matrix m pad = Ok sq /\
    nr sq = Nat.max (nr m) (nc m) /\ nc sq = Nat.max (nr m) (nc m) /\
    (forall i j, i < nr m -> j < nc m -> elem sq i j = elem m i j) /\
    (forall i j, i < nr sq -> j < nc sq -> nr m <= i \/ nc m <= j -> elem sq i j = Some pad).
Proof.
  intros A m pad Hi. destruct (make_square_spec m pad Hi) as (sq & H1 & H2 & H3 & H4 & H5 & _). exists sq. auto.
Qed.
Theorem C33_padding_neutral : forall (m sq : mat Z) (pad : Z), initialised m -> make_square_matrix m pad = Ok sq ->
  forall s, is_assignment (nr sq) s ->
    full_matching m (block_pairs (nr m) (nc m) (nr sq) s) /\
    (max_assignment sq s <->
     forall M, full_matching m M ->
       (Zsum (map (entry_of m) M) <= Zsum (map (entry_of m) (block_pairs (nr m) (nc m) (nr sq) s)))%Z).
Proof.
  intros m sq pad Hi E s Hs. destruct (make_square_spec m pad Hi) as (sq' & E' & H2 & H3 & H4 & H5 & _).
  rewrite E' in E. injection E as ->. rewrite H2 in Hs |- *. split.
  - apply block_full, Hs.
  - apply (padded_optimal m sq pad); assumption.
Qed.
Example C33_case :
  let m := Mat 1 2 (fun _ j => nth_error [7; 9]%Z j) in
  initialised m /\
  match make_square_matrix m (-5)%Z with
  | Ok sq => map (fun ij => elem sq (fst ij) (snd ij)) [(0, 0); (0, 1); (1, 0); (1, 1)] = map Some [7; 9; -5; -5]%Z
  | _ => False end.
Proof.
  split; [|reflexivity]. intros i j Hi Hj. cbn in *. destruct j as [|[|j]]; cbn; eauto; lia.
Qed.

(** ** C34 *)
Theorem C34_has_association : forall (a : association_map),
  let h := make_has_association a in
  (forall T S C (o : dyn_obj T S C), ha_track h o = true <-> exists l, In (o_uuid o, l) a) /\
  (forall T S C (o : dyn_obj T S C), ha_detection h o = true <-> exists t l, In (t, l) a /\ In (o_uuid o) l).
Proof.
  intros a h. destruct (ha_spec a (HasAssociation [] [])) as [H1 H2]. split; intros T S C o.
  - unfold ha_track. rewrite set_count_in. unfold h, make_has_association. rewrite H1. cbn. tauto.
  - unfold ha_detection. rewrite set_count_in. unfold h, make_has_association. rewrite H2. cbn. tauto.
Qed.
Theorem C34_has_association_variant : forall (a : association_map),
  let h := make_has_association a in
  (forall T S1 C1 S2 C2 (o : vobj T S1 C1 S2 C2),
     ha_track_variant h o = true <-> exists l, In (v_uuid o, l) a) /\
  (forall T S1 C1 S2 C2 (o : vobj T S1 C1 S2 C2),
     ha_detection_variant h o = true <-> exists t l, In (t, l) a /\ In (v_uuid o) l).
Proof.
  intros a h. destruct (C34_has_association a) as [H1 H2]. split; intros T S1 C1 S2 C2 [o|o]; cbn.
  - apply H1.
  - apply H1.
  - apply H2.
  - apply H2.
Qed.
Example C34_case :
  let h := make_has_association [("a", ["x"; "y"]); ("b", [])] in
  let o u := DynObj 0 0 0 u kUnknown in
  map (fun u => ha_track h (o u)) ["a"; "b"; "x"] = [true; true; false] /\
  map (fun u => ha_detection h (o u)) ["x"; "y"; "a"] = [true; true; false].
Proof. split; reflexivity. Qed.

(** ** C35.  [s] is a std::set: sorted without repetition. *)
Theorem C35_get_element_at : forall (s : list uuid) (i : N), os_wf bytes_compare s ->
  (forall x, get_element_at s i = Ok x <-> In x s /\ N.of_nat (length (filter (fun y => uuid_ltb y x) s)) = i) /\
  (get_element_at s i = Throw out_of_range <-> (N.of_nat (length s) <= i)%N).
Proof. exact get_element_at_spec. Qed.
Example C35_case : os_wf bytes_compare ["a"; "b"; "c"] /\ get_element_at ["a"; "b"; "c"] 1 = Ok "b" /\
  get_element_at ["a"; "b"; "c"] 3 = Throw out_of_range.
Proof. repeat split. Qed.

(** ** C72.  What is still guaranteed after gating. *)
Theorem C72_as_many_scored_pairs_as_possible : forall solve (scores : score_map f32) a,
  solver_ok solve -> small_map scores -> map_wf scores -> missing_pair scores ->
  (forall k v, In (k, v) scores -> ordinary v /\ small_score v) ->
  gnn_associator solve scores = Ok a ->
  forall l, one_to_one l -> length l = length (assoc_pairs a) ->
    (forall t d, In (t, d) l -> In t (tracks_of scores) /\ In d (detections_of scores)) ->
    length (filter (scored scores) l) <= length (filter (scored scores) (assoc_pairs a)).
Proof. exact gnn_max_scored. Qed.
Example C72_case : small_map hall /\ map_wf hall /\ missing_pair hall /\
  (forall k v, In (k, v) hall -> ordinary v /\ small_score v) /\
  match gnn_associator try_all hall with
  | Ok a => length (filter (scored hall) (assoc_pairs a)) = 2 /\ length (assoc_pairs a) = 3
  | _ => False end.
Proof.
  split; [reflexivity|]. split; [apply wf_hall|]. split; [apply hall_missing|]. split; [apply hall_ok|].
  vm_compute. split; reflexivity.
Qed.

Print Assumptions C26_one_to_one.
Print Assumptions C27_optimal_on_complete_maps.
Print Assumptions C28_gated_pairs_not_associated_refuted.
Print Assumptions C28_unscored_pair_associated.
Print Assumptions C29_missing_pair_erases_values.
Print Assumptions C30_optimal_after_gating_refuted.
Print Assumptions C31_empty_map_undefined.
Print Assumptions C31_all_zero_undefined.
Print Assumptions C32_defined.
Print Assumptions C32_costs.
Print Assumptions C33_square_padding.
Print Assumptions C33_padding_neutral.
Print Assumptions C34_has_association.
Print Assumptions C34_has_association_variant.
Print Assumptions C35_get_element_at.
Print Assumptions C72_as_many_scored_pairs_as_possible.
