(** Assignments on padded matrices. *)
From Coq Require Import List ZArith Permutation Arith Lia Bool.
From Verif Require Import Base DlibMatrix MatchingSpec.
Import ListNotations.

(** ** Loops *)
Lemma for_range_inv {S} (P : nat -> S -> Prop) lo hi body s :
  lo <= hi -> P lo s ->
  (forall i s, lo <= i < hi -> P i s -> exists s', body i s = Ok s' /\ P (i + 1) s') ->
  exists s', for_range lo hi body s = Ok s' /\ P hi s'.
Proof.
  unfold for_range. intros Hle. remember (hi - lo) as k eqn:Hk. revert lo Hle Hk s.
  induction k as [|k IH]; intros lo Hle Hk s Hp Hb.
  - assert (lo = hi) as -> by lia. exists s. split; [reflexivity|exact Hp].
  - destruct (Hb lo s ltac:(lia) Hp) as (s1 & E1 & H1). cbn. rewrite E1. cbn.
    apply IH; [lia|lia|exact H1|]. intros i s2 Hi. apply Hb. lia.
Qed.

Definition in_range (lo hi i : nat) : bool := (lo <=? i) && (i <? hi).
Lemma in_range_spec lo hi i : in_range lo hi i = true <-> lo <= i < hi.
Proof. unfold in_range. rewrite andb_true_iff, Nat.leb_le, Nat.ltb_lt. tauto. Qed.

(** Two nested loops that assign (or leave alone) one element per step. *)
Lemma fill_range {A} (m0 : mat A) rlo rhi clo chi (body : nat -> nat -> mat A -> result (mat A))
    (h : nat -> nat -> option A -> option A) :
  rlo <= rhi -> clo <= chi ->
  (forall i j m, rlo <= i < rhi -> clo <= j < chi -> nr m = nr m0 -> nc m = nc m0 ->
     exists m', body i j m = Ok m' /\ nr m' = nr m0 /\ nc m' = nc m0 /\
       forall a b, elem m' a b = if (a =? i) && (b =? j) then h i j (elem m i j) else elem m a b) ->
  exists m', for_range rlo rhi (fun r m => for_range clo chi (fun c m => body r c m) m) m0 = Ok m' /\
    nr m' = nr m0 /\ nc m' = nc m0 /\
    forall a b, elem m' a b = if in_range rlo rhi a && in_range clo chi b then h a b (elem m0 a b) else elem m0 a b.
Proof.
  intros Hr Hc Hb.
  apply (for_range_inv (fun i m => nr m = nr m0 /\ nc m = nc m0 /\
    forall a b, elem m a b = if in_range rlo i a && in_range clo chi b then h a b (elem m0 a b) else elem m0 a b)
    rlo rhi); [exact Hr| |].
  - split; [reflexivity|]. split; [reflexivity|]. intros a b.
    destruct (in_range rlo rlo a) eqn:E; [apply in_range_spec in E; lia|reflexivity].
  - intros i m Hi (Hnr & Hnc & Hm).
    destruct (for_range_inv (fun j m' => nr m' = nr m0 /\ nc m' = nc m0 /\
      forall a b, elem m' a b = if (a =? i) && in_range clo j b then h a b (elem m0 a b) else elem m a b)
      clo chi (fun c m => body i c m) m) as (m' & E & Hnr' & Hnc' & Hm'); [exact Hc| | |].
    + split; [exact Hnr|]. split; [exact Hnc|]. intros a b.
      destruct (in_range clo clo b) eqn:E; [apply in_range_spec in E; lia|].
      rewrite andb_false_r. reflexivity.
    + intros j m1 Hj (Hnr1 & Hnc1 & Hm1).
      destruct (Hb i j m1 Hi Hj Hnr1 Hnc1) as (m2 & E2 & Hnr2 & Hnc2 & Hm2).
      exists m2. split; [exact E2|]. split; [exact Hnr2|]. split; [exact Hnc2|]. intros a b. rewrite Hm2.
      destruct (Nat.eqb_spec a i) as [->|Ha]; cbn.
      * destruct (Nat.eqb_spec b j) as [->|Hbj].
        -- assert (in_range clo (j + 1) j = true) as -> by (apply in_range_spec; lia).
           rewrite Hm1, Nat.eqb_refl. cbn.
           destruct (in_range clo j j) eqn:E; [apply in_range_spec in E; lia|].
           rewrite Hm. destruct (in_range rlo i i) eqn:E'; [apply in_range_spec in E'; lia|]. reflexivity.
        -- rewrite Hm1, Nat.eqb_refl. cbn.
           replace (in_range clo (j + 1) b) with (in_range clo j b); [reflexivity|].
           apply eq_true_iff_eq. rewrite !in_range_spec. lia.
      * rewrite Hm1. destruct (Nat.eqb_spec a i); [contradiction|]. reflexivity.
    + exists m'. split; [exact E|]. split; [exact Hnr'|]. split; [exact Hnc'|]. intros a b. rewrite Hm'.
      destruct (Nat.eqb_spec a i) as [->|Ha]; cbn.
      * assert (in_range rlo (i + 1) i = true) as -> by (apply in_range_spec; lia). cbn.
        destruct (in_range clo chi b) eqn:E1; [reflexivity|]. rewrite Hm, E1, andb_false_r. reflexivity.
      * rewrite Hm. replace (in_range rlo (i + 1) a) with (in_range rlo i a); [reflexivity|].
        apply eq_true_iff_eq. rewrite !in_range_spec. lia.
Qed.

Lemma mat_set_ok {A} (m : mat A) r c v :
  r < nr m -> c < nc m ->
  mat_set m r c v = Ok (Mat (nr m) (nc m) (fun i j => if (i =? r) && (j =? c) then Some v else elem m i j)).
Proof.
  intros Hr Hc. unfold mat_set. apply Nat.ltb_lt in Hr, Hc. rewrite Hr, Hc. reflexivity.
Qed.
Lemma mat_get_ok {A} (m : mat A) r c v :
  r < nr m -> c < nc m -> elem m r c = Some v -> mat_get m r c = Ok v.
Proof.
  intros Hr Hc Hv. unfold mat_get. apply Nat.ltb_lt in Hr, Hc. rewrite Hr, Hc. cbn. rewrite Hv. reflexivity.
Qed.

(** ** make_square_matrix *)
Lemma make_square_spec {A} (m : mat A) (pad : A) :
  initialised m ->
  exists sq, make_square_matrix m pad = Ok sq /\
    nr sq = Nat.max (nr m) (nc m) /\ nc sq = Nat.max (nr m) (nc m) /\
    (forall i j, i < nr m -> j < nc m -> elem sq i j = elem m i j) /\
    (forall i j, i < nr sq -> j < nc sq -> nr m <= i \/ nc m <= j -> elem sq i j = Some pad) /\
    (forall i j, nr sq <= i \/ nc sq <= j -> elem sq i j = None).
Proof.
  intros Hi. unfold make_square_matrix. set (n := Nat.max (nr m) (nc m)).
  destruct (fill_range (mat_new n n) 0 (nr m) 0 (nc m)
    (fun row column sq => let* v := mat_get m row column in mat_set sq row column v)
    (fun i j _ => elem m i j)) as (sq & E & Hnr & Hnc & Hsq); [lia|lia| |].
  { intros i j m1 Hii Hjj Hnr Hnc. cbn in Hnr, Hnc. destruct (Hi i j) as [v Hv]; [lia|lia|].
    rewrite (mat_get_ok m i j v) by (try lia; exact Hv). cbn [rbind].
    rewrite mat_set_ok by lia. eexists. split; [reflexivity|]. cbn. split; [exact Hnr|]. split; [exact Hnc|].
    intros a b. rewrite Hv. reflexivity. }
  rewrite E. cbn [rbind]. cbn [nr nc elem mat_new] in Hnr, Hnc, Hsq.
  destruct (Nat.ltb_spec (nc m) (nr m)) as [Hlt|Hge].
  - destruct (fill_range sq 0 n (nc m) n (fun row column sq => mat_set sq row column pad)
      (fun i j _ => Some pad)) as (sq' & E' & Hnr' & Hnc' & Hsq'); [lia|lia| |].
    { intros i j m1 Hii Hjj Hnr1 Hnc1. rewrite mat_set_ok by lia. eexists. split; [reflexivity|].
      cbn. split; [lia|]. split; [lia|]. reflexivity. }
    exists sq'. split; [exact E'|]. split; [lia|]. split; [lia|]. split; [|split].
    + intros i j Hii Hjj. rewrite Hsq'.
      destruct (in_range (nc m) n j) eqn:E1; [apply in_range_spec in E1; lia|]. rewrite andb_false_r, Hsq.
      assert (in_range 0 (nr m) i = true) as -> by (apply in_range_spec; lia).
      assert (in_range 0 (nc m) j = true) as -> by (apply in_range_spec; lia). reflexivity.
    + intros i j Hii Hjj Hor. rewrite Hsq'.
      assert (in_range 0 n i = true) as -> by (apply in_range_spec; lia).
      assert (in_range (nc m) n j = true) as -> by (apply in_range_spec; lia). reflexivity.
    + intros i j Hor. rewrite Hsq', Hsq.
      destruct (in_range 0 n i && in_range (nc m) n j) eqn:E1.
      { apply andb_true_iff in E1 as [E1 E2]. apply in_range_spec in E1, E2. lia. }
      destruct (in_range 0 (nr m) i && in_range 0 (nc m) j) eqn:E2; [|reflexivity].
      apply andb_true_iff in E2 as [E2 E3]. apply in_range_spec in E2, E3. lia.
  - destruct (fill_range sq (nr m) n 0 n (fun row column sq => mat_set sq row column pad)
      (fun i j _ => Some pad)) as (sq' & E' & Hnr' & Hnc' & Hsq'); [lia|lia| |].
    { intros i j m1 Hii Hjj Hnr1 Hnc1. rewrite mat_set_ok by lia. eexists. split; [reflexivity|].
      cbn. split; [lia|]. split; [lia|]. reflexivity. }
    exists sq'. split; [exact E'|]. split; [lia|]. split; [lia|]. split; [|split].
    + intros i j Hii Hjj. rewrite Hsq'.
      destruct (in_range (nr m) n i) eqn:E1; [apply in_range_spec in E1; lia|]. cbn. rewrite Hsq.
      assert (in_range 0 (nr m) i = true) as -> by (apply in_range_spec; lia).
      assert (in_range 0 (nc m) j = true) as -> by (apply in_range_spec; lia). reflexivity.
    + intros i j Hii Hjj Hor. rewrite Hsq'.
      assert (in_range 0 n j = true) as -> by (apply in_range_spec; lia).
      assert (in_range (nr m) n i = true) as -> by (apply in_range_spec; lia). reflexivity.
    + intros i j Hor. rewrite Hsq', Hsq.
      destruct (in_range (nr m) n i && in_range 0 n j) eqn:E1.
      { apply andb_true_iff in E1 as [E1 E2]. apply in_range_spec in E1, E2. lia. }
      destruct (in_range 0 (nr m) i && in_range 0 (nc m) j) eqn:E2; [|reflexivity].
      apply andb_true_iff in E2 as [E2 E3]. apply in_range_spec in E2, E3. lia.
Qed.

(** ** Sums *)
Lemma Zsum_app l l' : Zsum (l ++ l') = (Zsum l + Zsum l')%Z.
Proof. unfold Zsum. induction l as [|a l IH]; cbn; [reflexivity|]. rewrite IH. lia. Qed.
Lemma Zsum_perm l l' : Permutation l l' -> Zsum l = Zsum l'.
Proof. unfold Zsum. induction 1; cbn; lia. Qed.
Lemma Zsum_const {A} (f : A -> Z) c l : (forall x, In x l -> f x = c) -> Zsum (map f l) = (c * Z.of_nat (length l))%Z.
Proof.
  unfold Zsum. induction l as [|a l IH]; intros H; cbn [map fold_right length]; [lia|]. rewrite H by (left; reflexivity).
  rewrite IH by (intros; apply H; right; assumption). lia.
Qed.

(** ** Index sets *)
Lemma filter_length_app {A} (f : A -> bool) l : length (filter f l) + length (filter (fun x => negb (f x)) l) = length l.
Proof. induction l as [|a l IH]; [reflexivity|]. cbn. destruct (f a); cbn; lia. Qed.
Lemma filter_perm_split {A} (f : A -> bool) l : Permutation l (filter f l ++ filter (fun x => negb (f x)) l).
Proof.
  induction l as [|a l IH]; [constructor|]. cbn. destruct (f a); cbn.
  - constructor. exact IH.
  - apply Permutation_cons_app. exact IH.
Qed.
Lemma filter_perm {A} (f : A -> bool) l l' : Permutation l l' -> Permutation (filter f l) (filter f l').
Proof.
  induction 1 as [|x l l' H IH|x y l|l l' l'' H1 IH1 H2 IH2]; cbn.
  - constructor.
  - destruct (f x); [constructor|]; exact IH.
  - destruct (f x), (f y); try apply perm_swap; apply Permutation_refl.
  - eapply Permutation_trans; eassumption.
Qed.

Definition missing (n : nat) (l : list nat) : list nat :=
  filter (fun i => negb (existsb (Nat.eqb i) l)) (seq 0 n).
Lemma missing_in n l i : In i (missing n l) <-> i < n /\ ~ In i l.
Proof.
  unfold missing. rewrite filter_In, in_seq, negb_true_iff.
  assert (existsb (Nat.eqb i) l = false <-> ~ In i l) as ->.
  { rewrite <- not_true_iff_false, existsb_exists. split.
    - intros H Hin. apply H. exists i. split; [exact Hin|apply Nat.eqb_refl].
    - intros H (x & Hx & E). apply Nat.eqb_eq in E as ->. contradiction. }
  split; (intros [? ?]; split; [lia|assumption]).
Qed.
Lemma nodup_app_disj {A} (l q : list A) : NoDup l -> NoDup q -> (forall x, In x l -> ~ In x q) -> NoDup (l ++ q).
Proof.
  induction l as [|b l IH]; intros Hl Hq Hd; [exact Hq|]. inversion Hl; subst. cbn. constructor.
  - rewrite in_app_iff. intros [H|H]; [contradiction|]. apply (Hd b); [left; reflexivity|exact H].
  - apply IH; [assumption|exact Hq|]. intros x Hx. apply Hd. right. exact Hx.
Qed.
Lemma missing_perm n l : NoDup l -> (forall i, In i l -> i < n) -> Permutation (l ++ missing n l) (seq 0 n).
Proof.
  intros Hn Hl. apply NoDup_Permutation.
  - apply nodup_app_disj; [exact Hn|apply NoDup_filter, seq_NoDup|].
    intros x Hx Hm. apply missing_in in Hm. tauto.
  - apply seq_NoDup.
  - intros x. rewrite in_app_iff, missing_in, in_seq. split.
    + intros [H|H]; [apply Hl in H; lia|lia].
    + intros H. destruct (in_dec Nat.eq_dec x l); [left|right]; [assumption|]. split; [lia|assumption].
Qed.

Lemma combine_fst_snd {A B} (l : list (A * B)) : combine (map fst l) (map snd l) = l.
Proof. induction l as [|[a b] l IH]; cbn; [reflexivity|]. rewrite IH. reflexivity. Qed.
Lemma map_fst_combine {A B} (l : list A) (l' : list B) : length l = length l' -> map fst (combine l l') = l.
Proof. revert l'. induction l as [|a l IH]; intros [|b l'] H; cbn in *; try lia; [reflexivity|]. rewrite IH by lia. reflexivity. Qed.
Lemma map_snd_combine {A B} (l : list A) (l' : list B) : length l = length l' -> map snd (combine l l') = l'.
Proof. revert l'. induction l as [|a l IH]; intros [|b l'] H; cbn in *; try lia; [reflexivity|]. rewrite IH by lia. reflexivity. Qed.

(** A one-to-one set of index pairs extends to an assignment; the added pairs use
    only unused rows and columns. *)
Lemma extend_matching n (M : list (nat * nat)) :
  one_to_one M -> (forall i j, In (i, j) M -> i < n /\ j < n) ->
  exists s rest, is_assignment n s /\ Permutation (combine (seq 0 n) s) (M ++ rest) /\
    (forall i j, In (i, j) rest -> ~ In i (map fst M) /\ ~ In j (map snd M)).
Proof.
  intros [H1 H2] Hr.
  assert (Permutation (map fst M ++ missing n (map fst M)) (seq 0 n)) as P1.
  { apply missing_perm; [exact H1|]. intros i Hi. apply in_map_iff in Hi as ([a b] & <- & Hin). apply (Hr a b Hin). }
  assert (Permutation (map snd M ++ missing n (map snd M)) (seq 0 n)) as P2.
  { apply missing_perm; [exact H2|]. intros i Hi. apply in_map_iff in Hi as ([a b] & <- & Hin). apply (Hr a b Hin). }
  set (R := missing n (map fst M)) in *. set (C := missing n (map snd M)) in *.
  assert (length R = length C) as HL.
  { apply Permutation_length in P1, P2. rewrite app_length, map_length, seq_length in P1, P2. lia. }
  set (P := M ++ combine R C).
  assert (map fst P = map fst M ++ R) as F1 by (unfold P; rewrite map_app, map_fst_combine by exact HL; reflexivity).
  assert (map snd P = map snd M ++ C) as F2 by (unfold P; rewrite map_app, map_snd_combine by exact HL; reflexivity).
  rewrite <- F1 in P1. rewrite <- F2 in P2.
  destruct (Permutation_map_inv fst P (Permutation_sym P1)) as (P' & E & HP).
  exists (map snd P'), (combine R C). split; [|split].
  - unfold is_assignment. rewrite <- P2. apply Permutation_map, Permutation_sym, HP.
  - rewrite E, combine_fst_snd. apply Permutation_sym, HP.
  - intros i j Hin. split.
    + apply in_combine_l in Hin. apply missing_in in Hin. tauto.
    + apply in_combine_r in Hin. apply missing_in in Hin. tauto.
Qed.


Lemma assignment_length n s : is_assignment n s -> length s = n.
Proof. intros H. apply Permutation_length in H. rewrite seq_length in H. exact H. Qed.
Lemma assignment_lt n s j : is_assignment n s -> In j s -> j < n.
Proof. intros H Hj. apply (Permutation_in _ H) in Hj. apply in_seq in Hj. lia. Qed.
Lemma assignment_nodup n s : is_assignment n s -> NoDup s.
Proof. intros H. apply (Permutation_NoDup (Permutation_sym H)), seq_NoDup. Qed.

Lemma nodup_map_filter {A B} (f : A -> B) p l : NoDup (map f l) -> NoDup (map f (filter p l)).
Proof.
  induction l as [|a l IH]; intros H; [constructor|]. inversion H; subst. cbn. destruct (p a); cbn; [|auto].
  constructor; [|auto]. intros Hin. apply H2. apply in_map_iff in Hin as (x & E & Hx).
  apply filter_In in Hx. rewrite <- E. apply in_map. tauto.
Qed.
Lemma block_one_to_one r c n s : is_assignment n s -> one_to_one (block_pairs r c n s).
Proof.
  intros H. pose proof (assignment_length n s H) as HL. split; apply nodup_map_filter.
  - rewrite map_fst_combine by (rewrite seq_length; lia). apply seq_NoDup.
  - rewrite map_snd_combine by (rewrite seq_length; lia). eapply assignment_nodup, H.
Qed.
Lemma block_in r c n s i j : In (i, j) (block_pairs r c n s) <-> In (i, j) (combine (seq 0 n) s) /\ i < r /\ j < c.
Proof. unfold block_pairs. rewrite filter_In. unfold in_block. cbn [fst snd]. rewrite andb_true_iff, !Nat.ltb_lt. tauto. Qed.

Lemma filter_map_length {A B} (f : A -> B) (p : B -> bool) l : length (filter (fun x => p (f x)) l) = length (filter p (map f l)).
Proof. induction l as [|a l IH]; [reflexivity|]. cbn. destruct (p (f a)); cbn; lia. Qed.
Lemma filter_seq_lt n k : k <= n -> length (filter (fun i => i <? k) (seq 0 n)) = k.
Proof.
  intros H. replace n with (k + (n - k)) by lia. rewrite seq_app, filter_app, app_length.
  assert (forall l, (forall i, In i l -> i < k) -> filter (fun i => i <? k) l = l) as G1.
  { induction l as [|a l IH]; intros Hl; [reflexivity|]. cbn [filter].
    assert (a <? k = true) as -> by (apply Nat.ltb_lt, Hl; left; reflexivity).
    rewrite IH by (intros; apply Hl; right; assumption). reflexivity. }
  assert (forall l, (forall i, In i l -> k <= i) -> filter (fun i => i <? k) l = []) as G2.
  { induction l as [|a l IH]; intros Hl; [reflexivity|]. cbn [filter].
    assert (a <? k = false) as -> by (apply Nat.ltb_ge, Hl; left; reflexivity).
    apply IH. intros; apply Hl; right; assumption. }
  rewrite G1, G2, seq_length; cbn; [lia| |]; intros i Hi; apply in_seq in Hi; lia.
Qed.
Lemma filter_ext_in' {A} (f g : A -> bool) l : (forall a, In a l -> f a = g a) -> filter f l = filter g l.
Proof. apply filter_ext_in. Qed.

Lemma block_length r c s : is_assignment (Nat.max r c) s -> length (block_pairs r c (Nat.max r c) s) = Nat.min r c.
Proof.
  intros H. pose proof (assignment_length _ s H) as HL. unfold block_pairs. set (n := Nat.max r c) in *.
  destruct (le_lt_dec r c) as [Hle|Hlt].
  - rewrite (filter_ext_in' _ (fun ij => fst ij <? r)).
    + rewrite (filter_map_length fst (fun i => i <? r)), map_fst_combine by (rewrite seq_length; lia).
      rewrite filter_seq_lt by lia. lia.
    + intros [i j] Hin. unfold in_block. cbn [fst snd].
      assert (j <? c = true) as -> by (apply Nat.ltb_lt; apply in_combine_r in Hin; apply (assignment_lt n s) in Hin; [lia|exact H]).
      apply andb_true_r.
  - rewrite (filter_ext_in' _ (fun ij => snd ij <? c)).
    + rewrite (filter_map_length snd (fun i => i <? c)), map_snd_combine by (rewrite seq_length; lia).
      rewrite (Permutation_length (filter_perm _ _ _ H)), filter_seq_lt by lia. lia.
    + intros [i j] Hin. unfold in_block. cbn [fst snd].
      assert (i <? r = true) as -> by (apply Nat.ltb_lt; apply in_combine_l in Hin; apply in_seq in Hin; lia).
      reflexivity.
Qed.

Lemma map_ext_in' {A B} (f g : A -> B) l : (forall a, In a l -> f a = g a) -> map f l = map g l.
Proof. apply map_ext_in. Qed.

Section Padded.
  Context (m sq : mat Z) (pad : Z).
  Let n := Nat.max (nr m) (nc m).
  Hypothesis Hnr : nr sq = n.
  Hypothesis Hnc : nc sq = n.
  Hypothesis Hblock : forall i j, i < nr m -> j < nc m -> elem sq i j = elem m i j.
  Hypothesis Hpad : forall i j, i < nr sq -> j < nc sq -> nr m <= i \/ nc m <= j -> elem sq i j = Some pad.

  Lemma padded_cost s : is_assignment n s ->
    assignment_cost sq s =
    (Zsum (map (entry_of m) (block_pairs (nr m) (nc m) n s)) + pad * Z.of_nat (n - Nat.min (nr m) (nc m)))%Z.
  Proof.
    intros H. unfold assignment_cost. rewrite Hnr.
    pose proof (filter_perm_split (in_block (nr m) (nc m)) (combine (seq 0 n) s)) as HP.
    rewrite (Zsum_perm _ _ (Permutation_map (entry_of sq) HP)), map_app, Zsum_app. f_equal.
    - f_equal. apply map_ext_in'. intros [i j] Hin. apply block_in in Hin as (_ & Hi & Hj).
      unfold entry_of. cbn. rewrite Hblock by assumption. reflexivity.
    - rewrite (Zsum_const _ pad).
      + f_equal. f_equal. pose proof (filter_length_app (in_block (nr m) (nc m)) (combine (seq 0 n) s)) as HLa.
        rewrite combine_length, seq_length, (assignment_length _ _ H) in HLa.
        pose proof (block_length (nr m) (nc m) s H) as HLb. unfold block_pairs in HLb. fold n in HLb. lia.
      + intros [i j] Hin. apply filter_In in Hin as [Hin Hb]. unfold entry_of. cbn.
        apply negb_true_iff in Hb. unfold in_block in Hb. cbn [fst snd] in Hb.
        rewrite Hpad; [reflexivity| | |].
        * rewrite Hnr. apply in_combine_l in Hin. apply in_seq in Hin. lia.
        * rewrite Hnc. apply in_combine_r in Hin. apply (assignment_lt n s) in Hin; [lia|exact H].
        * apply andb_false_iff in Hb. rewrite !Nat.ltb_ge in Hb. tauto.
  Qed.


  Lemma block_full s : is_assignment n s -> full_matching m (block_pairs (nr m) (nc m) n s).
  Proof.
    intros H. split; [apply block_one_to_one, H|]. split.
    - intros i j Hin. apply block_in in Hin. tauto.
    - apply block_length, H.
  Qed.

  Lemma nodup_incl_all k l : NoDup l -> (forall i, In i l -> i < k) -> length l = k -> forall i, i < k -> In i l.
  Proof.
    intros Hn Hl Hk i Hi.
    assert (incl (seq 0 k) l) as Hincl.
    { apply NoDup_length_incl; [exact Hn|rewrite seq_length; lia|]. intros x Hx. apply in_seq. apply Hl in Hx. lia. }
    apply Hincl. apply in_seq. lia.
  Qed.

  Lemma full_extends M : full_matching m M ->
    exists s, is_assignment n s /\ Permutation (block_pairs (nr m) (nc m) n s) M.
  Proof.
    intros (H1 & H2 & H3).
    destruct (extend_matching n M H1) as (s & rest & Hs & HP & Hrest).
    { intros i j Hin. apply H2 in Hin. lia. }
    exists s. split; [exact Hs|]. unfold block_pairs. rewrite (filter_perm _ _ _ HP), filter_app.
    assert (filter (in_block (nr m) (nc m)) M = M) as ->.
    { clear -H2. induction M as [|[i j] M IH]; [reflexivity|]. cbn.
      assert (in_block (nr m) (nc m) (i, j) = true) as ->.
      { unfold in_block. cbn [fst snd]. destruct (H2 i j) as [Ha Hb]; [left; reflexivity|].
        apply andb_true_iff. rewrite !Nat.ltb_lt. tauto. }
      rewrite IH; [reflexivity|]. intros a b Hin. apply H2. right. exact Hin. }
    assert (filter (in_block (nr m) (nc m)) rest = []) as ->; [|rewrite app_nil_r; reflexivity].
    assert (forall i j, In (i, j) rest -> in_block (nr m) (nc m) (i, j) = false) as Hf.
    { intros i j Hin. destruct (Hrest i j Hin) as [Ha Hb]. apply not_true_is_false. intros Hbl.
      unfold in_block in Hbl. cbn [fst snd] in Hbl. apply andb_true_iff in Hbl as [Hi Hj]. apply Nat.ltb_lt in Hi, Hj.
      destruct (le_lt_dec (nr m) (nc m)) as [Hle|Hlt].
      - apply Ha. apply (nodup_incl_all (nr m)); [apply H1| |rewrite map_length; lia|exact Hi].
        intros x Hx. apply in_map_iff in Hx as ([a b] & <- & Hab). apply (H2 a b Hab).
      - apply Hb. apply (nodup_incl_all (nc m)); [apply H1| |rewrite map_length; lia|exact Hj].
        intros x Hx. apply in_map_iff in Hx as ([a b] & <- & Hab). apply (H2 a b Hab). }
    clear -Hf. induction rest as [|[i j] rest IH]; [reflexivity|]. cbn.
    rewrite Hf by (left; reflexivity). apply IH. intros a b Hin. apply Hf. right. exact Hin.
  Qed.

  (** An assignment of the padded matrix is maximal exactly when its block part is
      a maximal one-to-one set of block positions. *)
  Lemma padded_optimal s : is_assignment n s ->
    (max_assignment sq s <->
     forall M, full_matching m M ->
       (Zsum (map (entry_of m) M) <= Zsum (map (entry_of m) (block_pairs (nr m) (nc m) n s)))%Z).
  Proof.
    intros Hs. unfold max_assignment. rewrite Hnr. split.
    - intros [_ Hmax] M HM. destruct (full_extends M HM) as (s' & Hs' & HP).
      specialize (Hmax s' Hs'). rewrite !padded_cost in Hmax by assumption.
      rewrite (Zsum_perm _ _ (Permutation_map (entry_of m) HP)) in Hmax. lia.
    - intros Hall. split; [exact Hs|]. intros s' Hs'. rewrite !padded_cost by assumption.
      specialize (Hall _ (block_full s' Hs')). lia.
  Qed.
End Padded.

(** ** A solver meeting the contract: try all assignments. *)
Fixpoint insert_all {A} (x : A) (l : list A) : list (list A) :=
  match l with
  | [] => [[x]]
  | y :: l' => (x :: l) :: map (cons y) (insert_all x l')
  end.
Fixpoint all_perms {A} (l : list A) : list (list A) :=
  match l with
  | [] => [[]]
  | x :: l' => flat_map (insert_all x) (all_perms l')
  end.
Lemma insert_all_spec {A} (x : A) l l' : In l' (insert_all x l) <-> exists l1 l2, l = l1 ++ l2 /\ l' = l1 ++ x :: l2.
Proof.
  revert l'. induction l as [|y l IH]; intros l'; cbn.
  - split.
    + intros [<-|[]]. exists [], []. auto.
    + intros (l1 & l2 & E & ->). symmetry in E. apply app_eq_nil in E as [-> ->]. left. reflexivity.
  - split.
    + intros [<-|H].
      * exists [], (y :: l). auto.
      * apply in_map_iff in H as (q & <- & Hq). apply IH in Hq as (l1 & l2 & -> & ->).
        exists (y :: l1), l2. auto.
    + intros ([|z l1] & l2 & E & ->); cbn in *.
      * left. subst. reflexivity.
      * injection E as -> ->. right. apply in_map. apply IH. exists l1, l2. auto.
Qed.
Lemma all_perms_spec {A} (l l' : list A) : In l' (all_perms l) <-> Permutation l' l.
Proof.
  revert l'. induction l as [|x l IH]; intros l'; cbn.
  - split.
    + intros [<-|[]]. constructor.
    + intros H. apply Permutation_sym, Permutation_nil in H. left. symmetry. exact H.
  - rewrite in_flat_map. split.
    + intros (q & Hq & H). apply IH in Hq. apply insert_all_spec in H as (l1 & l2 & -> & ->).
      apply Permutation_sym, Permutation_cons_app, Permutation_sym. exact Hq.
    + intros H. assert (In x l') as Hin by (apply (Permutation_in _ (Permutation_sym H)); left; reflexivity).
      apply in_split in Hin as (l1 & l2 & ->). exists (l1 ++ l2). split.
      * apply IH. apply (Permutation_app_inv l1 l2 [] l x). exact H.
      * apply insert_all_spec. exists l1, l2. auto.
Qed.

Fixpoint best (f : list nat -> Z) (d : list nat) (l : list (list nat)) : list nat :=
  match l with
  | [] => d
  | x :: l' => if (f d <? f x)%Z then best f x l' else best f d l'
  end.
Lemma best_spec f d l : (In (best f d l) (d :: l)) /\ forall x, In x (d :: l) -> (f x <= f (best f d l))%Z.
Proof.
  revert d. induction l as [|x l IH]; intros d; cbn [best].
  - split; [left; reflexivity|]. intros x [->|[]]. lia.
  - destruct (Z.ltb_spec (f d) (f x)) as [Hlt|Hge]; [specialize (IH x)|specialize (IH d)]; destruct IH as [H1 H2].
    + split; [right; exact H1|]. intros y [<-|Hy]; [|apply H2, Hy]. specialize (H2 x (or_introl eq_refl)). lia.
    + split; [destruct H1 as [H1|H1]; [left|right; right]; exact H1|].
      intros y [<-|[<-|Hy]].
      * apply H2. left. reflexivity.
      * specialize (H2 d (or_introl eq_refl)). lia.
      * apply H2. right. exact Hy.
Qed.

(** [prefer] orders the candidates, so that different optimal solutions can be obtained. *)
Definition brute_solver (prefer : list (list nat) -> list (list nat)) (m : mat Z) : list Z :=
  match prefer (all_perms (seq 0 (nr m))) with
  | [] => []
  | d :: l => map Z.of_nat (best (assignment_cost m) d l)
  end.
Lemma brute_solver_ok prefer : (forall l, Permutation (prefer l) l) -> solver_ok (brute_solver prefer).
Proof.
  intros Hp m _ _. unfold brute_solver.
  destruct (prefer (all_perms (seq 0 (nr m)))) as [|d l] eqn:E.
  - exfalso. assert (In (seq 0 (nr m)) (prefer (all_perms (seq 0 (nr m))))) as H.
    { apply (Permutation_in _ (Permutation_sym (Hp _))). apply all_perms_spec. reflexivity. }
    rewrite E in H. destruct H.
  - assert (forall s, In s (d :: l) <-> is_assignment (nr m) s) as HA.
    { intros s. rewrite <- E. rewrite <- (all_perms_spec (seq 0 (nr m)) s). split; apply Permutation_in; [|apply Permutation_sym]; apply Hp. }
    exists (best (assignment_cost m) d l). split; [reflexivity|].
    destruct (best_spec (assignment_cost m) d l) as [H1 H2]. split; [apply HA, H1|].
    intros s' Hs'. apply H2, HA, Hs'.
Qed.
