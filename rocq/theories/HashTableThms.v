(** Hash tables are finite maps: the proofs. *)
From stdpp Require Import gmap strings.
From Coq Require Import NArith Lia.
From Verif Require Import Base Uuid OrdMap OrdFacts FusingThms HashTable.

Section Thms.
  Context (string_hash : string → N) (grow : N → N → N).
  Context {A : Type}.
  Local Notation node := (uuid * A)%type.
  Local Notation same := (same_bucket string_hash).
  Implicit Types (l : list node) (k u : uuid) (n : N).

  (** The nodes of one bucket stand together. *)
  Fixpoint grouped n l : Prop :=
    match l with
    | [] => True
    | (u, _) :: l' =>
        (match l' with
         | [] => True
         | (v, _) :: _ => same n v u = true ∨ ∀ w b, (w, b) ∈ l' → same n w u = false
         end) ∧ grouped n l'
    end.

  Definition wf_nodes n l : Prop := NoDup l.*1 ∧ grouped n l.
  Definition wf (t : htab A) : Prop := wf_nodes (ht_buckets t) (ht_nodes t).

  Lemma same_sym n u v : same n u v = same n v u.
  Proof. apply N.eqb_sym. Qed.
  Lemma same_refl n u : same n u u = true.
  Proof. apply N.eqb_refl. Qed.
  Lemma same_trans n u v w : same n u v = true → same n v w = same n u w.
  Proof. unfold same_bucket. intros E%N.eqb_eq. by rewrite E. Qed.
  Lemma eqb_spec u v : uuid_eqb u v = bool_decide (u = v).
  Proof.
    destruct (uuid_eqb u v) eqn:E; case_bool_decide as H; try done.
    - by apply uuid_eqb_eq in E.
    - apply (uuid_eqb_eq u v) in H. congruence.
  Qed.

  Lemma grouped_cons n u a l : grouped n ((u, a) :: l) → grouped n l.
  Proof. intros [_ H]. exact H. Qed.
  Lemma grouped_head n u a v b l :
    grouped n ((u, a) :: (v, b) :: l) →
    same n v u = true ∨ ∀ w c, (w, c) ∈ (v, b) :: l → same n w u = false.
  Proof. intros [H _]. exact H. Qed.

  (** Once the bucket has been left it does not come back. *)
  Lemma grouped_left n u a l :
    grouped n ((u, a) :: l) →
    match l with [] => True | (v, _) :: _ => same n v u = false end →
    ∀ w b, (w, b) ∈ l → same n w u = false.
  Proof.
    destruct l as [|[v b] l]; intros Hg Hv w c Hw; [by apply elem_of_nil in Hw|].
    apply grouped_head in Hg as [H|H]; [congruence|]. by eapply H.
  Qed.

  Lemma lookup_none l k : (∀ u a, (u, a) ∈ l → u ≠ k) → (list_to_map l : gmap uuid A) !! k = None.
  Proof.
    intros H. apply not_elem_of_list_to_map_1. intros ([u a] & -> & Hi)%elem_of_list_fmap.
    by eapply H.
  Qed.

  Lemma not_same n u k : same n u k = false → u ≠ k.
  Proof. intros H ->. rewrite same_refl in H. done. Qed.

  Lemma walk_find n k l :
    grouped n l → match l with [] => True | (u, _) :: _ => same n u k = true end →
    walk string_hash n k l = (list_to_map l : gmap uuid A) !! k.
  Proof.
    induction l as [|[u a] l IH]; intros Hg Hh; [done|]. cbn [walk]. rewrite Hh, eqb_spec.
    cbn [list_to_map foldr]. cbn. case_bool_decide as E.
    - subst. by rewrite lookup_insert.
    - rewrite lookup_insert_ne by done.
      destruct l as [|[v b] l]; [done|].
      destruct (same n v k) eqn:Ev.
      + apply IH; [exact (proj2 Hg)|done].
      + cbn [walk]. rewrite Ev. symmetry. apply lookup_none. intros w c Hw ->.
        assert (same n v u = false) as Hvu.
        { rewrite same_sym, (same_trans n k u v) by (by rewrite same_sym). by rewrite same_sym. }
        eapply grouped_left in Hw; [|done|done]. rewrite same_sym in Hw. congruence.
  Qed.

  Lemma seek_find n k l : grouped n l → seek string_hash n k l = (list_to_map l : gmap uuid A) !! k.
  Proof.
    induction l as [|[u a] l IH]; intros Hg; [done|]. cbn [seek].
    destruct (same n u k) eqn:E.
    - by apply walk_find.
    - cbn. rewrite lookup_insert_ne by exact (not_same _ _ _ E). apply IH. exact (proj2 Hg).
  Qed.

  (** Assignment and removal as plain list operations *)
  Fixpoint put_value k (a' : A) l : list node :=
    match l with
    | [] => []
    | (u, a) :: l' => (if bool_decide (u = k) then (u, a') else (u, a)) :: put_value k a' l'
    end.
  Fixpoint without k l : list node :=
    match l with
    | [] => []
    | (u, a) :: l' => if decide (u = k) then without k l' else (u, a) :: without k l'
    end.

  Lemma put_value_fresh k a' l : k ∉ l.*1 → put_value k a' l = l.
  Proof.
    induction l as [|[u a] l IH]; intros H; [done|]. cbn in *. apply not_elem_of_cons in H as [H1 H2].
    rewrite bool_decide_false by (cbn; done). by rewrite IH.
  Qed.
  Lemma without_fresh k l : k ∉ l.*1 → without k l = l.
  Proof.
    induction l as [|[u a] l IH]; intros H; [done|]. cbn in *. apply not_elem_of_cons in H as [H1 H2].
    rewrite decide_False by done. by rewrite IH.
  Qed.

  Lemma absent n k u l : (∀ w b, (w, b) ∈ l → same n w u = false) → same n u k = true → k ∉ l.*1.
  Proof.
    intros H E ([w b] & -> & Hi)%elem_of_list_fmap. apply H in Hi. cbn in *.
    rewrite same_sym in Hi. congruence.
  Qed.
  Lemma absent_first n k u a l :
    grouped n ((u, a) :: l) → same n u k = true →
    match l with [] => True | (v, _) :: _ => same n v k = false end → k ∉ l.*1.
  Proof.
    intros Hg E Hv. eapply absent; [|exact E]. eapply grouped_left; [exact Hg|].
    destruct l as [|[v b] l]; [done|]. rewrite same_sym, (same_trans n k u v) by (by rewrite same_sym).
    by rewrite same_sym.
  Qed.

  Lemma walk_assign_eq n k a' l :
    NoDup l.*1 → grouped n l → match l with [] => True | (u, _) :: _ => same n u k = true end →
    walk_assign string_hash n k a' l = put_value k a' l.
  Proof.
    induction l as [|[u a] l IH]; intros Hd Hg Hh; [done|]. cbn [walk_assign]. rewrite Hh, eqb_spec.
    cbn in Hd. apply NoDup_cons in Hd as [Hu Hd]. cbn. case_bool_decide as E.
    - subst. f_equal. symmetry. by apply put_value_fresh.
    - f_equal. destruct l as [|[v b] l]; [done|]. destruct (same n v k) eqn:Ev.
      + apply IH; [done|exact (proj2 Hg)|done].
      + rewrite put_value_fresh; [cbn; by rewrite Ev|]. by eapply absent_first.
  Qed.
  Lemma seek_assign_eq n k a' l : NoDup l.*1 → grouped n l →
    seek_assign string_hash n k a' l = put_value k a' l.
  Proof.
    induction l as [|[u a] l IH]; intros Hd Hg; [done|]. cbn [seek_assign]. destruct (same n u k) eqn:E.
    - by apply walk_assign_eq.
    - cbn in *. rewrite bool_decide_false by exact (not_same _ _ _ E). f_equal.
      apply NoDup_cons in Hd as [_ Hd]. apply IH; [done|exact (proj2 Hg)].
  Qed.

  Lemma walk_erase_eq n k l :
    NoDup l.*1 → grouped n l → match l with [] => True | (u, _) :: _ => same n u k = true end →
    walk_erase string_hash n k l = without k l.
  Proof.
    induction l as [|[u a] l IH]; intros Hd Hg Hh; [done|]. cbn [walk_erase]. rewrite Hh, eqb_spec.
    cbn in Hd. apply NoDup_cons in Hd as [Hu Hd]. cbn [without]. case_bool_decide as E.
    - subst. rewrite decide_True by done. symmetry. by apply without_fresh.
    - rewrite decide_False by done. f_equal. destruct l as [|[v b] l]; [done|]. destruct (same n v k) eqn:Ev.
      + apply IH; [done|exact (proj2 Hg)|done].
      + rewrite without_fresh; [cbn; by rewrite Ev|]. by eapply absent_first.
  Qed.
  Lemma seek_erase_eq n k l : NoDup l.*1 → grouped n l → seek_erase string_hash n k l = without k l.
  Proof.
    induction l as [|[u a] l IH]; intros Hd Hg; [done|]. cbn [seek_erase]. destruct (same n u k) eqn:E.
    - by apply walk_erase_eq.
    - cbn [without]. rewrite decide_False by exact (not_same _ _ _ E). f_equal.
      cbn in Hd. apply NoDup_cons in Hd as [_ Hd]. apply IH; [done|exact (proj2 Hg)].
  Qed.

  (** They keep tables well-formed. *)
  Lemma put_value_keys k a' l : (put_value k a' l).*1 = l.*1.
  Proof. induction l as [|[u a] l IH]; [done|]. cbn. rewrite IH. by case_bool_decide. Qed.

  Lemma grouped_keys n l l' : l.*1 = l'.*1 → grouped n l → grouped n l'.
  Proof.
    revert l'. induction l as [|[u a] l IH]; intros [|[u' a'] l'] E Hg; try done.
    cbn in E. injection E as -> E. split; [|apply IH; [done|exact (proj2 Hg)]].
    destruct l' as [|[v' b'] l']; [done|]. destruct l as [|[v b] l]; [done|].
    pose proof E as E0. cbn in E. injection E as -> E.
    apply grouped_head in Hg as [H|H]; [by left|right]. intros w c Hw.
    apply (elem_of_list_fmap_1 fst) in Hw. rewrite <- E0 in Hw.
    apply elem_of_list_fmap in Hw as ([w' c'] & Ew & Hw). cbn in Ew. subst. by eapply H.
  Qed.

  Lemma grouped_sub n u a l :
    grouped n ((u, a) :: l) → ∀ v b l', l = (v, b) :: l' → grouped n ((u, a) :: l').
  Proof.
    intros Hg v b l' ->. split; [|by do 2 eapply grouped_cons].
    destruct l' as [|[x c] l']; [done|].
    pose proof (grouped_head _ _ _ _ _ _ Hg) as [H|H].
    - pose proof (grouped_head _ _ _ _ _ _ (grouped_cons _ _ _ _ Hg)) as [H'|H'].
      + left. unfold same_bucket in *. apply N.eqb_eq in H, H'. apply N.eqb_eq. congruence.
      + right. intros w d Hw. rewrite <- (H' w d Hw). unfold same_bucket in *.
        apply N.eqb_eq in H. by rewrite H.
    - right. intros w d Hw. apply (H w d). by constructor.
  Qed.
  Lemma without_in k l x : x ∈ without k l → x ∈ l.
  Proof.
    induction l as [|[u a] l IH]; [done|]. cbn. case_decide; intros H'.
    - right. by apply IH.
    - apply elem_of_cons in H' as [->|H']; [by left|right; by apply IH].
  Qed.
  Lemma grouped_without n k l : NoDup l.*1 → grouped n l → grouped n (without k l).
  Proof.
    induction l as [|[u a] l IH]; intros Hd Hg; [done|]. cbn in Hd. apply NoDup_cons in Hd as [Hu Hd].
    cbn [without]. destruct (decide (u = k)) as [->|E].
    - apply IH; [done|exact (proj2 Hg)].
    - assert (grouped n ((u, a) :: l)) as Hg' by exact Hg. clear Hg.
      destruct l as [|[v b] l]; [done|].
      destruct (decide (v = k)) as [->|E'].
      + cbn [without]. rewrite decide_True by done. cbn in Hd. apply NoDup_cons in Hd as [Hv Hd].
        rewrite without_fresh by done. by eapply grouped_sub.
      + split; [|apply (IH Hd); exact (grouped_cons _ _ _ _ Hg')].
        cbn [without]. rewrite decide_False by done.
        apply grouped_head in Hg' as [H|H]; [by left|right]. intros w c Hw. apply (H w c).
        apply elem_of_cons in Hw as [Hw|Hw]; [rewrite Hw; by left|right].
        by eapply without_in.
  Qed.

  Lemma before_bucket_none n k a l : before_bucket string_hash n k a l = None →
    ∀ u b, (u, b) ∈ l → same n u k = false.
  Proof.
    induction l as [|[v c] l IH]; intros H u b Hi; [by apply elem_of_nil in Hi|].
    cbn in H. destruct (same n v k) eqn:E; [done|].
    apply elem_of_cons in Hi as [[= -> ->]|Hi]; [done|].
    destruct (before_bucket string_hash n k a l); [done|]. by eapply IH.
  Qed.
  Lemma before_bucket_perm n k a l m : before_bucket string_hash n k a l = Some m → Permutation m ((k, a) :: l).
  Proof.
    revert m. induction l as [|[v c] l IH]; intros m H; [done|]. cbn in H.
    destruct (same n v k) eqn:E; [by injection H as <-|].
    destruct (before_bucket string_hash n k a l) as [m'|]; [|done]. injection H as <-.
    rewrite (IH m' eq_refl). apply Permutation_swap.
  Qed.
  Lemma insert_node_perm n k a l : Permutation (insert_node string_hash n k a l) ((k, a) :: l).
  Proof.
    unfold insert_node. destruct (before_bucket string_hash n k a l) eqn:E; [|done].
    by eapply before_bucket_perm.
  Qed.
  Lemma before_bucket_head n k a l m :
    before_bucket string_hash n k a l = Some m →
    match l, m with
    | (v, _) :: _, (w, _) :: _ => same n w v = true
    | _, _ => False
    end.
  Proof.
    destruct l as [|[v c] l]; [done|]. cbn. destruct (same n v k) eqn:E.
    - intros [= <-]. by rewrite same_sym.
    - destruct (before_bucket string_hash n k a l); [|done]. intros [= <-]. apply same_refl.
  Qed.
  Lemma before_bucket_grouped n k a l m :
    grouped n l → before_bucket string_hash n k a l = Some m → grouped n m.
  Proof.
    revert m. induction l as [|[v c] l IH]; intros m Hg H; [done|]. cbn in H.
    destruct (same n v k) eqn:E.
    - injection H as <-. split; [by left|done].
    - destruct (before_bucket string_hash n k a l) as [m'|] eqn:Em; [|done]. injection H as <-.
      split; [|by apply (IH m' (grouped_cons _ _ _ _ Hg))].
      pose proof (before_bucket_head _ _ _ _ _ Em) as Hh.
      destruct l as [|[x d] l]; [done|]. destruct m' as [|[w e] m']; [done|].
      apply grouped_head in Hg as [H|H].
      + left. rewrite same_sym in Hh. rewrite <- (same_trans n x w v Hh) in H. exact H.
      + right. intros y f Hy. rewrite (before_bucket_perm _ _ _ _ _ Em) in Hy.
        apply elem_of_cons in Hy as [[= -> ->]|Hy]; [by rewrite same_sym|by eapply H].
  Qed.
  Lemma insert_node_grouped n k a l : grouped n l → grouped n (insert_node string_hash n k a l).
  Proof.
    intros Hg. unfold insert_node. destruct (before_bucket string_hash n k a l) eqn:E.
    - by eapply before_bucket_grouped.
    - split; [|done]. destruct l as [|[v b] l]; [done|]. right. by eapply before_bucket_none.
  Qed.
  Lemma insert_node_wf n k a l : k ∉ l.*1 → wf_nodes n l → wf_nodes n (insert_node string_hash n k a l).
  Proof.
    intros Hk [Hd Hg]. split; [|by apply insert_node_grouped].
    rewrite (insert_node_perm n k a l). cbn. by constructor.
  Qed.

  Lemma rehash_acc n l m : NoDup (l.*1 ++ m.*1) → grouped n m →
    let r := fold_left (fun m '(u, a) => insert_node string_hash n u a m) l m in
    Permutation r (l ++ m) ∧ grouped n r.
  Proof.
    revert m. induction l as [|[u a] l IH]; intros m Hd Hg; [done|]. cbn [fold_left].
    cbn in Hd. apply NoDup_cons in Hd as [Hu Hd].
    destruct (IH (insert_node string_hash n u a m)) as [Hp Hg'].
    - rewrite (insert_node_perm n u a m). cbn. rewrite <- Permutation_middle. by constructor.
    - by apply insert_node_grouped.
    - split; [|done]. rewrite Hp, (insert_node_perm n u a m). cbn. by rewrite Permutation_middle.
  Qed.
  Lemma rehash_perm n l : NoDup l.*1 → Permutation (rehash string_hash n l) l ∧ grouped n (rehash string_hash n l).
  Proof.
    intros Hd. unfold rehash. destruct (rehash_acc n l []) as [Hp Hg]; [by rewrite app_nil_r|done|].
    rewrite app_nil_r in Hp. done.
  Qed.

  (** * The operations on tables *)
  Lemma map_perm l l' : NoDup l.*1 → Permutation l l' → (list_to_map l : gmap uuid A) = list_to_map l'.
  Proof. intros. by apply list_to_map_proper. Qed.

  Lemma ht_find_map t k : wf t → ht_find string_hash k t = ht_map t !! k.
  Proof. intros [_ Hg]. by apply seek_find. Qed.

  Lemma empty_wf : wf ht_empty.
  Proof. split; [constructor|done]. Qed.

  Lemma in_keys l k : k ∈ l.*1 ↔ is_Some ((list_to_map l : gmap uuid A) !! k).
  Proof.
    split.
    - intros H. destruct (_ !! k) eqn:E; [by eexists|]. by apply not_elem_of_list_to_map in E.
    - intros [a H]. apply elem_of_list_to_map_2 in H. by apply (elem_of_list_fmap_1 fst) in H.
  Qed.

  Lemma assign_wf t k a : wf t → wf (ht_assign string_hash k a t).
  Proof.
    intros [Hd Hg]. unfold ht_assign, wf, wf_nodes; cbn. rewrite seek_assign_eq by done.
    rewrite put_value_keys. split; [done|]. eapply grouped_keys; [|exact Hg]. by rewrite put_value_keys.
  Qed.
  Lemma assign_keys t k a : wf t → (ht_nodes (ht_assign string_hash k a t)).*1 = (ht_nodes t).*1.
  Proof. intros [Hd Hg]. cbn. rewrite seek_assign_eq by done. apply put_value_keys. Qed.
  Lemma put_value_map k a l : k ∈ l.*1 → (list_to_map (put_value k a l) : gmap uuid A) = <[k := a]> (list_to_map l).
  Proof.
    induction l as [|[u b] l IH]; intros Hk; [by apply elem_of_nil in Hk|]. cbn in *.
    case_bool_decide as E; cbn.
    - subst. rewrite insert_insert. destruct (decide (k ∈ l.*1)) as [Hi|Hi].
      + change (<[k := a]> (list_to_map (put_value k a l)) = <[k := a]> (list_to_map l : gmap uuid A)).
        rewrite IH by done. by rewrite insert_insert.
      + change (<[k := a]> (list_to_map (put_value k a l)) = <[k := a]> (list_to_map l : gmap uuid A)).
        by rewrite put_value_fresh.
    - apply elem_of_cons in Hk as [Hk|Hk]; [done|].
      change (<[u := b]> (list_to_map (put_value k a l)) = <[k := a]> (<[u := b]> (list_to_map l : gmap uuid A))).
      rewrite IH by done. by apply insert_commute.
  Qed.
  Lemma assign_map t k a : wf t → is_Some (ht_map t !! k) → ht_map (ht_assign string_hash k a t) = <[k := a]> (ht_map t).
  Proof.
    intros [Hd Hg] Hk. unfold ht_map, ht_assign; cbn. rewrite seek_assign_eq by done.
    apply put_value_map. by apply in_keys.
  Qed.

  Lemma erase_nodes t k : wf t → ht_nodes (ht_erase string_hash k t) = without k (ht_nodes t).
  Proof. intros [Hd Hg]. cbn. by apply seek_erase_eq. Qed.
  Lemma without_keys k l : (without k l).*1 = filter (λ u, u ≠ k) l.*1.
  Proof.
    induction l as [|[u a] l IH]; [done|]. cbn [without]. rewrite fmap_cons. destruct (decide (u = k)) as [->|E].
    - rewrite filter_cons_False by (cbn; auto). exact IH.
    - rewrite filter_cons_True by done. cbn. by rewrite <- IH.
  Qed.
  Lemma without_nodup k l : NoDup l.*1 → NoDup (without k l).*1.
  Proof. intros. rewrite without_keys. by apply NoDup_filter. Qed.
  Lemma erase_wf t k : wf t → wf (ht_erase string_hash k t).
  Proof.
    intros [Hd Hg]. unfold wf, wf_nodes, ht_erase; cbn. rewrite seek_erase_eq by done.
    split; [by apply without_nodup|by apply grouped_without].
  Qed.
  Lemma without_map k l : (list_to_map (without k l) : gmap uuid A) = delete k (list_to_map l).
  Proof.
    induction l as [|[u a] l IH]; [cbn; by rewrite delete_empty|]. cbn [without]. destruct (decide (u = k)) as [->|E].
    - cbn. rewrite delete_insert_delete. exact IH.
    - cbn. rewrite delete_insert_ne by done. f_equal. exact IH.
  Qed.
  Lemma erase_map t k : wf t → ht_map (ht_erase string_hash k t) = delete k (ht_map t).
  Proof. intros H. unfold ht_map. rewrite erase_nodes by done. apply without_map. Qed.

  Lemma insert_facts t k a : wf t → ht_map t !! k = None →
    wf (ht_insert string_hash grow k a t) ∧
    ht_map (ht_insert string_hash grow k a t) = <[k := a]> (ht_map t) ∧
    Permutation (ht_nodes (ht_insert string_hash grow k a t)) ((k, a) :: ht_nodes t).
  Proof.
    intros [Hd Hg] Hk. unfold ht_insert.
    set (n := N.max 1 _). set (l := if (n =? ht_buckets t)%N then _ else _).
    assert (Permutation l (ht_nodes t) ∧ grouped n l) as [Hp Hl].
    { unfold l. destruct (n =? ht_buckets t)%N eqn:E.
      - apply N.eqb_eq in E. by rewrite E.
      - by apply rehash_perm. }
    assert (k ∉ l.*1) as Hkl.
    { rewrite Hp. intros Hi%in_keys. unfold ht_map in Hk. rewrite Hk in Hi. by destruct Hi. }
    assert (NoDup l.*1) as Hdl by (by rewrite Hp).
    split; [by apply insert_node_wf|]. cbn.
    assert (Permutation (insert_node string_hash n k a l) ((k, a) :: ht_nodes t)) as Hq.
    { rewrite (insert_node_perm n k a l). by rewrite Hp. }
    split; [|exact Hq]. unfold ht_map; cbn.
    rewrite (map_perm _ ((k, a) :: ht_nodes t)); [done| |exact Hq].
    rewrite (insert_node_perm n k a l). cbn. by constructor.
  Qed.

  Lemma set_facts t k a : wf t →
    wf (ht_set string_hash grow k a t) ∧ ht_map (ht_set string_hash grow k a t) = <[k := a]> (ht_map t).
  Proof.
    intros H. unfold ht_set. rewrite ht_find_map by done. destruct (ht_map t !! k) eqn:E.
    - split; [by apply assign_wf|]. apply assign_map; [done|]. by eexists.
    - by destruct (insert_facts t k a H E) as (? & ? & _).
  Qed.
  Lemma subscript_facts t k d : wf t →
    let r := ht_subscript string_hash grow d k t in
    wf r.2 ∧ match ht_map t !! k with
             | Some a => r = (a, t)
             | None => r.1 = d ∧ ht_map r.2 = <[k := d]> (ht_map t)
             end.
  Proof.
    intros H. unfold ht_subscript. rewrite ht_find_map by done. destruct (ht_map t !! k) eqn:E; [done|].
    by destruct (insert_facts t k d H E) as (? & ? & _).
  Qed.
  Lemma emplace_facts t k a : wf t →
    wf (ht_emplace string_hash grow k a t) ∧
    ht_map (ht_emplace string_hash grow k a t) =
      match ht_map t !! k with Some _ => ht_map t | None => <[k := a]> (ht_map t) end.
  Proof.
    intros H. unfold ht_emplace. rewrite ht_find_map by done. destruct (ht_map t !! k) eqn:E; [done|].
    by destruct (insert_facts t k a H E) as (? & ? & _).
  Qed.
  Lemma clear_facts t : wf (ht_clear t) ∧ ht_map (ht_clear t) = ∅.
  Proof. split; [|done]. split; [constructor|done]. Qed.
  Lemma size_map t : wf t → ht_size t = size (ht_map t).
  Proof.
    intros [Hd _]. unfold ht_size, ht_map, size, map_size.
    apply Permutation_length. symmetry. by apply map_to_list_to_map.
  Qed.

  Lemma without_app k l l' : without k (l ++ l') = without k l ++ without k l'.
  Proof. induction l as [|[u a] l IH]; [done|]. cbn. case_decide; [done|]. cbn. by rewrite IH. Qed.
  Lemma drop_after l1 (x : node) l2 : drop (S (length l1)) (l1 ++ x :: l2) = l2.
  Proof. induction l1; [done|]. done. Qed.
  (** erase(it) is erase of the key it points to. *)
  Lemma erase_at_without l l1 k a l2 : l = l1 ++ (k, a) :: l2 → NoDup l.*1 →
    take (length l1) l ++ drop (S (length l1)) l = without k l.
  Proof.
    intros -> Hd. rewrite take_app, drop_after.
    rewrite fmap_app in Hd. cbn in Hd. apply NoDup_app in Hd as (H1 & H2 & H3). apply NoDup_cons in H3 as [H3 H4].
    rewrite without_app. cbn [without]. rewrite decide_True by done.
    rewrite without_fresh, without_fresh; [done|done|].
    intros Hk. eapply H2; [done|]. by left.
  Qed.
End Thms.
