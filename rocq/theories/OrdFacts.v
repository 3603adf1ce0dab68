(** Facts about the byte order on uuids and about ordered maps and sets. *)
From Coq Require Import List NArith String Ascii Bool Sorted Permutation Lia.
From Verif Require Import Uuid OrdMap.
Import ListNotations.

(** * A comparison function that is a strict total order *)
Record total_cmp {K} (cmp : K -> K -> comparison) : Prop := {
  tc_eq : forall x y, cmp x y = Eq <-> x = y;
  tc_opp : forall x y, cmp y x = CompOpp (cmp x y);
  tc_trans : forall x y z, cmp x y = Lt -> cmp y z = Lt -> cmp x z = Lt
}.

Lemma bytes_compare_eq a b : bytes_compare a b = Eq <-> a = b.
Proof.
  revert b; induction a as [|x a IH]; intros [|y b]; cbn.
  - split; auto.
  - split; discriminate.
  - split; discriminate.
  - destruct (N.compare_spec (N_of_ascii x) (N_of_ascii y)) as [E|E|E].
    + assert (x = y) as -> by (rewrite <- (ascii_N_embedding x), <- (ascii_N_embedding y); congruence).
      rewrite IH. split; [intros ->; auto | intros H; injection H; auto].
    + split; [discriminate|]. intros H; injection H as -> _; lia.
    + split; [discriminate|]. intros H; injection H as -> _; lia.
Qed.

Lemma bytes_compare_opp a b : bytes_compare b a = CompOpp (bytes_compare a b).
Proof.
  revert b; induction a as [|x a IH]; intros [|y b]; cbn; auto.
  rewrite (N.compare_antisym (N_of_ascii x) (N_of_ascii y)).
  destruct (N.compare (N_of_ascii x) (N_of_ascii y)); cbn; auto.
Qed.

Lemma bytes_compare_trans a b c :
  bytes_compare a b = Lt -> bytes_compare b c = Lt -> bytes_compare a c = Lt.
Proof.
  revert b c; induction a as [|x a IH]; intros [|y b] [|z c]; cbn; try discriminate; auto.
  destruct (N.compare_spec (N_of_ascii x) (N_of_ascii y)) as [E|E|E];
  destruct (N.compare_spec (N_of_ascii y) (N_of_ascii z)) as [E'|E'|E']; intros H1 H2;
    try discriminate;
    destruct (N.compare_spec (N_of_ascii x) (N_of_ascii z)) as [E''|E''|E'']; try lia; eauto.
Qed.

Lemma bytes_total : total_cmp bytes_compare.
Proof.
  split; [apply bytes_compare_eq | apply bytes_compare_opp | apply bytes_compare_trans].
Qed.

Lemma pair_total : total_cmp pair_compare.
Proof.
  unfold pair_compare. split.
  - intros [a b] [c d]; cbn. destruct (bytes_compare a c) eqn:E.
    + apply bytes_compare_eq in E as ->. rewrite bytes_compare_eq.
      split; [intros ->|intros [= ->]]; auto.
    + split; [discriminate|]. intros [= -> ->].
      rewrite (proj2 (bytes_compare_eq c c) eq_refl) in E; discriminate.
    + split; [discriminate|]. intros [= -> ->].
      rewrite (proj2 (bytes_compare_eq c c) eq_refl) in E; discriminate.
  - intros [a b] [c d]; cbn. rewrite (bytes_compare_opp a c).
    destruct (bytes_compare a c); cbn; auto using bytes_compare_opp.
  - intros [a b] [c d] [e f]; cbn.
    destruct (bytes_compare a c) eqn:E1; destruct (bytes_compare c e) eqn:E2; intros H1 H2;
      try discriminate.
    + apply bytes_compare_eq in E1 as ->. rewrite E2. eauto using bytes_compare_trans.
    + apply bytes_compare_eq in E1 as ->. rewrite E2. auto.
    + apply bytes_compare_eq in E2 as ->. rewrite E1. auto.
    + rewrite (bytes_compare_trans _ _ _ E1 E2). auto.
Qed.

Section Facts.
  Context {K : Type} (cmp : K -> K -> comparison) (TC : total_cmp cmp).

  Lemma cmp_refl x : cmp x x = Eq.
  Proof. apply (tc_eq _ TC); auto. Qed.
  Lemma cmp_gt_lt x y : cmp x y = Gt <-> cmp y x = Lt.
  Proof.
    rewrite (tc_opp _ TC x y). destruct (cmp x y); cbn; split; congruence.
  Qed.
  Lemma cmp_dec (x y : K) : {x = y} + {x <> y}.
  Proof.
    destruct (cmp x y) eqn:E; [left; apply (tc_eq _ TC); auto | right | right];
      intros ->; rewrite cmp_refl in E; discriminate.
  Qed.

  Definition slt (x y : K) : Prop := cmp x y = Lt.

  Lemma os_wf_strong s : os_wf cmp s <-> StronglySorted slt s.
  Proof.
    induction s as [|k s IH]; cbn.
    - split; auto. constructor.
    - rewrite IH. split.
      + intros [H1 H2]. constructor; auto.
        destruct s as [|k' s]; [constructor|].
        inversion H2; subst. constructor; auto.
        eapply Forall_impl; [|eassumption]. intros a Ha.
        eapply (tc_trans _ TC); eauto.
      + intros H. inversion H; subst. split; auto.
        destruct s as [|k' s]; auto. inversion H3; auto.
  Qed.

  Lemma os_wf_cons k s : os_wf cmp (k :: s) <-> (forall x, In x s -> cmp k x = Lt) /\ os_wf cmp s.
  Proof.
    rewrite !os_wf_strong. split.
    - intros H; inversion H; subst. split; auto. apply Forall_forall. auto.
    - intros [H1 H2]. constructor; auto. apply Forall_forall. auto.
  Qed.

  Lemma os_wf_nodup s : os_wf cmp s -> NoDup s.
  Proof.
    induction s as [|k s IH]; [constructor|].
    rewrite os_wf_cons. intros [H1 H2]. constructor; auto.
    intros Hin. apply H1 in Hin. rewrite cmp_refl in Hin. discriminate.
  Qed.

  Lemma os_insert_in k s x : In x (os_insert cmp k s) <-> x = k \/ In x s.
  Proof.
    induction s as [|k' s IH]; cbn; [intuition auto|].
    destruct (cmp k k') eqn:E; cbn.
    - apply (tc_eq _ TC) in E as ->. intuition auto.
    - intuition auto.
    - rewrite IH. intuition auto.
  Qed.

  Lemma os_insert_wf k s : os_wf cmp s -> os_wf cmp (os_insert cmp k s).
  Proof.
    induction s as [|k' s IH]; cbn [os_insert]; intros H.
    - cbn. auto.
    - pose proof H as H0. apply os_wf_cons in H as [H1 H2]. destruct (cmp k k') eqn:E.
      + auto.
      + apply os_wf_cons. split; auto. intros x [<-|Hx]; auto.
        eapply (tc_trans _ TC); eauto.
      + apply os_wf_cons. split; auto. intros x Hx.
        apply os_insert_in in Hx as [->|Hx]; auto. apply cmp_gt_lt; auto.
  Qed.

  (** Two strictly sorted lists with the same elements are equal. *)
  Lemma os_wf_ext s t : os_wf cmp s -> os_wf cmp t -> (forall x, In x s <-> In x t) -> s = t.
  Proof.
    revert t; induction s as [|k s IH]; intros [|k' t] Hs Ht He.
    - auto.
    - exfalso. apply (He k'). left; auto.
    - exfalso. apply (He k). left; auto.
    - apply os_wf_cons in Hs as [Hs1 Hs2], Ht as [Ht1 Ht2].
      assert (k = k') as ->.
      { destruct (proj1 (He k) (or_introl eq_refl)) as [->|Hk]; auto.
        destruct (proj2 (He k') (or_introl eq_refl)) as [->|Hk']; auto.
        apply Hs1 in Hk'. apply Ht1 in Hk.
        rewrite (tc_opp _ TC k k'), Hk' in Hk. discriminate. }
      f_equal. apply IH; auto. intros x. split; intros Hx.
      + destruct (proj1 (He x) (or_intror Hx)) as [->|]; auto.
        apply Hs1 in Hx. rewrite cmp_refl in Hx. discriminate.
      + destruct (proj2 (He x) (or_intror Hx)) as [->|]; auto.
        apply Ht1 in Hx. rewrite cmp_refl in Hx. discriminate.
  Qed.

  Context {V : Type}.
  Implicit Types m : list (K * V).

  Lemma om_wf_cons k v m :
    om_wf cmp ((k, v) :: m) <-> (forall k' v', In (k', v') m -> cmp k k' = Lt) /\ om_wf cmp m.
  Proof.
    unfold om_wf. cbn [map]. rewrite os_wf_cons. split; intros [H1 H2]; split; auto.
    - intros k' v' H. apply H1. apply in_map_iff. exists (k', v'); auto.
    - intros x Hx. apply in_map_iff in Hx as [[k' v'] [<- Hx]]. eapply H1; eauto.
  Qed.

  Lemma om_find_in k v m : om_wf cmp m -> om_find cmp k m = Some v <-> In (k, v) m.
  Proof.
    induction m as [|[k' v'] m IH]; cbn [om_find]; intros H.
    - split; [discriminate|intros []].
    - apply om_wf_cons in H as [H1 H2]. destruct (cmp k k') eqn:E.
      + apply (tc_eq _ TC) in E as ->. cbn. split.
        * intros [= ->]; auto.
        * intros [[= ->]|Hin]; auto. apply H1 in Hin. rewrite cmp_refl in Hin. discriminate.
      + split; [discriminate|]. intros [[= -> ->]|Hin].
        * rewrite cmp_refl in E; discriminate.
        * apply H1 in Hin. rewrite (tc_opp _ TC), E in Hin. discriminate.
      + rewrite (IH H2). cbn. split; auto. intros [[= -> ->]|Hin]; auto.
        rewrite cmp_refl in E; discriminate.
  Qed.

  Lemma om_find_none k m : om_wf cmp m -> om_find cmp k m = None <-> ~ In k (map fst m).
  Proof.
    intros H. split.
    - intros Hn Hin. apply in_map_iff in Hin as [[k' v] [<- Hin]].
      apply om_find_in in Hin; auto. cbn in Hn. congruence.
    - intros Hn. destruct (om_find cmp k m) as [v|] eqn:E; auto.
      apply om_find_in in E; auto. exfalso. apply Hn. apply in_map_iff. exists (k, v); auto.
  Qed.

  Lemma om_mem_in k m : om_wf cmp m -> om_mem cmp k m = true <-> In k (map fst m).
  Proof.
    intros H. unfold om_mem. destruct (om_find cmp k m) as [v|] eqn:E.
    - split; auto. intros _. apply om_find_in in E; auto. apply in_map_iff. exists (k, v); auto.
    - split; [discriminate|]. intros Hi. apply om_find_none in E; auto.
  Qed.

  Lemma om_set_keys k v m x : In x (map fst (om_set cmp k v m)) <-> x = k \/ In x (map fst m).
  Proof.
    induction m as [|[k' v'] m IH]; cbn; [intuition auto|].
    destruct (cmp k k') eqn:E; cbn.
    - apply (tc_eq _ TC) in E as ->. intuition auto.
    - intuition auto.
    - rewrite IH. intuition auto.
  Qed.

  Lemma om_set_wf k v m : om_wf cmp m -> om_wf cmp (om_set cmp k v m).
  Proof.
    unfold om_wf. induction m as [|[k' v'] m IH]; cbn [om_set map]; intros H.
    - cbn; auto.
    - pose proof H as H0. cbn [map fst] in H. apply os_wf_cons in H as [H1 H2]. destruct (cmp k k') eqn:E.
      + apply H0.
      + cbn [map fst]. apply os_wf_cons. split; [|apply H0]. intros x [<-|Hx]; auto.
        eapply (tc_trans _ TC); eauto.
      + cbn [map fst]. apply os_wf_cons. split; auto. intros x Hx.
        apply om_set_keys in Hx as [->|Hx]; auto. apply cmp_gt_lt; auto.
  Qed.

  Lemma om_find_set k v m k' :
    om_wf cmp m ->
    om_find cmp k' (om_set cmp k v m) = match cmp k' k with Eq => Some v | _ => om_find cmp k' m end.
  Proof.
    intros Hwf. induction m as [|[k0 v0] m IH]; cbn [om_set].
    - cbn. destruct (cmp k' k); auto.
    - pose proof Hwf as Hwf0. apply om_wf_cons in Hwf as [H1 H2]. destruct (cmp k k0) eqn:E.
      + apply (tc_eq _ TC) in E as ->. cbn. destruct (cmp k' k0); auto.
      + cbn. destruct (cmp k' k) eqn:E'; auto.
        destruct (cmp k' k0) eqn:E''; auto.
        * apply (tc_eq _ TC) in E'' as ->. rewrite (tc_opp _ TC), E in E'. discriminate.
        * apply cmp_gt_lt in E''. pose proof (tc_trans _ TC _ _ _ E E'') as E3.
          rewrite (tc_opp _ TC), E' in E3. discriminate.
      + cbn. destruct (cmp k' k0) eqn:E''; auto.
        * apply (tc_eq _ TC) in E'' as ->.
          rewrite (tc_opp _ TC), E. cbn. auto.
        * destruct (cmp k' k) eqn:E'; auto.
          apply (tc_eq _ TC) in E' as ->. congruence.
  Qed.

  Lemma om_erase_filter k m :
    om_wf cmp m -> om_erase cmp k m = filter (fun kv => match cmp k (fst kv) with Eq => false | _ => true end) m.
  Proof.
    induction m as [|[k' v'] m IH]; intros H; [reflexivity|].
    apply om_wf_cons in H as [H1 H2]. cbn. destruct (cmp k k') eqn:E; cbn.
    - apply TC in E as ->. symmetry. clear IH. induction m as [|[k2 v2] m IH]; [reflexivity|].
      cbn. rewrite (H1 k2 v2) by (left; reflexivity). f_equal.
      apply IH; [intros x y Hx; apply (H1 x y); right; exact Hx|]. apply (om_wf_cons k2 v2) in H2. tauto.
    - f_equal. symmetry. clear IH. induction m as [|[k2 v2] m IH]; [reflexivity|].
      cbn. rewrite (tc_trans _ TC _ _ _ E (H1 k2 v2 (or_introl eq_refl))). f_equal.
      apply IH; [intros x y Hx; apply (H1 x y); right; exact Hx|]. apply (om_wf_cons k2 v2) in H2. tauto.
    - f_equal. apply IH, H2.
  Qed.

  Lemma om_wf_nodup m : om_wf cmp m -> NoDup (map fst m).
  Proof. apply os_wf_nodup. Qed.

  Lemma om_wf_filter (f : K * V -> bool) m : om_wf cmp m -> om_wf cmp (filter f m).
  Proof.
    induction m as [|[k v] m IH]; cbn [filter]; intros H; [exact H|].
    apply om_wf_cons in H as [H1 H2]. destruct (f (k, v)); [|apply IH; exact H2].
    apply om_wf_cons. split; [|apply IH; exact H2].
    intros k' v' Hin. apply filter_In in Hin as [Hin _]. exact (H1 k' v' Hin).
  Qed.

  (** Two well-formed maps with the same entries are equal. *)
  Lemma om_wf_ext m m' :
    om_wf cmp m -> om_wf cmp m' -> (forall k, om_find cmp k m = om_find cmp k m') -> m = m'.
  Proof.
    revert m'; induction m as [|[k v] m IH]; intros [|[k' v'] m'] Hm Hm' He.
    - auto.
    - specialize (He k'). cbn in He. rewrite cmp_refl in He. discriminate.
    - specialize (He k). cbn in He. rewrite cmp_refl in He. discriminate.
    - pose proof Hm as Hm0. pose proof Hm' as Hm'0.
      apply om_wf_cons in Hm as [H1 H2], Hm' as [H1' H2'].
      assert (k = k') as ->.
      { destruct (cmp k k') eqn:E.
        - apply (tc_eq _ TC); auto.
        - specialize (He k). cbn in He. rewrite cmp_refl, E in He. discriminate.
        - apply cmp_gt_lt in E. specialize (He k'). cbn in He. rewrite cmp_refl, E in He. discriminate. }
      assert (v = v') as ->.
      { specialize (He k'). cbn in He. rewrite cmp_refl in He. congruence. }
      f_equal. apply IH; auto. intros k.
      specialize (He k). cbn in He. destruct (cmp k k') eqn:E; auto.
      + apply (tc_eq _ TC) in E as ->.
        transitivity (@None V); [|symmetry]; apply om_find_none; auto.
        * intros Hin. apply in_map_iff in Hin as [[x y] [<- Hin]]. cbn in *.
          apply H1 in Hin. rewrite cmp_refl in Hin. discriminate.
        * intros Hin. apply in_map_iff in Hin as [[x y] [<- Hin]]. cbn in *.
          apply H1' in Hin. rewrite cmp_refl in Hin. discriminate.
      + transitivity (@None V); [|symmetry]; apply om_find_none; auto.
        * intros Hin. apply in_map_iff in Hin as [[x y] [<- Hin]]. cbn in *.
          apply H1 in Hin. rewrite (tc_opp _ TC), E in Hin. discriminate.
        * intros Hin. apply in_map_iff in Hin as [[x y] [<- Hin]]. cbn in *.
          apply H1' in Hin. rewrite (tc_opp _ TC), E in Hin. discriminate.
  Qed.
End Facts.
