(** Model of std::map and std::set as used by the library.

    A std::map<K, V> is a list of (key, value) pairs in strictly increasing key
    order; traversal with iterators is traversal of the list.  A std::set<K> is
    a list of keys in strictly increasing order.  [cmp] is the three-way form of
    the key's operator<. *)
From Coq Require Import List.
Import ListNotations.

Section OrdMap.
  Context {K V : Type} (cmp : K -> K -> comparison).

  (** map::find *)
  Fixpoint om_find (k : K) (m : list (K * V)) : option V :=
    match m with
    | [] => None
    | (k', v) :: m' =>
        match cmp k k' with
        | Eq => Some v
        | Lt => None
        | Gt => om_find k m'
        end
    end.

  (** map::count(k) != 0 *)
  Definition om_mem (k : K) (m : list (K * V)) : bool :=
    match om_find k m with Some _ => true | None => false end.

  (** map::operator[](k) = v *)
  Fixpoint om_set (k : K) (v : V) (m : list (K * V)) : list (K * V) :=
    match m with
    | [] => [(k, v)]
    | (k', v') :: m' =>
        match cmp k k' with
        | Eq => (k', v) :: m'
        | Lt => (k, v) :: m
        | Gt => (k', v') :: om_set k v m'
        end
    end.

  (** map::erase(k) *)
  Fixpoint om_erase (k : K) (m : list (K * V)) : list (K * V) :=
    match m with
    | [] => []
    | (k', v') :: m' =>
        match cmp k k' with
        | Eq => m'
        | Lt => m
        | Gt => (k', v') :: om_erase k m'
        end
    end.

  (** set::insert *)
  Fixpoint os_insert (k : K) (s : list K) : list K :=
    match s with
    | [] => [k]
    | k' :: s' =>
        match cmp k k' with
        | Eq => s
        | Lt => k :: s
        | Gt => k' :: os_insert k s'
        end
    end.

  (** Strictly increasing. *)
  Fixpoint os_wf (s : list K) : Prop :=
    match s with
    | [] => True
    | k :: s' => match s' with [] => True | k' :: _ => cmp k k' = Lt end /\ os_wf s'
    end.
  Definition om_wf (m : list (K * V)) : Prop := os_wf (map fst m).
End OrdMap.
