(** std::unordered_map<Uuid, ...> as libstdc++ implements it, and the operations of it
    that the library uses (track_management.hpp:57-209, clustering.hpp:116-151).

    The nodes form one linked list; the nodes of one bucket stand together in it and
    the array of buckets points to the first of them.  A search goes to that first
    node and follows the list until the bucket changes.  Which number of buckets a
    table gets, and when, is a parameter, as is the hash function of std::string.
    The source of libstdc++ is not in /repo; this is its hashtable.h without cached
    hash codes and allocation failure. *)
From stdpp Require Import gmap strings.
From Coq Require Import NArith.
From Verif Require Import Base Uuid.

(** std::hash<Uuid>, uuid.hpp:86-93 *)
Definition uuid_hash (string_hash : string → N) (u : uuid) : N := string_hash u.

Section Table.
  (** [string_hash]: std::hash<std::string>.  [grow buckets elements]: the number of
      buckets to have before one more element is put into the table (the rehash
      policy). *)
  Context (string_hash : string → N) (grow : N → N → N).
  Context {A : Type}.

  Record htab := HTab { ht_buckets : N; ht_nodes : list (uuid * A) }.

  (** A table starts with one bucket (_M_single_bucket). *)
  Definition ht_empty : htab := HTab 1 [].

  (** _M_bucket_index *)
  Definition bucket (n : N) (u : uuid) : N := (uuid_hash string_hash u mod n)%N.
  Definition same_bucket (n : N) (u v : uuid) : bool := (bucket n u =? bucket n v)%N.

  (** _M_find_node: from the first node of the bucket of [k] until the bucket changes;
      keys are compared with operator== (std::equal_to<Uuid>), uuid.hpp:54-57. *)
  Fixpoint walk (n : N) (k : uuid) (l : list (uuid * A)) : option A :=
    match l with
    | [] => None
    | (u, a) :: l' =>
        if same_bucket n u k then if uuid_eqb u k then Some a else walk n k l' else None
    end.
  Fixpoint seek (n : N) (k : uuid) (l : list (uuid * A)) : option A :=
    match l with
    | [] => None
    | (u, a) :: l' => if same_bucket n u k then walk n k l else seek n k l'
    end.
  (** find, count, at *)
  Definition ht_find (k : uuid) (t : htab) : option A := seek (ht_buckets t) k (ht_nodes t).
  Definition ht_count (k : uuid) (t : htab) : nat :=
    match ht_find k t with Some _ => 1 | None => 0 end.

  (** Assignment through the reference that at or operator[] returns: the node found
      keeps its place. *)
  Fixpoint walk_assign (n : N) (k : uuid) (a' : A) (l : list (uuid * A)) : list (uuid * A) :=
    match l with
    | [] => []
    | (u, a) :: l' =>
        if same_bucket n u k then
          if uuid_eqb u k then (u, a') :: l' else (u, a) :: walk_assign n k a' l'
        else l
    end.
  Fixpoint seek_assign (n : N) (k : uuid) (a' : A) (l : list (uuid * A)) : list (uuid * A) :=
    match l with
    | [] => []
    | (u, a) :: l' =>
        if same_bucket n u k then walk_assign n k a' l else (u, a) :: seek_assign n k a' l'
    end.
  Definition ht_assign (k : uuid) (a' : A) (t : htab) : htab :=
    HTab (ht_buckets t) (seek_assign (ht_buckets t) k a' (ht_nodes t)).

  (** _M_insert_bucket_begin: before the first node of its bucket, or, when the bucket
      is empty, at the front of the list. *)
  Fixpoint before_bucket (n : N) (k : uuid) (a : A) (l : list (uuid * A)) : option (list (uuid * A)) :=
    match l with
    | [] => None
    | (u, b) :: l' =>
        if same_bucket n u k then Some ((k, a) :: l)
        else match before_bucket n k a l' with
             | Some m => Some ((u, b) :: m)
             | None => None
             end
    end.
  Definition insert_node (n : N) (k : uuid) (a : A) (l : list (uuid * A)) : list (uuid * A) :=
    match before_bucket n k a l with Some m => m | None => (k, a) :: l end.
  (** _M_rehash: every node in turn is put into the new buckets. *)
  Definition rehash (n : N) (l : list (uuid * A)) : list (uuid * A) :=
    fold_left (fun m '(u, a) => insert_node n u a m) l [].
  (** Insertion of a key that is not in the table (_M_insert_unique_node) *)
  Definition ht_insert (k : uuid) (a : A) (t : htab) : htab :=
    let n := N.max 1 (grow (ht_buckets t) (N.of_nat (length (ht_nodes t)))) in
    let l := if (n =? ht_buckets t)%N then ht_nodes t else rehash n (ht_nodes t) in
    HTab n (insert_node n k a l).

  (** t[k] = a *)
  Definition ht_set (k : uuid) (a : A) (t : htab) : htab :=
    match ht_find k t with Some _ => ht_assign k a t | None => ht_insert k a t end.
  (** emplace(k, a): an existing element stays as it is. *)
  Definition ht_emplace (k : uuid) (a : A) (t : htab) : htab :=
    match ht_find k t with Some _ => t | None => ht_insert k a t end.
  (** t[k] as a value: inserts the default when there is none. *)
  Definition ht_subscript (default : A) (k : uuid) (t : htab) : A * htab :=
    match ht_find k t with Some a => (a, t) | None => (default, ht_insert k default t) end.

  (** erase(key): the node found is unlinked. *)
  Fixpoint walk_erase (n : N) (k : uuid) (l : list (uuid * A)) : list (uuid * A) :=
    match l with
    | [] => []
    | (u, a) :: l' =>
        if same_bucket n u k then
          if uuid_eqb u k then l' else (u, a) :: walk_erase n k l'
        else l
    end.
  Fixpoint seek_erase (n : N) (k : uuid) (l : list (uuid * A)) : list (uuid * A) :=
    match l with
    | [] => []
    | (u, a) :: l' =>
        if same_bucket n u k then walk_erase n k l else (u, a) :: seek_erase n k l'
    end.
  Definition ht_erase (k : uuid) (t : htab) : htab :=
    HTab (ht_buckets t) (seek_erase (ht_buckets t) k (ht_nodes t)).

  (** clear keeps the buckets. *)
  Definition ht_clear (t : htab) : htab := HTab (ht_buckets t) [].
  (** std::size *)
  Definition ht_size (t : htab) : nat := length (ht_nodes t).

  (** Iterators: the position of a node in the list; the position behind the last node
      is std::end.  erase(it) unlinks that node and returns the position of its
      successor, which is then the same number. *)
  Definition ht_at (it : nat) (t : htab) : option (uuid * A) := ht_nodes t !! it.
  Definition ht_erase_at (it : nat) (t : htab) : htab :=
    HTab (ht_buckets t) (take it (ht_nodes t) ++ drop (S it) (ht_nodes t)).

  (** What a table stands for *)
  Definition ht_map (t : htab) : gmap uuid A := list_to_map (ht_nodes t).
End Table.
Arguments htab A : clear implicits.
Arguments HTab {A}. Arguments ht_buckets {A}. Arguments ht_nodes {A}. Arguments ht_empty {A}.
