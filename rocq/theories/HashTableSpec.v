(** What sequences of operations on a table and on a cluster are expected to do. *)
From stdpp Require Import gmap strings.
From Coq Require Import NArith.
From Verif Require Import Base Uuid HashTable Motion Clustering HashManager.

(** The modifying operations on a std::unordered_map that the library uses *)
Inductive table_op (A : Type) :=
| OSet (k : uuid) (a : A)              (* t[k] = a *)
| OEmplace (k : uuid) (a : A)          (* t.emplace(k, a) *)
| OSubscript (k : uuid) (default : A)  (* t[k] *)
| OErase (k : uuid)                    (* t.erase(k) *)
| OClear.                              (* t.clear() *)
Arguments OSet {A}. Arguments OEmplace {A}. Arguments OSubscript {A}. Arguments OErase {A}. Arguments OClear {A}.

Definition table_step {A} (string_hash : string → N) (grow : N → N → N) (t : htab A) (o : table_op A) : htab A :=
  match o with
  | OSet k a => ht_set string_hash grow k a t
  | OEmplace k a => ht_emplace string_hash grow k a t
  | OSubscript k d => snd (ht_subscript string_hash grow d k t)
  | OErase k => ht_erase string_hash k t
  | OClear => ht_clear t
  end.
Definition table_after {A} string_hash grow (ops : list (table_op A)) : htab A :=
  fold_left (table_step string_hash grow) ops ht_empty.

(** The value a key is expected to have, the last operation coming last *)
Definition expect_step {A} (f : uuid → option A) (o : table_op A) : uuid → option A := fun u =>
  match o with
  | OSet k a => if decide (u = k) then Some a else f u
  | OEmplace k a | OSubscript k a =>
      if decide (u = k) then match f u with Some b => Some b | None => Some a end else f u
  | OErase k => if decide (u = k) then None else f u
  | OClear => None
  end.
Definition expected {A} (ops : list (table_op A)) : uuid → option A :=
  fold_left expect_step ops (fun _ => None).

(** Calls on a cluster, and how each of them ended *)
Inductive cluster_call (D : Type) := CAdd (d : D) | CRemove (u : uuid) | CClear.
Arguments CAdd {D}. Arguments CRemove {D}. Arguments CClear {D}.

Section Cluster.
  Context {A : arith} {D : Type} (d_uuid : D → uuid) (fields : D → point A).
  Definition hcluster_step string_hash grow (c : hcluster A D) (x : cluster_call D) : hcluster A D * result unit :=
    match x with
    | CAdd d => (hadd_detection string_hash grow d_uuid fields c d, Ok ())
    | CRemove u => hremove_detection string_hash fields c u
    | CClear => (hclear c, Ok ())
    end.
  Definition cluster_step (c : cluster A D) (x : cluster_call D) : cluster A D * result unit :=
    match x with
    | CAdd d => (add_detection d_uuid fields c d, Ok ())
    | CRemove u => remove_detection fields c u
    | CClear => (clear c, Ok ())
    end.
  Fixpoint hcluster_run string_hash grow (xs : list (cluster_call D)) (c : hcluster A D)
    : hcluster A D * list (result unit) :=
    match xs with
    | [] => (c, [])
    | x :: xs' =>
        let '(c1, r) := hcluster_step string_hash grow c x in
        let '(c2, rs) := hcluster_run string_hash grow xs' c1 in (c2, r :: rs)
    end.
  Fixpoint cluster_run (xs : list (cluster_call D)) (c : cluster A D) : cluster A D * list (result unit) :=
    match xs with
    | [] => (c, [])
    | x :: xs' =>
        let '(c1, r) := cluster_step c x in
        let '(c2, rs) := cluster_run xs' c1 in (c2, r :: rs)
    end.
End Cluster.
