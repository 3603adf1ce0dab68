(** Specification vocabulary for clustering, independent of the model's loops. *)
From stdpp Require Import gmap strings.
From Coq Require Import Reals.
From Verif Require Import Base Uuid Motion RealArith Clustering.

(** ** Grouping a list of detections: the last one is the origin of the first
    group and takes all those near it, in order; the others are grouped alike. *)
Section Grouping.
  Context {D : Type} (near : D → D → bool).
  Inductive grouping : list D → list (list D) → Prop :=
  | grouping_nil : grouping [] []
  | grouping_step ds o gs :
      grouping (List.filter (λ d, negb (near o d)) ds) gs →
      grouping (ds ++ [o]) ((o :: List.filter (near o) ds) :: gs).
End Grouping.

(** ** Histories of a cluster *)
Section Histories.
  Context {D : Type} (d_uuid : D → uuid).
  Inductive op := Add (d : D) | Remove (u : uuid) | Clear.

  (** The operation takes uuid [u] out of the cluster. *)
  Definition drops (u : uuid) (o : op) : Prop :=
    match o with Add _ => False | Remove u' => u' = u | Clear => True end.
  (** [u] was added and has not been removed since. *)
  Definition present (h : list op) (u : uuid) : Prop :=
    ∃ a d b, h = a ++ Add d :: b ∧ d_uuid d = u ∧ Forall (λ o, ¬ drops u o) b.
  (** [d] is the detection added when its uuid was last absent. *)
  Definition holds (h : list op) (d : D) : Prop :=
    ∃ a b, h = a ++ Add d :: b ∧ ¬ present a (d_uuid d) ∧ Forall (λ o, ¬ drops (d_uuid d) o) b.
  (** No clear, and no uuid added while present *)
  Definition tidy (h : list op) : Prop :=
    Clear ∉ h ∧ ∀ a d b, h = a ++ Add d :: b → ¬ present a (d_uuid d).
End Histories.
Arguments op : clear implicits.

(** Sums over lists of detections *)
Definition total {D} (f : D → R) (l : list D) : R := foldr (λ d s, (f d + s)%R) 0%R l.
(** [l] lists the members of the cluster, each once. *)
Definition members {A D} (c : cluster A D) (l : list D) : Prop := l ≡ₚ (map_to_list (detections c)).*2.
