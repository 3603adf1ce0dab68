(** Specification vocabulary for scoring. *)
From Coq Require Import List Bool.
From Verif Require Import Uuid DynObj.
Import ListNotations.

(** The scores of the pairs with the given uuids, in iteration order (tracks
    outer, detections inner). *)
Definition scores_for {F Trk Det} (tu : Trk -> uuid) (du : Det -> uuid) (metric : Trk -> Det -> option F)
    (tracks : list Trk) (dets : list Det) (key : uuid * uuid) : list F :=
  flat_map (fun t => flat_map (fun d =>
    if uuid_eqb (tu t) (fst key) && uuid_eqb (du d) (snd key) then
      match metric t d with Some v => [v] | None => [] end
    else []) dets) tracks.

(** Two objects of the same motion model. *)
Definition same_model {A B C D} (x : var2 A B) (y : var2 C D) : Prop :=
  match x, y with
  | Ctrv _, Ctrv _ | Ctra _, Ctra _ => True
  | _, _ => False
  end.
