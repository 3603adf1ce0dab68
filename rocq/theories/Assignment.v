(** Model of dlib::max_cost_assignment (dlib/optimization/max_cost_assignment.h), the
    solver that gnn_associator (track_matching.hpp:249) calls.

    dlib is not part of /repo; this is its published algorithm (the Hungarian method
    with labels lx, ly and slacks), written down step by step.  The element type is
    int: [norm] is what happens to the result of an addition or subtraction, and
    [imax] is std::numeric_limits<scalar_type>::max().  The matrix is n x n with
    elements [c x y], all initialised.  Loops that are not over a range take a
    bound [fuel] on the number of iterations; running out of it is a separate
    outcome. *)
From Coq Require Import List ZArith Arith Bool.
From Verif Require Import Base Float DlibMatrix Scoring Matching.
Import ListNotations.

Inductive outcome (A : Type) := Done (a : A) | Overflow | OutOfFuel.
Arguments Done {A}. Arguments Overflow {A}. Arguments OutOfFuel {A}.
Definition obind {A B} (r : outcome A) (f : A -> outcome B) : outcome B :=
  match r with Done a => f a | Overflow => Overflow | OutOfFuel => OutOfFuel end.
Notation "'do' x <- r ; k" := (obind r (fun x => k)) (at level 200, x binder, right associativity).

(** v[i] = a *)
Definition upd {A} (v : nat -> A) (i : nat) (a : A) : nat -> A := fun j => if j =? i then a else v j.

Section Solver.
  Context (norm : Z -> outcome Z) (imax : Z) (n : nat) (c : nat -> nat -> Z).

  (** The local variables of the search for an augmenting path.  -1 is [None]. *)
  Record search := Search {
    lx : nat -> Z; ly : nat -> Z;
    in_S : nat -> bool; in_T : nat -> bool;
    slack : nat -> Z; slackx : nat -> nat;
    aug_path : nat -> option nat;
    queue : list nat
  }.

  (** compute_slack: the loop over the columns [ys] *)
  Fixpoint compute_slack (x : nat) (ys : list nat) (s : search) : outcome search :=
    match ys with
    | [] => Done s
    | y :: ys' =>
        do a <- norm (lx s x + ly s y)%Z;
        do v <- norm (a - c x y)%Z;
        compute_slack x ys'
          (if (v <? slack s y)%Z
           then Search (lx s) (ly s) (in_S s) (in_T s) (upd (slack s) y v) (upd (slackx s) y x) (aug_path s) (queue s)
           else s)
    end.

  (** The loop over the columns after compute_slack; [Some (x, y)] is
      found_augmenting_path with x_start, y_start. *)
  Fixpoint scan (yx : nat -> option nat) (x : nat) (ys : list nat) (s : search) : outcome (search * option (nat * nat)) :=
    match ys with
    | [] => Done (s, None)
    | y :: ys' =>
        do a <- norm (lx s x + ly s y)%Z;
        if (c x y =? a)%Z && negb (in_T s y) then
          match yx y with
          | None => Done (s, Some (x, y))
          | Some x' =>
              scan yx x ys' (Search (lx s) (ly s) (upd (in_S s) x' true) (upd (in_T s) y true) (slack s) (slackx s)
                               (upd (aug_path s) x' (Some x)) (queue s ++ [x']))
          end
        else scan yx x ys' s
    end.

  (** while (q.size() > 0 && !found_augmenting_path) *)
  Fixpoint drain (fuel : nat) (yx : nat -> option nat) (s : search) : outcome (search * option (nat * nat)) :=
    match queue s with
    | [] => Done (s, None)
    | x :: q' =>
        match fuel with
        | 0 => OutOfFuel
        | S fuel' =>
            do s1 <- compute_slack x (seq 0 n)
                       (Search (lx s) (ly s) (in_S s) (in_T s) (slack s) (slackx s) (aug_path s) q');
            do r <- scan yx x (seq 0 n) s1;
            match r with
            | (s2, None) => drain fuel' yx s2
            | found => Done found
            end
        end
    end.

  (** delta: the smallest slack outside T *)
  Definition smallest_slack (s : search) : Z :=
    fold_left (fun delta i => if in_T s i then delta else Z.min delta (slack s i)) (seq 0 n) imax.

  (** The loop that changes the labels *)
  Fixpoint relabel (delta : Z) (is : list nat) (s : search) : outcome search :=
    match is with
    | [] => Done s
    | i :: is' =>
        do lx' <- (if in_S s i then do v <- norm (lx s i - delta)%Z; Done (upd (lx s) i v) else Done (lx s));
        if in_T s i then
          do v <- norm (ly s i + delta)%Z;
          relabel delta is' (Search lx' (upd (ly s) i v) (in_S s) (in_T s) (slack s) (slackx s) (aug_path s) (queue s))
        else
          do v <- norm (slack s i - delta)%Z;
          relabel delta is' (Search lx' (ly s) (in_S s) (in_T s) (upd (slack s) i v) (slackx s) (aug_path s) (queue s))
    end.

  (** The loop over the columns after that *)
  Fixpoint zero_scan (yx : nat -> option nat) (ys : list nat) (s : search) : search * option (nat * nat) :=
    match ys with
    | [] => (s, None)
    | y :: ys' =>
        if negb (in_T s y) && (slack s y =? 0)%Z then
          match yx y with
          | None => (s, Some (slackx s y, y))
          | Some x' =>
              let T' := upd (in_T s) y true in
              zero_scan yx ys'
                (if in_S s x'
                 then Search (lx s) (ly s) (in_S s) T' (slack s) (slackx s) (aug_path s) (queue s)
                 else Search (lx s) (ly s) (upd (in_S s) x' true) T' (slack s) (slackx s)
                        (upd (aug_path s) x' (Some (slackx s y))) (queue s ++ [x']))
          end
        else zero_scan yx ys' s
    end.

  (** while (!found_augmenting_path) *)
  Fixpoint find_path (fuel : nat) (yx : nat -> option nat) (s : search) : outcome (search * (nat * nat)) :=
    match fuel with
    | 0 => OutOfFuel
    | S fuel' =>
        do r <- drain (S n) yx s;
        match r with
        | (s1, Some xy) => Done (s1, xy)
        | (s1, None) =>
            do s2 <- relabel (smallest_slack s1) (seq 0 n) s1;
            match zero_scan yx (seq 0 n) (Search (lx s2) (ly s2) (in_S s2) (in_T s2) (slack s2) (slackx s2) (aug_path s2) []) with
            | (s3, Some xy) => Done (s3, xy)
            | (s3, None) => find_path fuel' yx s3
            end
        end
    end.

  (** Flip the edges along the augmenting path *)
  Fixpoint flip (fuel : nat) (aug : nat -> option nat) (cx : nat) (cy : option nat) (xy yx : nat -> option nat)
      : outcome ((nat -> option nat) * (nat -> option nat)) :=
    match fuel with
    | 0 => OutOfFuel
    | S fuel' =>
        let ty := xy cx in
        let yx' := match cy with Some y => upd yx y (Some cx) | None => yx end in
        let xy' := upd xy cx cy in
        match aug cx with
        | None => Done (xy', yx')
        | Some cx' => flip fuel' aug cx' ty xy' yx'
        end
    end.

  (** One round of the loop over match_size *)
  Record matching := Matching {
    m_lx : nat -> Z; m_ly : nat -> Z; m_slackx : nat -> nat;
    m_xy : nat -> option nat; m_yx : nat -> option nat
  }.
  Definition round_start (m : matching) : search :=
    match find (fun x => match m_xy m x with None => true | Some _ => false end) (seq 0 n) with
    | Some x => Search (m_lx m) (m_ly m) (upd (fun _ => false) x true) (fun _ => false) (fun _ => imax) (m_slackx m) (fun _ => None) [x]
    | None => Search (m_lx m) (m_ly m) (fun _ => false) (fun _ => false) (fun _ => imax) (m_slackx m) (fun _ => None) []
    end.
  Definition round (m : matching) : outcome matching :=
    do r <- find_path (S n) (m_yx m) (round_start m);
    let '(s, (x, y)) := r in
    do f <- flip (S n) (aug_path s) x (Some y) (m_xy m) (m_yx m);
    Done (Matching (lx s) (ly s) (slackx s) (fst f) (snd f)).
  Fixpoint rounds (k : nat) (m : matching) : outcome matching :=
    match k with 0 => Done m | S k' => do m' <- round m; rounds k' m' end.

  (** max(rowm(cost, x)) *)
  Definition row_max (x : nat) : Z := fold_left (fun v y => Z.max v (c x y)) (seq 0 n) (c x 0).

  (** max_cost_assignment *)
  Definition max_cost_assignment : outcome (list Z) :=
    do m <- rounds n (Matching row_max (fun _ => 0%Z) (fun _ => 0) (fun _ => None) (fun _ => None));
    Done (map (fun x => match m_xy m x with Some y => Z.of_nat y | None => (-1)%Z end) (seq 0 n)).
End Solver.

(** 32-bit int: overflow is undefined behaviour *)
Definition int_checked (z : Z) : outcome Z := if ((- 2 ^ 31 <=? z) && (z <? 2 ^ 31))%Z then Done z else Overflow.
(** ... or wraps around, as most compilers let it *)
Definition int_wrapping (z : Z) : outcome Z := Done ((z + 2 ^ 31) mod 2 ^ 32 - 2 ^ 31)%Z.
Definition int_highest : Z := (2 ^ 31 - 1)%Z.


(** The call dlib::max_cost_assignment(cost_matrix), track_matching.hpp:249.  Reading
    an element without a value is not modelled here (it counts as 0); in the
    theorems all elements have values. *)
Definition dlib_solve (norm : Z -> outcome Z) (cost : mat Z) : outcome (list Z) :=
  max_cost_assignment norm int_highest (nr cost) (fun i j => match elem cost i j with Some z => z | None => 0%Z end).

(** gnn_associator, track_matching.hpp:234-257, with dlib's solver instead of a
    solver that is assumed to be correct.  An overflow and a loop that does not end
    are both [UB]. *)
Definition gnn_associator_dlib (norm : Z -> outcome Z) (scores : score_map f32) : result association_map :=
  let* (score_matrix, track_set, detection_set) := score_matrix_from_score_map scores in
  let* costs := cost_matrix_from_score_matrix score_matrix in
  let* cost_matrix := make_square_matrix costs int_lowest in
  match dlib_solve norm cost_matrix with
  | Done results =>
      if (length results <? length track_set)%nat then UB
      else association_map_from_score_map (firstn (length track_set) results) track_set detection_set
  | Overflow | OutOfFuel => UB
  end.
