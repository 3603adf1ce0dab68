(** Outcomes of modelled C++ calls.

    A modelled call ends in one of three ways: it returns a value, it throws an
    exception (only the kind of the exception is kept, not the message), or its
    behaviour is undefined (out-of-bounds access, NaN or out-of-range
    float-to-int conversion, violated precondition of Eigen or dlib, ...). *)

Inductive exn :=
| out_of_range      (** std::out_of_range *)
| logic_error       (** std::logic_error (thrown directly) *)
| runtime_error     (** std::runtime_error (thrown directly) *)
| json_error.       (** an exception of nlohmann::json *)

Inductive result (A : Type) :=
| Ok (a : A)
| Throw (e : exn)
| UB.
Arguments Ok {A} a.
Arguments Throw {A} e.
Arguments UB {A}.

Definition rbind {A B} (x : result A) (f : A -> result B) : result B :=
  match x with
  | Ok a => f a
  | Throw e => Throw e
  | UB => UB
  end.

Notation "'let*' x ':=' e 'in' k" := (rbind e (fun x => k))
  (at level 200, x pattern, e at level 100, k at level 200, right associativity).

(** Run [f] on the elements in order, stopping at the first failure. *)
Fixpoint rmap {A B} (f : A -> result B) (l : list A) : result (list B) :=
  match l with
  | nil => Ok nil
  | cons a l' => let* b := f a in let* bs := rmap f l' in Ok (cons b bs)
  end.
