(** MShare: copies of iterator objects (core/pyiterator.h, core/pyiterator.cpp).
    The four iterator classes hold a reference to the graph object, a py::object that keeps it alive, the lengths of the sets
    for the correspondence iterators, and a std::shared_ptr to the enumerator (pyiterator.h:13-18, 32-36, 52-55, 69-73).
    __iter__ returns *this by value (pyiterator.cpp:62-73), so that the copy shares the enumerator. *)
From Verif Require Import Base.
Local Open Scope nat_scope.

Section Share.
  Context {P En A : Type}.
  (** One step of the enumerator on the graph: next_clique, next_correspondence or one of their NW versions. *)
  Variable next : P -> En -> outcome (P * En * exc A).

  (** [h_ens]: the enumerators; [h_ptr]: the iterator objects in the order of their creation, each given by the enumerator it
      points to. *)
  Record handles : Type := mkHs { h_ens : list En; h_ptr : list nat }.

  (** iter(x) and next(x), where x is the number of an iterator object *)
  Inductive iop : Type := OIter (x : nat) | ONext (x : nat).

  (** pyiterator.cpp:62, 65, 68, 71: the implicit copy constructor. A program that uses an object that does not exist is not
      a program ([UB NullDeref]). *)
  Definition copy_iterator (h : handles) (x : nat) : outcome handles :=
    match nth_error (h_ptr h) x with
    | None => UB NullDeref
    | Some a => Ok (mkHs (h_ens h) (h_ptr h ++ [a]))
    end.

  (** pyiterator.cpp:64, 67, 70, 73 with the bodies of lines 8-56: the step works on the shared enumerator. *)
  Definition next_of (p : P) (h : handles) (x : nat) : outcome (P * handles * exc A) :=
    match nth_error (h_ptr h) x with
    | None => UB NullDeref
    | Some a =>
        match nth_error (h_ens h) a with
        | None => UB Dangling
        | Some en =>
            '(p, en, r) <- next p en;;
            Ok (p, mkHs (firstn a (h_ens h) ++ en :: skipn (S a) (h_ens h)) (h_ptr h), r)
        end
    end.

  (** A sequence of such calls and the results of the next(...) among them. *)
  Fixpoint run_iters (ops : list iop) (p : P) (h : handles) : outcome (P * handles * list (exc A)) :=
    match ops with
    | [] => Ok (p, h, [])
    | OIter x :: ops => h <- copy_iterator h x;; run_iters ops p h
    | ONext x :: ops =>
        '(p, h, r) <- next_of p h x;;
        '(p, h, l) <- run_iters ops p h;;
        Ok (p, h, r :: l)
    end.
End Share.
Arguments handles : clear implicits.
