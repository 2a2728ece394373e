(** MCorr: the iterators over correspondences as Python lists (core/pyiterator.h, core/pyiterator.cpp, core/wrap_pygraph.cpp,
    wrappers/_gen_graph.py, wrappers/isograph.py). *)
From Verif Require Import Base MBits MUtils MGraph MHeur MStack MRec MEnum MApi MExt MGen.
Local Open Scope nat_scope.

(** wrap_pygraph.cpp:41-48, pyiterator.h:30-47: Graph._all_correspondences(len1, len2, size). len1 and len2 are kept for
    [next_correspondence], which does not use len1. *)
Definition all_correspondences (p : pygraph) (len1 len2 size : nat) : exc enum :=
  match loaded p with
  | None => Raise ENotLoaded
  | Some _ => Ret (new_enum size)
  end.

(** Python's list(iterator) over pyiterator.cpp:20-30: StopIteration ends it, any other exception passes through. *)
Fixpoint corr_drain (fuel : nat) (lr : bool) (len2 : nat) (p : pygraph) (en : enum)
  : outcome (pygraph * enum * exc (list (list nat * list nat))) :=
  match fuel with
  | 0 => OutOfFuel
  | S f =>
      '(p, en, r) <- next_correspondence lr len2 p en;;
      match r with
      | Raise EStopIteration => Ok (p, en, Ret [])
      | Raise x => Ok (p, en, Raise x)
      | Ret ab =>
          '(p, en, l) <- corr_drain f lr len2 p en;;
          match l with Ret l => Ok (p, en, Ret (ab :: l)) | Raise x => Ok (p, en, Raise x) end
      end
  end.

(** _gen_graph.py:146-169 all_correspondences; with return_indices=False the iterator is wrapped (lines 10-22), see [gen_drain]. *)
Definition gen_all_correspondences {E1 E2 : Type} (g : gengraph E1 E2) (size : nat) : exc enum :=
  all_correspondences (gg_graph g) (len1 g) (len2 g) size.

(** list(g.all_correspondences(size, return_indices=False)): each step is [gen_next_elements]. *)
Fixpoint gen_drain {E1 E2 : Type} (fuel : nat) (lr : bool) (g : gengraph E1 E2) (en : enum)
  : outcome (gengraph E1 E2 * enum * exc (list (list E1 * list E2))) :=
  match fuel with
  | 0 => OutOfFuel
  | S f =>
      '(g, en, r) <- gen_next_elements lr g en;;
      match r with
      | Raise EStopIteration => Ok (g, en, Ret [])
      | Raise x => Ok (g, en, Raise x)
      | Ret xy =>
          '(g, en, l) <- gen_drain f lr g en;;
          match l with Ret l => Ok (g, en, Ret (xy :: l)) | Raise x => Ok (g, en, Raise x) end
      end
  end.

(** The objects handed to len(): lists and arrays have a length; the class Graph defines no __len__ (wrap_pygraph.cpp:17-71),
    so that len() raises TypeError. *)
Inductive pyobj : Type := OSequence (n : nat) | OGraph (p : pygraph).
Definition py_len (o : pyobj) : exc nat :=
  match o with
  | OSequence n => Ret n
  | OGraph _ => Raise ETypeError
  end.

(** isograph.py:94-122 IsoGraph.all_correspondences: [p] is self, [s1], [s2] are the attributes S1 and S2. Both branches call
    Graph._all_correspondences(self, len(self.S1), len(self.S2), size) first (lines 115 and 120); the wrapping of the
    iterator follows. *)
Definition iso_all_correspondences (p : pygraph) (s1 s2 : pyobj) (size : nat) : exc enum :=
  match py_len s1 with
  | Raise x => Raise x
  | Ret n1 =>
      match py_len s2 with
      | Raise x => Raise x
      | Ret n2 => all_correspondences p n1 n2 size
      end
  end.
