(** MCorrIter: the iterator over correspondences with the lengths it keeps (core/pyiterator.h, core/pyiterator.cpp, wrappers/_gen_graph.py). *)
From Verif Require Import Base MUtils MGraph MEnum MApi MExt MGen MCorr MNW MNWEnum MNWApi MNWCorr.
Local Open Scope nat_scope.

(** pyiterator.h:30-36 CorrespondenceIterator: the enumerator and the two lengths. The references to the graph are left out: the graph is an
    argument of [iter_list]. *)
Record corr_iter : Type := mkCI { ci_enum : enum; ci_len1 : nat; ci_len2 : nat }.

(** pyiterator.h:39-46 the constructor *)
Definition make_iter (p : pygraph) (len1 len2 size : nat) : exc corr_iter :=
  match loaded p with
  | None => Raise ENotLoaded
  | Some _ => Ret (mkCI (new_enum size) len1 len2)
  end.

(** _gen_graph.py:163-164 all_correspondences(size, return_indices=True) *)
Definition gen_iter {E1 E2 : Type} (g : gengraph E1 E2) (size : nat) : exc corr_iter := make_iter (gg_graph g) (len1 g) (len2 g) size.

(** list(iterator): each step is pyiterator.cpp:20-31, with the lengths of the iterator. *)
Definition iter_list (fuel : nat) (lr : bool) (p : pygraph) (it : corr_iter) : outcome (pygraph * enum * exc (list (list nat * list nat))) :=
  corr_drain fuel lr (ci_len2 it) p (ci_enum it).

(** _gen_graph.py:10-22, 165-169 list(all_correspondences(size, return_indices=False)): each step of the iterator, with the length [n2] it keeps,
    followed by _format_correspondence. *)
Fixpoint wrapped_drain {E1 E2 : Type} (fuel : nat) (lr : bool) (n2 : nat) (g : gengraph E1 E2) (en : enum)
  : outcome (gengraph E1 E2 * enum * exc (list (list E1 * list E2))) :=
  match fuel with
  | 0 => OutOfFuel
  | S f =>
      '(p, en, r) <- next_correspondence lr n2 (gg_graph g) en;;
      let g := with_graph g p in
      match (match r with Raise x => Raise x | Ret ab => gen_format g ab end) with
      | Raise EStopIteration => Ok (g, en, Ret [])
      | Raise x => Ok (g, en, Raise x)
      | Ret xy =>
          '(g, en, l) <- wrapped_drain f lr n2 g en;;
          match l with Ret l => Ok (g, en, Ret (xy :: l)) | Raise x => Ok (g, en, Raise x) end
      end
  end.

Definition wrapped_list {E1 E2 : Type} (fuel : nat) (lr : bool) (g : gengraph E1 E2) (it : corr_iter)
  : outcome (gengraph E1 E2 * enum * exc (list (list E1 * list E2))) := wrapped_drain fuel lr (ci_len2 it) g (ci_enum it).

(** pyiterator.h:67-84 NWCorrespondenceIterator, as [corr_iter] *)
Record nw_corr_iter : Type := mkNCI { nci_enum : nenum; nci_len1 : nat; nci_len2 : nat }.

Definition make_nw_iter (e : nwenv) (p : pynw) (len1 len2 : nat) (T : Z) : exc nw_corr_iter :=
  match nw_all_cliques e p T with
  | Raise x => Raise x
  | Ret en => Ret (mkNCI en len1 len2)
  end.

(** list(iterator): each step is pyiterator.cpp:44-56. *)
Definition nw_iter_list (rnd : Z -> Z) (fuel : nat) (lr : bool) (p : pynw) (it : nw_corr_iter)
  : outcome (pynw * nenum * exc (list (list nat * list nat))) := nw_corr_drain rnd fuel lr (nci_len2 it) p (nci_enum it).
