(** MAlignIter: the iterator of AlignGraph.all_correspondences with the lengths it keeps (core/pyiterator.h, wrappers/_gen_graph.py). *)
From Verif Require Import Base MUtils MGraph MEnum MApi MExt MGen MCorr MKabsch MAlignGraph MCorrIter.
Local Open Scope nat_scope.

(** _gen_graph.py:165-168, inherited by AlignGraph: the iterator that is wrapped *)
Definition align_iter {A : Type} (p : pygraph) (S1 S2 : list A) (size : nat) : exc corr_iter := make_iter p (length S1) (length S2) size.

Section AlignIter.
  Variable F : ofield.

  (** _gen_graph.py:10-22 list() over the wrapped iterator: each step of the iterator, with the length [n2] it keeps, is followed by
      AlignGraph._format_correspondence (aligngraph.py:119-150). *)
  Fixpoint align_wrapped (fuel : nat) (arccos : F -> option F) (svd : mat F -> mat F * (F * F) * mat F) (S1 S2 : list (vec F)) (lr : bool) (n2 : nat)
      (p : pygraph) (en : enum) : outcome (pygraph * enum * exc (list (list (vec F) * list (vec F) * option (F * mat F * vec F)))) :=
    match fuel with
    | 0 => OutOfFuel
    | S f =>
        '(p, en, r) <- next_correspondence lr n2 p en;;
        match (match r with Raise x => Raise x | Ret ab => align_dict F arccos svd S1 S2 ab end) with
        | Raise EStopIteration => Ok (p, en, Ret [])
        | Raise x => Ok (p, en, Raise x)
        | Ret d =>
            '(p, en, l) <- align_wrapped f arccos svd S1 S2 lr n2 p en;;
            match l with Ret l => Ok (p, en, Ret (d :: l)) | Raise x => Ok (p, en, Raise x) end
        end
    end.

  Definition align_list (fuel : nat) (arccos : F -> option F) (svd : mat F -> mat F * (F * F) * mat F) (S1 S2 : list (vec F)) (lr : bool)
      (p : pygraph) (it : corr_iter) : outcome (pygraph * enum * exc (list (list (vec F) * list (vec F) * option (F * mat F * vec F)))) :=
    align_wrapped fuel arccos svd S1 S2 lr (ci_len2 it) p (ci_enum it).
End AlignIter.
