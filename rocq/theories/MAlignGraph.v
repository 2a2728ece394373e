(** MAlignGraph: the class AlignGraph of wrappers/aligngraph.py, which joins the filter (MAlign), the search and the rotation (MKabsch).

    The rows of S1 and S2 are points over an ordered field (MKabsch); [val] gives the rational the filter computes with (MAlign). *)
From Verif Require Import Base MBits MUtils MGraph MHeur MStack MRec MEnum MApi MExt MGen MCorr MAlign MKabsch.
From Coq Require Import QArith.
Local Open Scope nat_scope.

Section AlignGraph.
  Variable F : ofield.
  Variable val : F -> Q.

  (** Row [i] of an array; the builder only reads rows that exist (0, 0 stands for the others). *)
  Definition row (S : list (vec F)) (i : nat) : point :=
    match nth_error S i with Some v => (val (fst v), val (snd v)) | None => (0, 0)%Q end.

  (** aligngraph.py:91-117 build_edges_with_filter. [d1], [d2] are the Euclidean distances of the rows, as in MAlign. *)
  Definition align_build (srt : list pdist -> list pdist) (p : pygraph) (S1 S2 : list (vec F)) (d1 d2 : metric) (eps : Z)
      (ctl : list point) (m : mask) (pct : Q) : outcome (exc pygraph) :=
    build_edges_with_filter srt p (length S1) (length S2) (row S1) (row S2) d1 d2 eps ctl m pct.

  (** aligngraph.py:152-208 get_correspondence: the indices (lines 205, 206) or the dictionary (line 208). *)
  Definition align_get (arccos : F -> option F) (svd : mat F -> mat F * (F * F) * mat F) (e : env) (p : pygraph) (S1 S2 : list (vec F))
      (lb ub : nat) (heur dfs cont return_indices : bool)
    : outcome (pygraph * exc ((list nat * list nat) + (list (vec F) * list (vec F) * option (F * mat F * vec F)))) :=
    '(p, r) <- get_correspondence e p (length S2) lb ub heur dfs cont;;
    Ok (p, match r with
           | Raise x => Raise x
           | Ret ab =>
               if return_indices then Ret (inl ab)
               else match align_dict F arccos svd S1 S2 ab with Raise x => Raise x | Ret d => Ret (inr d) end
           end).

  (** _gen_graph.py:10-22, 165-169 all_correspondences with return_indices=False, inherited by AlignGraph: one step of the wrapped
      iterator. The wrapper calls AlignGraph._format_correspondence (aligngraph.py:119-150). *)
  Definition align_next (arccos : F -> option F) (svd : mat F -> mat F * (F * F) * mat F) (S1 S2 : list (vec F)) (lr : bool) (p : pygraph) (en : enum)
    : outcome (pygraph * enum * exc (list (vec F) * list (vec F) * option (F * mat F * vec F))) :=
    '(p, en, r) <- next_correspondence lr (length S2) p en;;
    Ok (p, en, match r with Raise x => Raise x | Ret ab => align_dict F arccos svd S1 S2 ab end).

  (** Python's list(iterator) over it *)
  Fixpoint align_drain (fuel : nat) (arccos : F -> option F) (svd : mat F -> mat F * (F * F) * mat F) (S1 S2 : list (vec F)) (lr : bool)
      (p : pygraph) (en : enum) : outcome (pygraph * enum * exc (list (list (vec F) * list (vec F) * option (F * mat F * vec F)))) :=
    match fuel with
    | 0 => OutOfFuel
    | S f =>
        '(p, en, r) <- align_next arccos svd S1 S2 lr p en;;
        match r with
        | Raise EStopIteration => Ok (p, en, Ret [])
        | Raise x => Ok (p, en, Raise x)
        | Ret d =>
            '(p, en, l) <- align_drain f arccos svd S1 S2 lr p en;;
            match l with Ret l => Ok (p, en, Ret (d :: l)) | Raise x => Ok (p, en, Raise x) end
        end
    end.
End AlignGraph.
