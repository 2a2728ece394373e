(** MNWCorr: the iterator over correspondences of a NWGraph as a Python list (core/pyiterator.h, core/pyiterator.cpp,
    core/wrap_pygraph.cpp). *)
From Verif Require Import Base MBits MUtils MGraph MNW MNWEnum MApi MNWApi.
Local Open Scope nat_scope.

(** wrap_pygraph.cpp:101-107, pyiterator.h:67-84: NWGraph._all_correspondences(len1, len2, size). len1 and len2 are kept for
    [nw_next_correspondence], which does not use len1. *)
Definition nw_corr_iterator (e : nwenv) (p : pynw) (len1 len2 : nat) (w : Z) : exc nenum := nw_all_cliques e p w.

(** Python's list(iterator) over pyiterator.cpp:44-56: StopIteration ends it, any other exception passes through. *)
Fixpoint nw_corr_drain (rnd : Z -> Z) (fuel : nat) (lr : bool) (len2 : nat) (p : pynw) (en : nenum)
  : outcome (pynw * nenum * exc (list (list nat * list nat))) :=
  match fuel with
  | 0 => OutOfFuel
  | S f =>
      '(p, en, r) <- nw_next_correspondence rnd lr len2 p en;;
      match r with
      | Raise EStopIteration => Ok (p, en, Ret [])
      | Raise x => Ok (p, en, Raise x)
      | Ret ab =>
          '(p, en, l) <- nw_corr_drain rnd f lr len2 p en;;
          match l with Ret l => Ok (p, en, Ret (ab :: l)) | Raise x => Ok (p, en, Raise x) end
      end
  end.
