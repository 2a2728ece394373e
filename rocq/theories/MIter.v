(** MIter: clique iterators of correspondence graphs that are built again (core/pyiterator.h, core/pyiterator.cpp).
    build_edges_* replace pygraph::G (pygraph.cpp:28); the old graph is freed, and with it edge_bits, into which the states of an
    iterator's enumerator point. *)
From Verif Require Import Base MBits MUtils MGraph MEnum MApi MExt.
Local Open Scope nat_scope.

(** The object and how often its graph has been replaced. *)
Record world : Type := mkWorld { w_p : pygraph; w_gen : nat }.

(** pyiterator.h:13-18 CliqueIterator, 30-36 CorrespondenceIterator: a reference to the object and the enumerator.
    [i_gen]: the graph whose edge_bits the states point into. *)
Record iter : Type := mkIter { i_en : enum; i_gen : nat }.

(** pyiterator.h:21-26: all_cliques(size). *)
Definition new_iter (w : world) (size : nat) : iter := mkIter (new_enum size) (w_gen w).

(** enumerate.cpp:88-123: does process_graph access the top state? It does if the stack is not empty and cur < G.n_vert, unless
    REQUIRED_SIZE is 0 or 1. *)
Definition uses_states (g : graph) (en : enum) : bool :=
  match e_states en with
  | [] => false
  | _ :: _ => (e_cur en <? n_vert g) && negb (e_size en =? 0) && negb (e_size en =? 1)
  end.

(** pyiterator.cpp:8-18 next_clique. The states belong to the present graph when the stack was empty before. *)
Definition iter_next (lr : bool) (w : world) (it : iter) : outcome (world * iter * exc (list nat)) :=
  match p_G (w_p w) with
  | None => UB NullDeref
  | Some g =>
      if uses_states g (i_en it) && negb (i_gen it =? w_gen w) then UB Dangling
      else
        '(p, en, r) <- next_clique lr (w_p w) (i_en it);;
        Ok (mkWorld p (w_gen w), mkIter en (match e_states (i_en it) with [] => w_gen w | _ :: _ => i_gen it end), r)
  end.

(** ext_template.hpp:165-185, 187-210, 212-230 and isograph: building again in the same object; nothing changes if it raises. *)
Definition build_again (b : pygraph -> outcome (exc pygraph)) (w : world) : outcome (exc world) :=
  r <- b (w_p w);;
  match r with
  | Raise x => Ok (Raise x)
  | Ret p => Ok (Ret (mkWorld p (S (w_gen w))))
  end.

(** Python's list(iterator), at most [fuel] items. *)
Fixpoint iter_drain (fuel : nat) (lr : bool) (w : world) (it : iter) : outcome (world * iter * list (list nat)) :=
  match fuel with
  | 0 => OutOfFuel
  | S f =>
      '(w, it, r) <- iter_next lr w it;;
      match r with
      | Raise _ => Ok (w, it, [])
      | Ret c => '(w, it, l) <- iter_drain f lr w it;; Ok (w, it, c :: l)
      end
  end.
