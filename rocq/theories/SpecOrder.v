(** SpecOrder: the order in which all_cliques lists cliques. No proofs here. *)
From Verif Require Import Base MApi Spec SpecNW SpecCont.
Local Open Scope nat_scope.

(** Lexicographic order; a list comes before what is left when elements at its end are taken away. *)
Inductive lex : list nat -> list nat -> Prop :=
| lex_here x y l l' : x < y -> lex (x :: l) (y :: l')
| lex_end x l : lex (x :: l) []
| lex_later x l l' : lex l l' -> lex (x :: l) (x :: l').

(** By the vertex of least degree (the lowest such vertex, for equal degrees), then lexicographically. *)
Definition listed_before (adj : nat -> nat -> Prop) (d d' : list nat) : Prop :=
  exists v v', opens adj d v /\ opens adj d' v' /\ (v < v' \/ v = v' /\ lex d d').

(** By the first vertex of the search order of NWGraph, then lexicographically. *)
Definition nw_listed_before (n : nat) (adj : nat -> nat -> Prop) (w : list Z) (T : Z) (d d' : list nat) : Prop :=
  exists v v', heavy_minimal n adj w T d v /\ heavy_minimal n adj w T d' v' /\ (v < v' \/ v = v' /\ lex d d').

(** l is what is left of L when some elements are taken away. *)
Inductive subseq {A : Type} : list A -> list A -> Prop :=
| sub_nil L : subseq [] L
| sub_take x l L : subseq l L -> subseq (x :: l) (x :: L)
| sub_skip x l L : subseq l L -> subseq l (x :: L).
