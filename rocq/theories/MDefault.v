(** MDefault: NWGraph.get_max_clique called without arguments. No proofs here. *)
From Verif Require Import Base MUtils MGraph MApi MNW MNWEnum MNWApi.
Local Open Scope Z_scope.

(** core/wrap_pygraph.cpp:81-84: the defaults of NWGraph.get_max_clique, lower_bound = 1 and upper_bound = 0xFFFF, converted to
    double. They are those of Graph (wrap_pygraph.cpp:27-30), where they count vertices. [u] is the number of units in 1.0, if
    weights are counted in some fraction of it (2^1074 in SpecRound.v). *)
Definition NW_LB (u : Z) : Z := u.
Definition NW_UB (u : Z) : Z := 65535 * u.

(** core/pynwgraph.cpp:44-63 with the arguments of core/wrap_pygraph.cpp:83-84. *)
Definition nw_get_default (rnd : Z -> Z) (u : Z) (e : nwenv) (q : pynw) : outcome (pynw * exc (list nat)) :=
  nw_get_max_clique rnd e q (NW_LB u) (NW_UB u) true true.
