(** SpecScale: distances measured in another unit (C102). No proofs here. *)
From Verif Require Import Base MUtils MGraph MExt MGen.
Local Open Scope Z_scope.

Definition pd_in (c : Z) (x : pdist) : pdist := mkPD (d_fst x) (d_snd x) (c * d_dist x).
Definition metric_in (c : Z) (d : metric) : metric := fun i j => c * d i j.
Definition set_in (c : Z) (S : mset) : mset := mkM (m_n S) (metric_in c (m_d S)) (m_sym S).
Definition gset_in {E : Type} (c : Z) (S : gset E) : gset E := mkGS (gs_elems S) (option_map (metric_in c) (gs_euclid S)).

(** The object with its metrics (also the Euclidean one) and its epsilon converted *)
Definition gen_in {E1 E2 : Type} (c : Z) (g : gengraph E1 E2) : gengraph E1 E2 :=
  mkGG (gg_graph g) (gset_in c (gg_S1 g)) (gset_in c (gg_S2 g)) (option_map (metric_in c) (gg_d1 g)) (option_map (metric_in c) (gg_d2 g))
    (gg_sym1 g) (gg_sym2 g) (c * gg_eps g).

(** std::sort sees the distances only through comparisons, which the unit does not change: it does the same with converted distances. *)
Definition only_compares (srt : list pdist -> list pdist) : Prop := forall c l, 0 < c -> srt (map (pd_in c) l) = map (pd_in c) (srt l).
