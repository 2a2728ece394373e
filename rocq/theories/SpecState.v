(** SpecState: the functions that build a correspondence graph in an existing object. No proofs here. *)
From Verif Require Import Base MUtils MGraph MApi MExt.
Local Open Scope nat_scope.

Inductive builder : (pygraph -> outcome (exc pygraph)) -> Prop :=
| b_metric rnd srt S1 S2 eps : builder (fun p => build_edges_metric_only_r rnd srt p S1 S2 eps)
| b_both rnd srt S1 S2 eps cfunc : builder (fun p => build_edges_r rnd srt p S1 S2 eps cfunc)
| b_condition n1 n2 cfunc : builder (fun p => build_edges_condition_only p n1 n2 cfunc)
| b_iso s1 s2 : builder (fun p => build_edges_for_iso p s1 s2).
