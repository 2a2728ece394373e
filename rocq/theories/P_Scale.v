(** P_Scale: the unit in which distances are measured (C102). *)
From Verif Require Import Base MUtils MGraph MApi MEnum MExt MGen Spec SpecDec SpecRound SpecUnits SpecScale UnitFacts ScaleFacts ExtSamples GenSamples GenRoundSamples.
Local Open Scope nat_scope.

(** All distances and epsilon multiplied by c: the same graph, or the same failure. *)
Theorem C102_metric : forall rnd srt c, (0 < c)%Z -> respects c rnd -> only_compares srt -> forall p S1 S2 eps,
  build_edges_metric_only_r rnd srt p (set_in c S1) (set_in c S2) (c * eps) = build_edges_metric_only_r rnd srt p S1 S2 eps.
Proof. exact metric_units. Qed.
Print Assumptions C102_metric.

Theorem C102_condition : forall rnd srt c, (0 < c)%Z -> respects c rnd -> only_compares srt -> forall p S1 S2 eps f,
  build_edges_r rnd srt p (set_in c S1) (set_in c S2) (c * eps) f = build_edges_r rnd srt p S1 S2 eps f.
Proof. exact both_units. Qed.
Print Assumptions C102_condition.

(** The Python classes, also with the default metric of arrays: the same answers. *)
Theorem C102_answers_partial : forall E1 E2 rnd srt c, (0 < c)%Z -> respects c rnd -> only_compares srt -> forall (g : gengraph E1 E2) b,
  gen_build_edges_r rnd srt g = Ok (Ret b) ->
  exists b', gen_build_edges_r rnd srt (gen_in c g) = Ok (Ret b') /\ forall e lb ub heur dfs cont,
    answer (gen_get_indices e b' lb ub heur dfs cont) = answer (gen_get_indices e b lb ub heur dfs cont)
    /\ answer (gen_get_elements e b' lb ub heur dfs cont) = answer (gen_get_elements e b lb ub heur dfs cont).
Proof. exact @search_in_units. Qed.
Print Assumptions C102_answers_partial.

Theorem C102_with_condition_partial : forall E1 E2 rnd srt c, (0 < c)%Z -> respects c rnd -> only_compares srt -> forall (g : gengraph E1 E2) f only b,
  gen_build_with_condition_r rnd srt g f only = Ok (Ret b) ->
  exists b', gen_build_with_condition_r rnd srt (gen_in c g) f only = Ok (Ret b') /\ forall e lb ub heur dfs cont,
    answer (gen_get_indices e b' lb ub heur dfs cont) = answer (gen_get_indices e b lb ub heur dfs cont)
    /\ answer (gen_get_elements e b' lb ub heur dfs cont) = answer (gen_get_elements e b lb ub heur dfs cont).
Proof. exact @condition_in_units. Qed.
Print Assumptions C102_with_condition_partial.

Theorem C102_exceptions : forall E1 E2 rnd srt c, (0 < c)%Z -> respects c rnd -> only_compares srt -> forall (g : gengraph E1 E2) x,
  gen_build_edges_r rnd srt g = Ok (Raise x) -> gen_build_edges_r rnd srt (gen_in c g) = Ok (Raise x).
Proof. exact @gen_fails. Qed.
Print Assumptions C102_exceptions.

(** Exact numbers allow every factor. *)
Theorem C102_exact : forall c, respects c exact.
Proof. exact exact_respects. Qed.
Print Assumptions C102_exact.

(** Doubles do not: with all distances and epsilon tripled, without any rounding of these, every edge of the graph is gone. *)
Theorem C102_factor_refuted : exists d1 d2 eps b b', double d1 /\ double d2 /\ double eps /\ double (3 * d1) /\ double (3 * d2) /\ double (3 * eps)
  /\ only_compares pd_sort /\ sorts_dists pd_sort
  /\ gen_build_edges_r half_even pd_sort (gen_init names3 names3' (Some (apart d1)) (Some (apart d2)) true true eps) = Ok (Ret b)
  /\ gen_build_edges_r half_even pd_sort (gen_in 3 (gen_init names3 names3' (Some (apart d1)) (Some (apart d2)) true true eps)) = Ok (Ret b')
  /\ p_nedges (gg_graph b) = 12 /\ p_nedges (gg_graph b') = 0.
Proof.
  exists (2 ^ 53 + 12)%Z, (2 ^ 53 + 8)%Z, 3%Z. do 2 eexists.
  split; [exists (2 ^ 52 + 6)%Z, 1%Z; split; [reflexivity|split; [discriminate|reflexivity]]|].
  split; [exists (2 ^ 52 + 4)%Z, 1%Z; split; [reflexivity|split; [discriminate|reflexivity]]|].
  split; [exists 3%Z, 0%Z; split; [reflexivity|split; [discriminate|reflexivity]]|].
  split; [exists (3 * 2 ^ 51 + 9)%Z, 2%Z; split; [reflexivity|split; [discriminate|reflexivity]]|].
  split; [exists (3 * 2 ^ 51 + 6)%Z, 2%Z; split; [reflexivity|split; [discriminate|reflexivity]]|].
  split; [exists 9%Z, 0%Z; split; [reflexivity|split; [discriminate|reflexivity]]|].
  split; [exact pd_sort_compares|]. split; [exact pd_sort_sorts|].
  split; [vm_compute; reflexivity|]. split; [vm_compute; reflexivity|]. split; vm_compute; reflexivity.
Qed.
Print Assumptions C102_factor_refuted.

Example C102_example : (0 < 1024)%Z /\ respects 1024 half_even /\ only_compares pd_sort /\ gen_build_edges_r half_even pd_sort same0 = Ok (Ret same)
  /\ p_nedges (gg_graph same) = 18 /\ gen_build_edges_r half_even pd_sort (gen_in 1024 same0) = Ok (Ret (gen_in 1024 same))
  /\ metric_in 1024 (apart s9_9) 0 1 = (1024 * s9_9)%Z.
Proof.
  split; [reflexivity|]. split; [apply (half_even_respects 10); lia|]. split; [exact pd_sort_compares|]. split; [exact same_eq|]. split; [vm_compute; reflexivity|].
  split; [|reflexivity]. apply (gen_units half_even pd_sort 1024 eq_refl (half_even_respects 10 ltac:(lia)) pd_sort_compares same0 (Ret same)). exact same_eq.
Qed.
