(** P_Units: the unit in which weights are measured (C101). *)
From Verif Require Import Base MUtils MGraph MApi MNW MNWEnum MNWApi Spec SpecDec SpecNW SpecRound NWRoundFacts NWProps NWSamples SpecScript SpecUnits UnitFacts UnitSamples.
Local Open Scope nat_scope.

(** All weights and bounds multiplied by c: a program that does not use the heuristic sees the same cliques, the same matches and the same
    exceptions, and the weights multiplied by c. *)
Theorem C101_programs_partial : forall rnd c, (0 < c)%Z -> respects c rnd -> forall x w p s, nload rnd x w = Ok (Ret p) ->
  forallb (fun y => negb (by_heuristic y)) s = true ->
  exists p', nload rnd x (map (Z.mul c) w) = Ok (Ret p') /\ nobserve rnd (map (call_in c) s) p' [] = all_seen_in c (nobserve rnd s p []).
Proof. exact programs_units. Qed.
Print Assumptions C101_programs_partial.

(** Loading fails in one unit exactly when it fails in the other, and in the same way. *)
Theorem C101_load : forall rnd c, (0 < c)%Z -> respects c rnd -> forall x w,
  (forall u, nload rnd x w = UB u <-> nload rnd x (map (Z.mul c) w) = UB u)
  /\ (forall y, nload rnd x w = Ok (Raise y) <-> nload rnd x (map (Z.mul c) w) = Ok (Raise y)).
Proof. exact load_raises. Qed.
Print Assumptions C101_load.

(** A search without the heuristic returns the same clique or raises the same exception, whatever uninitialised memory contains in either run. *)
Theorem C101_search_partial : forall rnd c, (0 < c)%Z -> respects c rnd -> forall x w p p' n adj,
  nload rnd x w = Ok (Ret p) -> nload rnd x (map (Z.mul c) w) = Ok (Ret p') ->
  nmade rnd p' n adj (map (Z.mul c) w) -> has_edge adj -> nstorage_live p ->
  forall e e' lb ub dfs, npermutes e -> npermutes e' ->
  answer (nw_get_max_clique rnd e' p' (c * lb) (c * ub) false dfs) = answer (nw_get_max_clique rnd e p lb ub false dfs).
Proof. exact search_units. Qed.
Print Assumptions C101_search_partial.

(** list(all_cliques(T)) and list(all_cliques(c * T)) are the same list. *)
Theorem C101_list : forall rnd c, (0 < c)%Z -> respects c rnd -> forall x w p p' n adj,
  nload rnd x w = Ok (Ret p) -> nload rnd x (map (Z.mul c) w) = Ok (Ret p') ->
  nmade rnd p n adj w -> nmade rnd p' n adj (map (Z.mul c) w) -> has_edge adj -> nstorage_live p ->
  forall e e' T en en' lr lr', nw_all_cliques e p T = Ret en -> nw_all_cliques e' p' (c * T) = Ret en' ->
  exists l, forall fuel, length l < fuel ->
    (exists q y, nw_drain rnd fuel lr p en = Ok (q, y, l)) /\ (exists q y, nw_drain rnd fuel lr' p' en' = Ok (q, y, l)).
Proof. exact list_units. Qed.
Print Assumptions C101_list.

(** With the heuristic, followed by the depth-first search, the cliques may differ but not their weight. *)
Theorem C101_weight_partial : forall rnd c, (0 < c)%Z -> respects c rnd -> forall x w p p' n adj,
  nload rnd x w = Ok (Ret p) -> nload rnd x (map (Z.mul c) w) = Ok (Ret p') ->
  nmade rnd p n adj w -> nmade rnd p' n adj (map (Z.mul c) w) -> has_edge adj -> nstorage_live p ->
  forall e e' lb ub lb' ub' heur heur' d d', sums_exact rnd w -> nonnegative w -> npermutes e -> npermutes e' ->
  all_within n adj w ub -> all_within n adj (map (Z.mul c) w) ub' ->
  answer (nw_get_max_clique rnd e p lb ub heur true) = Ok (Ret d) -> answer (nw_get_max_clique rnd e' p' lb' ub' heur' true) = Ok (Ret d') ->
  2 <= length d -> 2 <= length d' -> weight w d = weight w d'.
Proof. exact heaviest_units. Qed.
Print Assumptions C101_weight_partial.

(** Doubles, rounded to nearest with ties to even, may be multiplied by any power of two. *)
Theorem C101_doubles : forall k, (0 <= k)%Z -> respects (2 ^ k) half_even.
Proof. exact half_even_respects. Qed.
Print Assumptions C101_doubles.

(** The heuristic alone does depend on the unit: it compares the number of candidates with a weight. In units of a sixteenth it returns
    a lighter clique. *)
Theorem C101_heuristic_refuted : exists x w p p' n adj e d d', nload half_even x w = Ok (Ret p) /\ nload half_even x (map (Z.mul 16) w) = Ok (Ret p')
  /\ nmade half_even p n adj w /\ nmade half_even p' n adj (map (Z.mul 16) w) /\ has_edge adj /\ nstorage_live p /\ sums_exact half_even w /\ nonnegative w /\ nsorts e
  /\ answer (nw_get_max_clique half_even e p 0 100 true false) = Ok (Ret d)
  /\ answer (nw_get_max_clique half_even e p' (16 * 0) (16 * 100) true false) = Ok (Ret d') /\ (weight w d' < weight w d)%Z.
Proof.
  exists (FromRows urows 6), uwts, usample, usample16, 6, (adj_rows urows), nw_env, [1; 2; 4], [1; 2].
  split; [exact usample_load|]. split; [exact usample16_load|]. split; [exact usample_made|]. split; [exact usample16_made|].
  split; [exact usample_edge|]. split; [exact usample_live|]. split; [exact usample_exact|]. split; [intros y I; simpl in I; lia|].
  split; [exact nw_env_sorts|]. split; [vm_compute; reflexivity|]. split; vm_compute; reflexivity.
Qed.
Print Assumptions C101_heuristic_refuted.

Example C101_example : (0 < 16)%Z /\ respects 16 half_even /\ nload half_even (FromRows urows 6) uwts = Ok (Ret usample)
  /\ forallb (fun y => negb (by_heuristic y)) uprogram = true
  /\ nobserve half_even uprogram usample [] =
     Ok [SMade (Ret tt); SClique (Ret [1; 2; 4]); SClique (Ret [1; 3; 4]); SClique (Ret [1; 3; 4]); SWeight (Ret 5%Z); SNothing; SPairs (Ret ([0; 1; 1], [0; 0; 1])); SWeights (Ret uwts); SVertex (Ret (2%Z, [1; 4; 6]))].
Proof.
  split; [reflexivity|]. split; [apply (half_even_respects 4); lia|]. split; [exact usample_load|]. split; [vm_compute; reflexivity|]. vm_compute. reflexivity.
Qed.

Example C101_search_example : nload half_even (FromRows urows 6) (map (Z.mul 16) uwts) = Ok (Ret usample16) /\ nmade half_even usample16 6 (adj_rows urows) (map (Z.mul 16) uwts)
  /\ nmade half_even usample 6 (adj_rows urows) uwts /\ has_edge (adj_rows urows) /\ nstorage_live usample /\ sums_exact half_even uwts
  /\ answer (nw_get_max_clique half_even nw_env usample 0 100 false true) = Ok (Ret [1; 3; 4])
  /\ answer (nw_get_max_clique half_even nw_env usample16 (16 * 0) (16 * 100) false true) = Ok (Ret [1; 3; 4])
  /\ answer (nw_get_max_clique half_even nw_env usample16 0 (16 * 100) true true) = Ok (Ret [1; 3; 4]).
Proof.
  split; [exact usample16_load|]. split; [exact usample16_made|]. split; [exact usample_made|]. split; [exact usample_edge|]. split; [exact usample_live|].
  split; [exact usample_exact|]. split; [vm_compute; reflexivity|]. split; vm_compute; reflexivity.
Qed.
