(** P_Choice: Graph searches and enumerations do not depend on the order of evaluation (C89). *)
From Verif Require Import Base MUtils MGraph MHeur MEnum MApi Spec SpecDec Samples SpecChoice DetApi ChoiceSamples.
Local Open Scope nat_scope.

(** Whichever of the two bitsets of a root state is allocated first, get_max_clique leaves the same object and returns the same clique, or
    raises the same exception. Only the order of equal keys that std::sort chooses can make a difference, and only if the heuristic is used. *)
Theorem C89_search : forall p n adj, made p n adj -> has_edge adj -> storage_live p ->
  forall q e e' lb ub heur dfs cont, history p q -> permutes e -> clock e = clock e' -> (heur = true -> srt_fun e = srt_fun e') ->
  get_max_clique e q lb ub heur dfs cont = get_max_clique e' q lb ub heur dfs cont.
Proof. exact get_same. Qed.
Print Assumptions C89_search.

Theorem C89_correspondence : forall p n adj, made p n adj -> has_edge adj -> storage_live p ->
  forall q e e' len2 lb ub heur dfs cont, history p q -> permutes e -> clock e = clock e' -> (heur = true -> srt_fun e = srt_fun e') ->
  get_correspondence e q len2 lb ub heur dfs cont = get_correspondence e' q len2 lb ub heur dfs cont.
Proof. exact correspondence_same. Qed.
Print Assumptions C89_correspondence.

(** list(all_cliques(k)) returns the same list and leaves the same object. *)
Theorem C89_list : forall p n adj, made p n adj -> has_edge adj -> storage_live p ->
  forall q lr lr' k fuel q' x l, history p q -> drain fuel lr q (new_enum k) = Ok (q', x, l) ->
  exists x', drain fuel lr' q (new_enum k) = Ok (q', x', l).
Proof. exact list_same. Qed.
Print Assumptions C89_list.

(** A whole program sees the same, even if every call makes its own choice. *)
Theorem C89_programs : forall p n adj, made p n adj -> has_edge adj -> storage_live p ->
  forall lr lr' srt srt' cs q os, (forall l, Permutation (srt l) l) -> Forall call_lawful cs -> (existsb call_heuristic cs = true -> srt = srt') ->
  ran lr srt p cs q os -> ran lr' srt' p cs q os.
Proof. exact ran_same. Qed.
Print Assumptions C89_programs.

(** In the middle of an enumeration the scratch memory does depend on the order. *)
Theorem C89_midway_differs : exists p n adj q q' en en' r g g', made p n adj /\ has_edge adj /\ storage_live p
  /\ next_clique true p (new_enum 3) = Ok (q, en, r) /\ next_clique false p (new_enum 3) = Ok (q', en', r)
  /\ p_G q = Some g /\ p_G q' = Some g' /\ edge_bits g <> edge_bits g'.
Proof. exact choice_midway. Qed.
Print Assumptions C89_midway_differs.

Example C89_example : made sample 8 (adj_rows sample_rows) /\ has_edge (adj_rows sample_rows) /\ storage_live sample /\ history sample sample3
  /\ (forall l, Permutation (choice_srt l) l)
  /\ get_max_clique (mkEnv true choice_srt None) sample3 0 8 true true false = get_max_clique (mkEnv false choice_srt None) sample3 0 8 true true false
  /\ exists q, get_max_clique (mkEnv true choice_srt None) sample3 0 8 true true false = Ok (q, Ret [1; 2; 3; 4]).
Proof.
  split; [exact sample_made|]. split; [exact sample_edge|]. split; [exact sample_live|]. split; [exact sample_history|]. split; [exact choice_permutes|].
  exact choice_get_other.
Qed.

Example C89_program_example : Forall call_lawful choice_calls /\ ran choice_lr choice_srt sample choice_calls choice_4 choice_seen.
Proof. split; [exact choice_lawful|exact choice_ran]. Qed.
