(** P_Junk: NWGraph searches do not depend on uninitialised memory or on the order of evaluation (C88). *)
From Verif Require Import Base MUtils MGraph MApi MNW MNWEnum MNWApi Spec SpecNW SpecRound NWSum NWProps NWSamples SpecJunk NWDetApi JunkSamples.
Local Open Scope nat_scope.

(** Whatever the scratch buffer contains and in whatever order constructor arguments are evaluated, get_max_clique leaves the same object
    and returns the same clique, or raises the same exception. Only the order of equal keys that std::sort chooses can make a difference,
    and only if the heuristic is used. *)
Theorem C88_search : forall rnd p n adj w, nmade rnd p n adj w -> has_edge adj -> nstorage_live p ->
  forall q e e' lb ub heur dfs, nhistory rnd p q -> npermutes e -> (heur = true -> nw_srt e = nw_srt e') ->
  nw_get_max_clique rnd e q lb ub heur dfs = nw_get_max_clique rnd e' q lb ub heur dfs.
Proof. exact nw_get_same. Qed.
Print Assumptions C88_search.

Theorem C88_correspondence : forall rnd p n adj w, nmade rnd p n adj w -> has_edge adj -> nstorage_live p ->
  forall q e e' len2 lb ub heur dfs, nhistory rnd p q -> npermutes e -> (heur = true -> nw_srt e = nw_srt e') ->
  nw_get_correspondence rnd e q len2 lb ub heur dfs = nw_get_correspondence rnd e' q len2 lb ub heur dfs.
Proof. exact nw_correspondence_same. Qed.
Print Assumptions C88_correspondence.

(** list(all_cliques(T)) returns the same list and leaves the same object. *)
Theorem C88_list : forall rnd p n adj w, nmade rnd p n adj w -> has_edge adj -> nstorage_live p ->
  forall q e e' T en en' lr lr', nhistory rnd p q -> nw_all_cliques e q T = Ret en -> nw_all_cliques e' q T = Ret en' ->
  exists q' l, forall fuel, length l < fuel ->
    (exists x, nw_drain rnd fuel lr q en = Ok (q', x, l)) /\ (exists x, nw_drain rnd fuel lr' q en' = Ok (q', x, l)).
Proof. exact nw_list_same. Qed.
Print Assumptions C88_list.

(** A whole program sees the same. *)
Theorem C88_programs : forall rnd p n adj w, nmade rnd p n adj w -> has_edge adj -> nstorage_live p ->
  forall e e' cs q os, npermutes e -> (existsb uses_heuristic cs = true -> nw_srt e = nw_srt e') ->
  saw rnd e p cs q os -> saw rnd e' p cs q os.
Proof. exact saw_same. Qed.
Print Assumptions C88_programs.

(** The two environments differ in everything that the source leaves open except std::sort. *)
Example C88_example : nw_lr nw_env = true /\ nw_junk nw_env 0 = (-7)%Z
  /\ nw_get_max_clique half_even nw_env wsample 1 100 true true = nw_get_max_clique half_even (mkNWEnv false (nw_srt nw_env) (fun i => (1000000 - Z.of_nat i)%Z)) wsample 1 100 true true
  /\ answer (nw_get_max_clique half_even nw_env wsample 1 100 true true) = Ok (Ret [4; 5; 6]).
Proof. do 3 (split; [vm_compute; reflexivity|]). vm_compute. reflexivity. Qed.

Example C88_program_example : saw half_even nw_env wsample [WList 5%Z; WGet 1%Z 100%Z true true] junk_end [SawList [[4; 5]; [5; 6]]; SawClique (Ret [4; 5; 6])].
Proof. exact junk_saw. Qed.
