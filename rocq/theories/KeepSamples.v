(** KeepSamples: the objects used by the examples and witnesses of P_Keep. *)
From Verif Require Import Base MUtils MGraph MHeur MEnum MApi MNW MNWEnum MNWApi Spec SpecDec SpecNW SpecKeep SearchProps LoadFacts SpecRound NWRoundFacts Samples NWProps NWSamples.
Local Open Scope nat_scope.

(** A search on the sample graph and one step of an iterator. *)
Definition kept1 : pygraph := after (get_max_clique (run_env None) sample 1 DEFAULT_UB true true false).
Definition kept2 : pygraph * enum := match next_clique true kept1 (new_enum 3) with Ok (q, en, _) => (q, en) | _ => (sample, new_enum 3) end.

Lemma kept1_eq : get_max_clique (run_env None) sample 1 DEFAULT_UB true true false = Ok (kept1, Ret [1; 2; 3; 4]).
Proof. vm_compute. reflexivity. Qed.

Lemma kept2_eq : next_clique true kept1 (new_enum 3) = Ok (fst kept2, snd kept2, Ret [2; 3; 4]).
Proof. vm_compute. reflexivity. Qed.

Lemma keep_example : exists q1 q2 en2, get_max_clique (run_env None) sample 1 DEFAULT_UB true true false = Ok (q1, Ret [1; 2; 3; 4])
  /\ next_clique true q1 (new_enum 3) = Ok (q2, en2, Ret [2; 3; 4]) /\ calls sample q2 /\ q2 <> sample.
Proof.
  exists kept1, (fst kept2), (snd kept2). split; [exact kept1_eq|]. split; [exact kept2_eq|]. split; [|vm_compute; discriminate].
  eapply c_next; [|exact kept2_eq]. eapply c_get; [apply c_start|exact kept1_eq].
Qed.

(** An iterator over the cliques of size 3, to its end. *)
Definition ended (s : pygraph * enum) : pygraph * enum := match next_clique true (fst s) (snd s) with Ok (q, en, _) => (q, en) | _ => s end.
Definition ended1 := ended (sample, new_enum 3).
Definition ended2 := ended ended1.
Definition ended3 := ended ended2.

Lemma ended1_eq : next_clique true sample (new_enum 3) = Ok (fst ended1, snd ended1, Ret [2; 3; 4]).
Proof. vm_compute. reflexivity. Qed.
Lemma ended2_eq : next_clique true (fst ended1) (snd ended1) = Ok (fst ended2, snd ended2, Ret [5; 6; 7]).
Proof. vm_compute. reflexivity. Qed.
Lemma ended3_eq : next_clique true (fst ended2) (snd ended2) = Ok (fst ended3, snd ended3, Raise EStopIteration).
Proof. vm_compute. reflexivity. Qed.

Lemma exhausted_example : exists p1 en1 p2 en2 p3 en3, made sample 8 (adj_rows sample_rows)
  /\ next_clique true sample (new_enum 3) = Ok (p1, en1, Ret [2; 3; 4]) /\ next_clique true p1 en1 = Ok (p2, en2, Ret [5; 6; 7])
  /\ calls sample p2 /\ next_clique true p2 en2 = Ok (p3, en3, Raise EStopIteration).
Proof.
  exists (fst ended1), (snd ended1), (fst ended2), (snd ended2), (fst ended3), (snd ended3). split; [exact sample_made|]. split; [exact ended1_eq|].
  split; [exact ended2_eq|]. split; [|exact ended3_eq].
  eapply c_next; [|exact ended2_eq]. eapply c_next; [apply c_start|exact ended1_eq].
Qed.

(** Matches of 2 with 3 elements, adjacent when they use different elements. *)
Definition wmatch_rows : pairs := [(1,5);(1,6);(2,4);(2,6);(3,4);(3,5)].
Definition wmatch : pynw := match nw_from_edgelist half_even wmatch_rows 6 wwts with Ok (Ret p) => p | _ => new_pynw end.

Lemma wmatch_example : nmade half_even wmatch 6 (adj_rows wmatch_rows) wwts /\ has_edge (adj_rows wmatch_rows) /\ nstorage_live wmatch /\ one_to_one 3 (adj_rows wmatch_rows)
  /\ sums_exact half_even wwts /\ nonnegative wwts /\ (exists x, In x wwts /\ (0 < x)%Z) /\ npermutes nw_env
  /\ answer (nw_get_correspondence half_even nw_env wmatch 3 0 100 true true) = Ok (Ret ([0; 1], [0; 1])).
Proof.
  split; [apply nmade_edgelist; [unfold fits; vm_compute; reflexivity|vm_compute; reflexivity]|].
  split; [exists 1, 5; split; [lia|]; left; left; reflexivity|].
  split; [eexists; split; [reflexivity|]; vm_compute; reflexivity|].
  split.
  - intros i j i' j' J J' [_ [H|H]]; simpl in H; unfold vid in H;
      repeat (destruct H as [H|H]; [injection H; intros; lia|]); contradiction.
  - split; [exact wwts_exact|]. split; [exact wwts_nonneg|]. split; [exists 5%Z; split; [left; reflexivity|lia]|]. split; [exact nw_env_permutes|]. vm_compute. reflexivity.
Qed.

(** The same graph with all weights 0. *)
Definition wzero : pynw := match nw_from_edgelist half_even wmatch_rows 6 [0; 0; 0; 0; 0; 0]%Z with Ok (Ret p) => p | _ => new_pynw end.

Lemma sentinel_example : exists p n adj w e c, nmade half_even p n adj w /\ has_edge adj /\ nstorage_live p /\ sums_exact half_even w /\ nonnegative w /\ nsorts e
  /\ clique n adj c /\ 2 <= length c /\ (0 <= weight w c)%Z /\ answer (nw_get_correspondence half_even e p 3 0 100 true true) = Ok (Raise ESentinel).
Proof.
  exists wzero, 6, (adj_rows wmatch_rows), [0; 0; 0; 0; 0; 0]%Z, nw_env, [1; 5].
  split; [apply nmade_edgelist; [unfold fits; vm_compute; reflexivity|vm_compute; reflexivity]|].
  split; [exists 1, 5; split; [lia|]; left; left; reflexivity|].
  split; [eexists; split; [reflexivity|]; vm_compute; reflexivity|].
  split; [apply small_sums; reflexivity|]. split; [intros x I; simpl in I; lia|]. split; [exact nw_env_sorts|].
  split; [|split; [simpl; lia|split; [vm_compute; discriminate|vm_compute; reflexivity]]].
  split; [repeat constructor; simpl; lia|]. split; [intros v [<- | [<- | []]]; lia|].
  intros u v [<- | [<- | []]] [<- | [<- | []]] NE; try lia; (split; [lia|]); [left|right]; simpl; auto.
Qed.

(** A graph on which the repeated heuristic gives a lighter clique. *)
Definition wlight_rows : pairs :=
  [(1,3);(1,4);(1,5);(1,7);(2,5);(2,6);(2,7);(3,4);(3,5);(3,6);(3,7);(4,6);(4,7);(5,6);(5,7);(6,7)].
Definition wlight_wts : list Z := [0; 3; 2; 2; 0; 0; 0]%Z.
Definition wlight : pynw := match nw_from_edgelist half_even wlight_rows 7 wlight_wts with Ok (Ret p) => p | _ => new_pynw end.
Definition wafter1 (p : pynw) (heur dfs : bool) : pynw := match nw_get_max_clique half_even nw_env p 0 100 heur dfs with Ok (q, _) => q | _ => p end.

Lemma wlight_made : nmade half_even wlight 7 (adj_rows wlight_rows) wlight_wts.
Proof. apply nmade_edgelist; [unfold fits; vm_compute; reflexivity|vm_compute; reflexivity]. Qed.

Lemma wlight_edge : has_edge (adj_rows wlight_rows).
Proof. exists 1, 3. split; [lia|]. left. left. reflexivity. Qed.

Lemma wlight_live : nstorage_live wlight.
Proof. eexists. split; [reflexivity|]. vm_compute. reflexivity. Qed.

Lemma wlight_nonneg : nonnegative wlight_wts.
Proof. intros x I. simpl in I. lia. Qed.

Lemma wlight_exact : sums_exact half_even wlight_wts.
Proof. apply small_sums. reflexivity. Qed.

Lemma lighter_example : exists p n adj w e q1 c1 q2 c2, nmade half_even p n adj w /\ has_edge adj /\ nstorage_live p /\ sums_exact half_even w /\ nonnegative w /\ nsorts e
  /\ nw_get_max_clique half_even e p 0 100 true false = Ok (q1, Ret c1) /\ nw_get_max_clique half_even e q1 0 100 true false = Ok (q2, Ret c2)
  /\ 2 <= length c1 /\ (weight w c2 < weight w c1)%Z.
Proof.
  exists wlight, 7, (adj_rows wlight_rows), wlight_wts, nw_env, (wafter1 wlight true false), [2; 5; 6; 7],
    (wafter1 (wafter1 wlight true false) true false), [3; 5; 6; 7].
  split; [exact wlight_made|]. split; [exact wlight_edge|]. split; [exact wlight_live|]. split; [exact wlight_exact|]. split; [exact wlight_nonneg|]. split; [exact nw_env_sorts|].
  split; [vm_compute; reflexivity|]. split; [vm_compute; reflexivity|]. split; [simpl; lia|]. vm_compute. reflexivity.
Qed.

Lemma heavier_example : exists q1 c1 q2 c2, nmade half_even wlight 7 (adj_rows wlight_rows) wlight_wts /\ has_edge (adj_rows wlight_rows) /\ nstorage_live wlight
  /\ sums_exact half_even wlight_wts /\ nonnegative wlight_wts /\ npermutes nw_env
  /\ nw_get_max_clique half_even nw_env wlight 0 100 true false = Ok (q1, Ret c1) /\ nw_get_max_clique half_even nw_env q1 0 100 false true = Ok (q2, Ret c2)
  /\ 2 <= length c1 /\ weight wlight_wts c1 = 3%Z /\ weight wlight_wts c2 = 4%Z.
Proof.
  exists (wafter1 wlight true false), [2; 5; 6; 7], (wafter1 (wafter1 wlight true false) false true), [1; 3; 4; 7].
  split; [exact wlight_made|]. split; [exact wlight_edge|]. split; [exact wlight_live|]. split; [exact wlight_exact|]. split; [exact wlight_nonneg|]. split; [exact nw_env_permutes|].
  split; [vm_compute; reflexivity|]. split; [vm_compute; reflexivity|]. split; [simpl; lia|]. split; vm_compute; reflexivity.
Qed.
