(** Samples: a small graph used by the examples of P_Search and P_Enum, and corollaries stated there. *)
From Verif Require Import Base MBits MUtils MGraph MHeur MStack MRec MEnum MApi Spec SpecDec BaseFacts ApiFacts EnumApi SearchProps.
From Coq Require Import Sorting.Sorted Sorting.Permutation.
Local Open Scope nat_scope.

(** K4 on 1..4, a triangle 5,6,7, the edge 4-5, and the isolated vertex 8. *)
Definition sample_rows : list (nat * nat) := [(1,2);(2,3);(1,3);(1,4);(4,2);(3,4);(4,5);(5,6);(6,7);(5,7)].

Definition sample : pygraph := match from_edgelist sample_rows 8 with Ok (Ret p) => p | _ => new_pygraph end.

Lemma sample_made : made sample 8 (adj_rows sample_rows).
Proof. apply made_edgelist; [reflexivity|vm_compute; reflexivity]. Qed.

Lemma sample_edge : has_edge (adj_rows sample_rows).
Proof. exists 1, 2. split; [discriminate|]. left. simpl. auto. Qed.

Lemma sample_live : storage_live sample.
Proof. eexists. split; [reflexivity|vm_compute; reflexivity]. Qed.

(** The object after a call. *)
Definition after {A : Type} (o : outcome (pygraph * A)) : pygraph := match o with Ok (p, _) => p | _ => new_pygraph end.

Lemma ends_ok {A} (o : outcome A) Q : ends_with o Q -> exists r, o = Ok r /\ Q r.
Proof. destruct o; simpl; intros H; [eauto|contradiction|contradiction]. Qed.

(** A search cut short by the clock, a search with a bound nothing beats, and a reset. *)
Definition late : env := run_env (Some (fun t => 3 <=? t)).
Definition sample1 : pygraph := after (get_max_clique late sample 0 DEFAULT_UB false true true).
Definition sample2 : pygraph := after (get_max_clique (run_env None) sample1 6 DEFAULT_UB true true false).
Definition sample3 : pygraph := match reset_search sample2 with Ok p => p | _ => new_pygraph end.

Lemma run_lawful clk lb : 1 <= lb -> lawful (run_env clk) lb.
Proof. intros H. split; [apply (proj1 (run_env_sorts clk))|auto]. Qed.

Lemma late_lawful lb : lawful late lb.
Proof. split; [apply (proj1 (run_env_sorts _))|right; apply run_steady]. Qed.

Lemma sample_history : history sample sample3.
Proof.
  apply (h_reset _ sample2); [|vm_compute; reflexivity].
  eapply (h_get _ sample1 (run_env None) 6 DEFAULT_UB true true false); [| |vm_compute; reflexivity].
  - eapply (h_get _ sample late 0 DEFAULT_UB false true true); [apply h_start|apply late_lawful|vm_compute; reflexivity].
  - apply run_lawful. repeat constructor.
Qed.

Lemma clique_length n adj c : clique n adj c -> length c <= n.
Proof.
  intros (SS & R & _). replace n with (length (seq 1 n)) by apply seq_length. apply NoDup_incl_length.
  - clear R. induction SS as [|x l SS IH F]; constructor; auto. intros I. rewrite Forall_forall in F. specialize (F x I). lia.
  - intros v I. specialize (R v I). apply in_seq. lia.
Qed.

Lemma default_ub_z : Z.of_nat DEFAULT_UB = 65535%Z.
Proof. unfold DEFAULT_UB. rewrite N_nat_Z. reflexivity. Qed.

Lemma default_max p n adj e heur cont : made p n adj -> has_edge adj -> storage_live p -> permutes e -> untimed e -> (Z.of_nat n <= 65535)%Z ->
  ends_with (get_max_clique e p 1 DEFAULT_UB heur true cont) (fun r => exists c, snd r = Ret c /\ maximum_clique n adj c).
Proof.
  intros M HE LV HP U Hn. destruct (edge_clique p n adj M HE) as (d2 & D2 & L2).
  eapply wp_mono; [apply (fresh_max p n adj M HE LV e 1 DEFAULT_UB heur cont HP (untimed_never_late e U))|].
  - intros d D. pose proof (clique_length n adj d D). pose proof default_ub_z. lia.
  - intros [q r] (_ & [(c & E & C & _)|(_ & F)]); [eauto|]. specialize (F d2 D2). lia.
Qed.

Lemma fresh_max_only p n adj e ub heur cont : made p n adj -> has_edge adj -> storage_live p -> permutes e -> never_late e ->
  (forall d, clique n adj d -> length d <= ub) ->
  ends_with (get_max_clique e p 1 ub heur true cont) (fun r => exists c, snd r = Ret c /\ maximum_clique n adj c).
Proof.
  intros M HE LV HP U HU. destruct (edge_clique p n adj M HE) as (d2 & D2 & L2).
  eapply wp_mono; [apply (fresh_max p n adj M HE LV e 1 ub heur cont HP U HU)|].
  intros [q r] (_ & [(c & E & C & _)|(_ & F)]); [eauto|]. specialize (F d2 D2). lia.
Qed.

Lemma maximum_same n adj c d : maximum_clique n adj c -> maximum_clique n adj d -> length c = length d.
Proof. intros [C1 C2] [D1 D2]. specialize (C2 _ D1). specialize (D2 _ C1). lia. Qed.

(** ** C17, C26: two fresh searches *)
Lemma fresh_same_size p n adj e e' lb ub heur heur' cont cont' : made p n adj -> has_edge adj -> storage_live p ->
  permutes e -> permutes e' -> never_late e -> never_late e' -> (forall d, clique n adj d -> length d <= ub) ->
  ends_with (get_max_clique e p lb ub heur true cont) (fun r => p_done (fst r) = true /\
    ends_with (get_max_clique e' p lb ub heur' true cont') (fun r' => p_done (fst r') = true /\
      match snd r, snd r' with
      | Ret c, Ret c' => clique n adj c /\ clique n adj c' /\ length c = length c'
      | Raise x, Raise x' => x = x'
      | _, _ => False
      end)).
Proof.
  intros M HE LV P P' L L' HU. eapply wp_mono; [apply (fresh_max p n adj M HE LV e lb ub heur cont P L HU)|].
  intros [q r] (D & F). cbn [fst snd] in *. split; auto.
  eapply wp_mono; [apply (fresh_max p n adj M HE LV e' lb ub heur' cont' P' L' HU)|].
  intros [q' r'] (D' & F'). cbn [fst snd] in *. split; auto.
  destruct F as [(c & -> & C & LC)|(-> & N)], F' as [(c' & -> & C' & LC')|(-> & N')]; auto.
  - split; [apply C|]. split; [apply C'|]. apply (maximum_same n adj); auto.
  - specialize (N' c (proj1 C)). lia.
  - specialize (N c' (proj1 C')). lia.
Qed.

Lemma heuristic_sound p n adj e lb ub cont : made p n adj -> has_edge adj -> storage_live p -> lawful e lb ->
  ends_with (get_max_clique e p lb ub true false cont) (fun r =>
    match snd r with
    | Ret c => clique n adj c /\ lb <= length c /\ (2 <= lb -> lb < length c)
    | Raise x => x = EBounds
    end).
Proof.
  intros M HE LV LA. eapply wp_mono; [apply (fresh_call p n adj M HE LV e lb ub true false cont LA)|].
  intros [q r] (c & C & ER & K & _). cbn [fst snd] in *. rewrite ER. destruct (Nat.ltb_spec (length c) lb); auto.
  split; auto. split; auto. lia.
Qed.

Lemma no_search p n adj e lb ub cont : made p n adj -> has_edge adj -> storage_live p -> permutes e -> 2 <= lb ->
  ends_with (get_max_clique e p lb ub false false cont) (fun r => snd r = Raise EBounds).
Proof.
  intros M HE LV P L. eapply wp_mono; [apply (fresh_call p n adj M HE LV e lb ub false false cont)|].
  - split; auto. left. lia.
  - intros [q r] (c & C & ER & _ & K & _). cbn [fst snd] in *. rewrite ER. rewrite (K eq_refl eq_refl).
    destruct (Nat.ltb_spec 1 lb); auto. lia.
Qed.

Lemma sample_unhurried : exists q, unhurried 8 (adj_rows sample_rows) sample q /\ q <> sample /\ exists q', reset_search q = Ok q'.
Proof.
  exists (after (get_max_clique (run_env None) sample 6 DEFAULT_UB true true false)). split; [|split; [vm_compute; discriminate|eexists; vm_compute; reflexivity]].
  eapply (u_get _ _ _ sample (run_env None) 6 DEFAULT_UB true true false); [apply u_start|apply (proj1 (run_env_sorts None))|exact I| |].
  - intros d D. apply (Nat.le_trans _ 8); [apply (clique_length _ _ _ D)|]. pose proof default_ub_z. lia.
  - vm_compute. reflexivity.
Qed.

(** ** The theorems of P_Search *)
Lemma search_safe p n adj q e lb ub heur dfs cont :
  made p n adj -> has_edge adj -> storage_live p -> history p q -> lawful e lb ->
  ends_with (get_max_clique e q lb ub heur dfs cont) (fun r => released (fst r)).
Proof. intros. eapply wp_mono; [eapply history_ends; eauto|]. intros r [H' _]. exact H'. Qed.

Lemma search_terminates p n adj q e lb ub heur dfs cont :
  made p n adj -> has_edge adj -> storage_live p -> history p q -> lawful e lb ->
  exists r, get_max_clique e q lb ub heur dfs cont = Ok r.
Proof. intros M HE LV H LA. destruct (ends_ok _ _ (history_ends p n adj q e lb ub heur dfs cont M HE LV H LA)) as (r & E & _). eauto. Qed.

Lemma answers_are_cliques p n adj q e lb ub heur dfs cont q' c :
  made p n adj -> has_edge adj -> storage_live p -> history p q -> lawful e lb ->
  get_max_clique e q lb ub heur dfs cont = Ok (q', Ret c) ->
  StronglySorted lt c /\ (forall v, In v c -> 1 <= v <= n) /\ (forall u v, In u c -> In v c -> u <> v -> adj u v)
  /\ lb <= length c.
Proof.
  intros M HE LV H LA E. destruct (ends_ok _ _ (history_ends p n adj q e lb ub heur dfs cont M HE LV H LA)) as (r & E' & _ & C).
  rewrite E in E'. injection E' as <-. cbn [snd] in C. destruct C as ((C1 & C2 & C3) & L). auto.
Qed.

Lemma untimed_max p n adj e ub heur cont :
  made p n adj -> has_edge adj -> storage_live p -> permutes e -> untimed e -> (forall d, clique n adj d -> length d <= ub) ->
  ends_with (get_max_clique e p 1 ub heur true cont) (fun r => exists c, snd r = Ret c /\ maximum_clique n adj c).
Proof. intros. apply fresh_max_only; auto. apply untimed_never_late; auto. Qed.

Lemma timed_as_good p n adj e e' lb ub heur cont :
  made p n adj -> has_edge adj -> storage_live p -> permutes e -> permutes e' -> never_late e -> untimed e' ->
  (forall d, clique n adj d -> length d <= ub) ->
  ends_with (get_max_clique e p lb ub heur true cont) (fun r => p_done (fst r) = true /\
    ends_with (get_max_clique e' p lb ub heur true cont) (fun r' => p_done (fst r') = true /\
      match snd r, snd r' with
      | Ret c, Ret c' => clique n adj c /\ clique n adj c' /\ length c = length c'
      | Raise x, Raise x' => x = x'
      | _, _ => False
      end)).
Proof. intros. apply fresh_same_size; auto. apply untimed_never_late; auto. Qed.

Lemma heuristic_neutral p n adj e e' lb ub cont :
  made p n adj -> has_edge adj -> storage_live p -> permutes e -> permutes e' -> never_late e -> never_late e' ->
  (forall d, clique n adj d -> length d <= ub) ->
  ends_with (get_max_clique e p lb ub true true cont) (fun r =>
    ends_with (get_max_clique e' p lb ub false true cont) (fun r' =>
      match snd r, snd r' with
      | Ret c, Ret c' => clique n adj c /\ clique n adj c' /\ length c = length c'
      | Raise x, Raise x' => x = x'
      | _, _ => False
      end)).
Proof.
  intros. eapply wp_mono; [apply (fresh_same_size p n adj e e' lb ub true false cont cont); auto|].
  intros r [_ F]. eapply wp_mono; [exact F|]. intros r' [_ F']. exact F'.
Qed.

Lemma edgeless_refuted : exists n p, from_edgelist [] n = Ok (Ret p) /\ storage_live p
  /\ forall e, get_max_clique e p 1 DEFAULT_UB true true false = UB OobRead.
Proof.
  exists 3. eexists. split; [vm_compute; reflexivity|]. split.
  - eexists. split; [reflexivity|vm_compute; reflexivity].
  - intros e. apply (edgeless_search _ 3 (adj_rows [])); auto.
    + apply made_edgelist; [reflexivity|vm_compute; reflexivity].
    + intros u v (_ & [[]|[]]).
Qed.

Lemma no_search_refuted : exists rows n p e c, sorts e /\ from_edgelist rows n = Ok (Ret p) /\ storage_live p
  /\ answer (get_max_clique e p 1 DEFAULT_UB false false false) = Ok (Ret c).
Proof.
  exists [(1,2);(2,3);(3,4);(4,5);(5,6);(6,4)], 6. eexists. exists (run_env None), [5]. split; [apply run_env_sorts|].
  split; [vm_compute; reflexivity|]. split; [|vm_compute; reflexivity].
  eexists. split; [reflexivity|vm_compute; reflexivity].
Qed.

Lemma heuristic_binding : exists rows n p e c c', sorts e /\ from_edgelist rows n = Ok (Ret p) /\ storage_live p
  /\ answer (get_max_clique e p 1 2 true true false) = Ok (Ret c)
  /\ answer (get_max_clique e p 1 2 false true false) = Ok (Ret c')
  /\ length c <> length c'.
Proof.
  exists [(5,8);(2,3);(8,1);(6,2);(8,4);(1,5);(2,1);(5,3)], 8. eexists. exists (run_env None). do 2 eexists. split; [apply run_env_sorts|].
  split; [vm_compute; reflexivity|]. split; [eexists; split; [reflexivity|vm_compute; reflexivity]|].
  split; [vm_compute; reflexivity|]. split; [vm_compute; reflexivity|]. vm_compute. discriminate.
Qed.

Lemma unloaded_raises e lb ub heur dfs cont k :
  answer (get_max_clique e new_pygraph lb ub heur dfs cont) = Ok (Raise ENotLoaded)
  /\ to_edgelist new_pygraph = Ok (Raise ENotLoaded) /\ to_matrix new_pygraph = Ok (Raise ENotLoaded)
  /\ to_adjlist new_pygraph = Ok (Raise ENotLoaded) /\ all_cliques new_pygraph k = Raise ENotLoaded.
Proof. repeat split; reflexivity. Qed.

Lemma unloaded_reset : reset_search new_pygraph = UB NullDeref /\ vertex_neighbors new_pygraph 0 = UB NullDeref.
Proof. split; reflexivity. Qed.

(** ** The theorems of P_Enum *)
Section Enum.
  Variables (p : pygraph) (n : nat) (adj : nat -> nat -> Prop).
  Hypothesis M : made p n adj.
  Hypothesis LV : storage_live p.

  Lemma enumeration_ends q lr k : has_edge adj -> history p q -> exists q' en l,
    (forall fuel, length l < fuel -> drain fuel lr q (new_enum k) = Ok (q', en, l)) /\ released q'.
  Proof. intros HE H. destruct (enumerate_history p n adj q lr k M HE LV H) as (q' & en & l & D & R & _). eauto. Qed.

  Lemma enumeration_steps q lr k i : has_edge adj -> history p q -> exists q' en l, nexts i lr q (new_enum k) = Ok (q', en, l).
  Proof.
    intros HE H. destruct (enumerate_history p n adj q lr k M HE LV H) as (q' & en & l & D & _).
    destruct (drain_nexts lr (S (length l)) _ _ _ _ _ i (D _ (Nat.lt_succ_diag_r _))) as (q1 & e1 & E). eauto.
  Qed.

  Lemma in_firstn {A} i (l : list A) x : In x (firstn i l) -> In x l.
  Proof. intros I. rewrite <- (firstn_skipn i l). apply in_or_app. auto. Qed.

  Lemma enumerated_are_cliques q lr k i q' en l c : has_edge adj -> history p q -> nexts i lr q (new_enum k) = Ok (q', en, l) -> In c l ->
    StronglySorted lt c /\ (forall v, In v c -> 1 <= v <= n) /\ (forall u v, In u c -> In v c -> u <> v -> adj u v) /\ length c = k.
  Proof.
    intros HE H E I. destruct (enumerate_history p n adj q lr k M HE LV H) as (q1 & en1 & l1 & D & _ & _ & C & _).
    destruct (drain_nexts lr (S (length l1)) _ _ _ _ _ i (D _ (Nat.lt_succ_diag_r _))) as (q2 & e2 & E').
    rewrite E in E'. injection E' as -> -> ->. apply in_firstn, C in I. destruct I as ((C1 & C2 & C3) & L). auto.
  Qed.

  Lemma fresh_enumerated_are_cliques lr k i : exists q' en l, nexts i lr p (new_enum k) = Ok (q', en, l)
    /\ forall c, In c l -> clique n adj c /\ length c = k.
  Proof.
    destruct (enumerate_fresh p n adj lr k M LV) as (q1 & en1 & l1 & D & _ & _ & C & _).
    destruct (drain_nexts lr (S (length l1)) _ _ _ _ _ i (D _ (Nat.lt_succ_diag_r _))) as (q2 & e2 & E').
    exists q2, e2, (firstn i l1). split; auto. intros c I. apply C. eapply in_firstn; eauto.
  Qed.

  Lemma enumerated_once q lr k fuel q' en l : has_edge adj -> history p q -> drain fuel lr q (new_enum k) = Ok (q', en, l) -> NoDup l.
  Proof.
    intros HE H E. destruct (enumerate_history p n adj q lr k M HE LV H) as (q1 & en1 & l1 & D & _ & ND & _).
    pose proof (drain_unique _ _ _ _ _ _ _ _ E D) as EQ. injection EQ as -> -> ->. exact ND.
  Qed.

  Lemma fresh_enumerated_once lr k fuel q' en l : drain fuel lr p (new_enum k) = Ok (q', en, l) -> NoDup l.
  Proof.
    intros E. destruct (enumerate_fresh p n adj lr k M LV) as (q1 & en1 & l1 & D & _ & ND & _).
    pose proof (drain_unique _ _ _ _ _ _ _ _ E D) as EQ. injection EQ as -> -> ->. exact ND.
  Qed.

  Lemma enumerated_exactly lr k : 2 <= k -> exists q' en l,
    (forall fuel, length l < fuel -> drain fuel lr p (new_enum k) = Ok (q', en, l))
    /\ forall c, In c l <-> clique n adj c /\ length c = k /\ ~ first_at_1 adj c.
  Proof.
    intros L. destruct (enumerate_fresh p n adj lr k M LV) as (q1 & en1 & l1 & D & _ & _ & _ & _ & _ & C).
    exists q1, en1, l1. split; auto.
  Qed.

  Lemma enumerate_small lr : exists q0 en0 q1 en1,
    (forall fuel, 0 < fuel -> drain fuel lr p (new_enum 0) = Ok (q0, en0, []))
    /\ (forall fuel, n < fuel -> drain fuel lr p (new_enum 1) = Ok (q1, en1, map (fun v => [v]) (seq 1 n))).
  Proof.
    destruct (enumerate_fresh p n adj lr 0 M LV) as (q0 & en0 & l0 & D0 & _ & _ & _ & E0 & _).
    destruct (enumerate_fresh p n adj lr 1 M LV) as (q1 & en1 & l1 & D1 & _ & _ & _ & _ & E1 & _).
    rewrite (E0 eq_refl) in D0. rewrite (E1 eq_refl) in D1. rewrite map_length, seq_length in D1.
    exists q0, en0, q1, en1. split; auto.
  Qed.

  Lemma enumerate_small_history q lr : has_edge adj -> history p q -> exists q0 en0 q1 en1,
    (forall fuel, 0 < fuel -> drain fuel lr q (new_enum 0) = Ok (q0, en0, []))
    /\ (forall fuel, n < fuel -> drain fuel lr q (new_enum 1) = Ok (q1, en1, map (fun v => [v]) (seq 1 n))).
  Proof.
    intros HE H. destruct (enumerate_history p n adj q lr 0 M HE LV H) as (q0 & en0 & l0 & D0 & _ & _ & _ & E0 & _).
    destruct (enumerate_history p n adj q lr 1 M HE LV H) as (q1 & en1 & l1 & D1 & _ & _ & _ & _ & E1 & _).
    rewrite (E0 eq_refl) in D0. rewrite (E1 eq_refl) in D1. rewrite map_length, seq_length in D1.
    exists q0, en0, q1, en1. split; auto.
  Qed.

  Lemma unhurried_history q : unhurried n adj p q -> history p q.
  Proof.
    induction 1 as [|q e lb ub heur dfs cont q' r H IH HP NL HU E|q q' H IH E|q lr k fuel q' en l H IH E|q lr en q' en' r H IH L E].
    - apply h_start.
    - eapply h_get; eauto. apply never_late_lawful; auto.
    - eapply h_reset; eauto.
    - eapply h_all; eauto.
    - eapply h_small; eauto.
  Qed.

  Lemma search_then_enumerate q lr lr' k : has_edge adj -> unhurried n adj p q -> exists q1 en1 l1 q2 en2 l2,
    (forall fuel, length l1 < fuel -> drain fuel lr p (new_enum k) = Ok (q1, en1, l1))
    /\ (forall fuel, length l2 < fuel -> drain fuel lr' q (new_enum k) = Ok (q2, en2, l2))
    /\ Permutation l1 l2.
  Proof.
    intros HE H. destruct (enumerate_fresh p n adj lr k M LV) as (q1 & en1 & l1 & D1 & _ & N1 & _ & A0 & A1 & A2).
    destruct (enumerate_history p n adj q lr' k M HE LV (unhurried_history q H)) as (q2 & en2 & l2 & D2 & _ & N2 & _ & B0 & B1 & _).
    exists q1, en1, l1, q2, en2, l2. split; auto. split; auto.
    destruct (Nat.le_gt_cases 2 k) as [L|L].
    - destruct (enumerate_unhurried p n adj q lr' k M HE LV H L) as (q3 & en3 & l3 & D3 & _ & C3).
      assert (l2 = l3) as ->.
      { pose proof (drain_unique _ _ _ _ _ _ _ _ (D2 _ (Nat.lt_succ_diag_r _)) D3) as EQ. congruence. }
      apply NoDup_Permutation; auto. intros d. rewrite C3, (A2 L). tauto.
    - assert (k = 0 \/ k = 1) as [E|E] by lia; [rewrite (A0 E), (B0 E)|rewrite (A1 E), (B1 E)]; apply Permutation_refl.
  Qed.

  Lemma default_then_enumerate e heur cont lr lr' k : has_edge adj -> permutes e -> untimed e -> (Z.of_nat n <= 65535)%Z ->
    exists q r, get_max_clique e p 1 DEFAULT_UB heur true cont = Ok (q, r) /\ exists q1 en1 l1 q2 en2 l2,
    (forall fuel, length l1 < fuel -> drain fuel lr p (new_enum k) = Ok (q1, en1, l1))
    /\ (forall fuel, length l2 < fuel -> drain fuel lr' q (new_enum k) = Ok (q2, en2, l2))
    /\ Permutation l1 l2.
  Proof.
    intros HE HP U Hn. destruct (ends_ok _ _ (default_max p n adj e heur cont M HE LV HP U Hn)) as ([q r] & E & _).
    exists q, r. split; auto. apply search_then_enumerate; auto.
    eapply u_get; [apply u_start|exact HP|apply (untimed_never_late e U)| |exact E].
    intros d D. pose proof (clique_length n adj d D). pose proof default_ub_z. lia.
  Qed.
End Enum.

Definition sample_all (k : nat) : list (list nat) := match drain 100 true sample3 (new_enum k) with Ok (_, _, l) => l | _ => [] end.
