(** EnumCalls: the statements of Samples about iterators, for the iterator that all_cliques returns (C11, C16, C28, C30, C31). *)
From Verif Require Import Base MUtils MGraph MEnum MApi Spec SpecDec LoadFacts SearchFacts ApiFacts EnumApi SearchProps Samples.
From Coq Require Import Sorting.Sorted.
Local Open Scope nat_scope.

Lemma all_cliques_new p k en : all_cliques p k = Ret en -> en = new_enum k.
Proof. unfold all_cliques. destruct (loaded p); congruence. Qed.

Section Calls.
  Variables (p : pygraph) (n : nat) (adj : nat -> nat -> Prop).
  Hypothesis M : made p n adj.
  Hypothesis LV : storage_live p.

  Lemma all_cliques_made k : 1 <= n -> all_cliques p k = Ret (new_enum k).
  Proof.
    intros N. destruct (made_fresh p n adj M) as (a & cap & m & g & -> & _ & _). unfold all_cliques, loaded. cbn.
    destruct (Nat.eqb_spec n 0); [lia|reflexivity].
  Qed.

  Lemma all_cliques_history q k : has_edge adj -> history p q -> all_cliques q k = Ret (new_enum k).
  Proof.
    intros HE H. destruct (made_hinv p n adj M HE LV) as (a & cap & m & g & GR & B & E & _ & _ & _ & _ & _ & HI & _).
    pose proof (has_edge_n a n adj GR HE) as N. subst p.
    destruct (history_hinv a n adj GR _ q N HI H) as (g1 & mcs & m1 & cur & fin & -> & _). unfold all_cliques, loaded. cbn.
    destruct (Nat.eqb_spec n 0); [lia|reflexivity].
  Qed.

  Lemma all_cliques_ends q lr k : has_edge adj -> history p q -> exists en0 q' en l, all_cliques q k = Ret en0
    /\ (forall fuel, length l < fuel -> drain fuel lr q en0 = Ok (q', en, l)) /\ released q'.
  Proof.
    intros HE H. destruct (enumeration_ends p n adj M LV q lr k HE H) as (q' & en & l & D & R).
    exists (new_enum k), q', en, l. split; [apply all_cliques_history|]; auto.
  Qed.

  Lemma all_cliques_steps q lr k i : has_edge adj -> history p q -> exists en0 q' en l, all_cliques q k = Ret en0 /\ nexts i lr q en0 = Ok (q', en, l).
  Proof.
    intros HE H. destruct (enumeration_steps p n adj M LV q lr k i HE H) as (q' & en & l & D).
    exists (new_enum k), q', en, l. split; [apply all_cliques_history|]; auto.
  Qed.

  Lemma all_cliques_only q lr k i en0 q' en l c : has_edge adj -> history p q -> all_cliques q k = Ret en0 -> nexts i lr q en0 = Ok (q', en, l) -> In c l ->
    StronglySorted lt c /\ (forall v, In v c -> 1 <= v <= n) /\ (forall u v, In u c -> In v c -> u <> v -> adj u v) /\ length c = k.
  Proof. intros HE H A D. apply all_cliques_new in A. subst en0. eapply (enumerated_are_cliques p n adj M LV); eauto. Qed.

  Lemma all_cliques_fresh lr k i : 1 <= n -> exists en0 q' en l, all_cliques p k = Ret en0 /\ nexts i lr p en0 = Ok (q', en, l)
    /\ forall c, In c l -> clique n adj c /\ length c = k.
  Proof.
    intros N. destruct (fresh_enumerated_are_cliques p n adj M LV lr k i) as (q' & en & l & D & C).
    exists (new_enum k), q', en, l. split; [apply all_cliques_made|]; auto.
  Qed.

  Lemma all_cliques_exactly lr k : 1 <= n -> 2 <= k -> exists en0 q' en l, all_cliques p k = Ret en0
    /\ (forall fuel, length l < fuel -> drain fuel lr p en0 = Ok (q', en, l))
    /\ forall c, In c l <-> clique n adj c /\ length c = k /\ ~ first_at_1 adj c.
  Proof.
    intros N K. destruct (enumerated_exactly p n adj M LV lr k K) as (q' & en & l & D & C).
    exists (new_enum k), q', en, l. split; [apply all_cliques_made|]; auto.
  Qed.

  Lemma all_cliques_small lr : 1 <= n -> exists a0 a1 q0 en0 q1 en1, all_cliques p 0 = Ret a0 /\ all_cliques p 1 = Ret a1
    /\ (forall fuel, 0 < fuel -> drain fuel lr p a0 = Ok (q0, en0, []))
    /\ (forall fuel, n < fuel -> drain fuel lr p a1 = Ok (q1, en1, map (fun v => [v]) (seq 1 n))).
  Proof.
    intros N. destruct (enumerate_small p n adj M LV lr) as (q0 & en0 & q1 & en1 & D).
    exists (new_enum 0), (new_enum 1), q0, en0, q1, en1. split; [apply all_cliques_made; auto|]. split; [apply all_cliques_made; auto|]. exact D.
  Qed.

  Lemma all_cliques_small_history q lr : has_edge adj -> history p q -> exists a0 a1 q0 en0 q1 en1, all_cliques q 0 = Ret a0 /\ all_cliques q 1 = Ret a1
    /\ (forall fuel, 0 < fuel -> drain fuel lr q a0 = Ok (q0, en0, []))
    /\ (forall fuel, n < fuel -> drain fuel lr q a1 = Ok (q1, en1, map (fun v => [v]) (seq 1 n))).
  Proof.
    intros HE H. destruct (enumerate_small_history p n adj M LV q lr HE H) as (q0 & en0 & q1 & en1 & D).
    exists (new_enum 0), (new_enum 1), q0, en0, q1, en1. split; [apply all_cliques_history; auto|]. split; [apply all_cliques_history; auto|]. exact D.
  Qed.
End Calls.
