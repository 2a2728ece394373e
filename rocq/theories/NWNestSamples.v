(** NWNestSamples: the programs of the examples of P_NWNest. *)
From Verif Require Import Base MUtils MGraph MApi MNW MNWEnum MNWApi Spec SpecDec SpecNW SpecNWNest SpecRound SearchProps NWRoundFacts NWSamples NWNestProps.
Local Open Scope nat_scope.

Definition nwstep (q : pynw) (en : nenum) : pynw * nenum * list nat :=
  match nw_next_clique half_even true q en with Ok (q', en', Ret c) => (q', en', c) | _ => (q, en, []) end.

(** for a in all_cliques(3): get_max_clique(0, 100); for b in all_cliques(8): (two turns) *)
Definition nwn0 : nenum := Eval vm_compute in wen wsample 3.
Definition nwn1 := Eval vm_compute in nwstep wsample nwn0.
Definition nwn2 : pynw := Eval vm_compute in
  match nw_get_max_clique half_even nw_env (fst (fst nwn1)) 0 100 true true with Ok (q, _) => q | _ => new_pynw end.
Definition nwn2b : nenum := Eval vm_compute in wen nwn2 8.
Definition nwn3 := Eval vm_compute in nwstep nwn2 nwn2b.
Definition nwn4 := Eval vm_compute in nwstep (fst (fst nwn3)) (snd (fst nwn3)).
Definition nwouter : nwloop := mkNL 3 (snd (fst nwn1)) [[2; 3; 4]].
Definition nwinner : nwloop := mkNL 8 (snd (fst nwn4)) [[4; 5]; [5; 6]].

Lemma nw_roomleft_nil n adj : nw_roomleft n adj [].
Proof. exists []. split; [split; [constructor|split; [intros v []|intros u v []]]|]. cbn. lia. Qed.

Lemma nwouter_loop : nwloops half_even 6 (adj_rows wrows) wwts true true wsample [nwouter] (fst (fst nwn1)).
Proof.
  apply (nl_next _ _ _ _ _ _ _ [] wsample 3 nwn0 [] _ _ [2; 3; 4]); [|apply nw_roomleft_nil|vm_compute; reflexivity].
  apply (nl_begin _ _ _ _ _ _ _ [] wsample nw_env); [apply nl_start|vm_compute; reflexivity].
Qed.

Lemma nwouter_fit : nw_roomleft 6 (adj_rows wrows) [nwouter].
Proof. eapply nw_one_roomleft; [exact wsample_made|exact wsample_edge|exact wsample_live|exact nwouter_loop]. Qed.

Lemma nwinner_loop : nwloops half_even 6 (adj_rows wrows) wwts true true wsample [nwinner; nwouter] (fst (fst nwn4)).
Proof.
  apply (nl_next _ _ _ _ _ _ _ [nwouter] (fst (fst nwn3)) 8 (snd (fst nwn3)) [[4; 5]] _ _ [5; 6]); [|exact nwouter_fit|vm_compute; reflexivity].
  apply (nl_next _ _ _ _ _ _ _ [nwouter] nwn2 8 nwn2b [] _ _ [4; 5]); [|exact nwouter_fit|vm_compute; reflexivity].
  apply (nl_begin _ _ _ _ _ _ _ [nwouter] nwn2 nw_env); [|vm_compute; reflexivity].
  eapply (nl_get _ _ _ _ _ _ _ [nwouter] (fst (fst nwn1)) nw_env 0 100 true true);
    [exact nwouter_loop|exact nwouter_fit|exact nw_env_permutes|intros _; exact wwts_100|vm_compute; reflexivity].
Qed.

Lemma nwinner_fit : nw_roomleft 6 (adj_rows wrows) [nwinner; nwouter].
Proof. exists [1; 2; 3; 4]. split; [apply cliqueb_sound; vm_compute; reflexivity|]. cbn. repeat constructor. Qed.

Lemma wwts_positive : positive_weights half_even wwts.
Proof. split; [exact wwts_exact|]. split; [exact wwts_nonneg|]. exists 5%Z. split; [left; reflexivity|reflexivity]. Qed.

(** Two iterators that stopped at a triangle, and no clique of more than three vertices. *)
Lemma nw_abandon_then_search : exists rows n w p q e, nsorts e /\ fits (n + 1 + 2 * length rows) /\ nw_from_edgelist half_even rows n w = Ok (Ret p)
  /\ nstorage_live p /\ positive_weights half_even w /\ nw_abandon half_even e 2 3 p = Ok q
  /\ nw_get_max_clique half_even e q 0 100 false true = UB OobRead.
Proof.
  exists [(2,3);(3,4);(2,4)], 4, [1; 1; 1; 1]%Z. do 2 eexists. exists nw_env. split; [exact nw_env_sorts|]. split; [unfold fits; vm_compute; reflexivity|].
  split; [vm_compute; reflexivity|]. split; [eexists; split; [reflexivity|vm_compute; reflexivity]|]. split.
  { split; [apply small_sums; reflexivity|]. split; [intros x I; cbn [In] in I; intuition lia|]. exists 1%Z. split; [left; reflexivity|reflexivity]. }
  split; [vm_compute; reflexivity|]. vm_compute. reflexivity.
Qed.

(** A list of four cliques; taken in turn, both iterators miss the third. *)
Lemma nw_alternate_misses : exists q en', nw_all_cliques nw_env wsample 3 = Ret nwn0
  /\ nw_drain half_even 7 true wsample nwn0 = Ok (q, en', [[2; 3; 4]; [4; 5]; [5; 6]; [4; 6]])
  /\ nw_alternate half_even 4 wsample nwn0 nwn0
     = Ok ([Ret [2; 3; 4]; Ret [4; 5]; Ret [4; 6]; Raise EStopIteration], [Ret [2; 3; 4]; Ret [4; 5]; Ret [4; 6]; Raise EStopIteration]).
Proof. do 2 eexists. split; [vm_compute; reflexivity|]. split; vm_compute; reflexivity. Qed.
