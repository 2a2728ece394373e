(** GreedySamples: three vertices joined to three others, and a triangle (C112). *)
From Verif Require Import Base MUtils MGraph MHeur MApi Spec SpecDec SpecNW SpecFirst SpecGreedy EnumApi SpaceSamples.
From Coq Require Import Sorting.Sorted.
Local Open Scope nat_scope.

Definition greedy_rows : list (nat * nat) := [(1,4);(1,5);(1,6);(2,4);(2,5);(2,6);(3,4);(3,5);(3,6);(7,8);(8,9);(7,9)].

Lemma greedy_ok : rows_ok 9 greedy_rows.
Proof.
  assert (F : Forall (fun x => 1 <= fst x <= 9 /\ 1 <= snd x <= 9) greedy_rows) by (unfold greedy_rows; repeat constructor; cbn; lia).
  intros u v I. rewrite Forall_forall in F. exact (F (u, v) I).
Qed.

(** The later neighbours, where their degrees already decrease. *)
Lemma after_by_degree rows n v : rows_ok n rows ->
  StronglySorted (fun x y => length (nb_of rows n y) <= length (nb_of rows n x)) (after rows n v) -> by_degree (adj_rows rows) v (after rows n v).
Proof.
  intros OK ST. split; [apply NoDup_filter, NoDup_filter, seq_NoDup|]. split.
  - intros u. unfold after. rewrite filter_In, (nb_adj rows n v u OK), orb_true_iff, andb_true_iff, !Nat.ltb_lt, Nat.eqb_eq. split; intros [A B]; (split; [auto|]).
    + intros du dv Du Dv. rewrite (degree_fun _ _ _ _ Du (nb_degree rows n u OK)), (degree_fun _ _ _ _ Dv (nb_degree rows n v OK)). lia.
    + specialize (B _ _ (nb_degree rows n u OK) (nb_degree rows n v OK)). lia.
  - induction ST as [|x l ST IH F]; constructor; auto. eapply Forall_impl; [|exact F]. intros y L dx dy DX DY.
    rewrite (degree_fun _ _ _ _ DX (nb_degree rows n x OK)), (degree_fun _ _ _ _ DY (nb_degree rows n y OK)). exact L.
Qed.

Lemma triangle_by_degree : by_degree (adj_rows greedy_rows) 7 [8; 9].
Proof.
  change [8; 9] with (after greedy_rows 9 7). apply after_by_degree; [exact greedy_ok|].
  change (after greedy_rows 9 7) with [8; 9]. repeat constructor; cbn; lia.
Qed.

Lemma triangle_greedily : greedily (adj_rows greedy_rows) [7] [8; 9] [9; 8; 7].
Proof.
  assert (A : forall u x, In u (nb_of greedy_rows 9 x) -> adj_rows greedy_rows u x).
  { intros u x I. apply (nb_adj greedy_rows 9 x u greedy_ok) in I. destruct I as [N I]. split; [auto|tauto]. }
  apply greedily_take; [intros x [<-|[]]; apply A; cbn; auto|]. apply greedily_take; [|constructor].
  intros x [<-|[<-|[]]]; apply A; cbn; auto.
Qed.

Lemma greedy_missed : exists rows n p e c v l d, sorts e /\ untimed e /\ from_edgelist rows n = Ok (Ret p) /\ storage_live p
  /\ answer (get_max_clique e p 1 DEFAULT_UB true false false) = Ok (Ret c)
  /\ by_degree (adj_rows rows) v l /\ greedily (adj_rows rows) [v] l d /\ length c < length d.
Proof.
  exists greedy_rows, 9. eexists. exists (run_env None). eexists. exists 7, [8; 9], [9; 8; 7]. split; [apply run_env_sorts|]. split; [reflexivity|].
  split; [vm_compute; reflexivity|]. split; [eexists; split; [reflexivity|vm_compute; reflexivity]|].
  split; [vm_compute; reflexivity|]. split; [exact triangle_by_degree|]. split; [exact triangle_greedily|]. cbn. lia.
Qed.
