(** P_Iter: iterators of correspondence graphs that are built again (C77). *)
From Verif Require Import Base MUtils MGraph MEnum MApi MExt MIter Spec SpecKeep SpecState SpecIter IterFacts IterSamples.
Local Open Scope nat_scope.

(** An iterator that has yielded a clique of two or more vertices is undefined once the graph has been built again, unless there are fewer vertices. *)
Theorem C77_undefined : forall lr w it w1 it1 c, world_ok w -> 2 <= e_size (i_en it) -> iter_next lr w it = Ok (w1, it1, Ret c) ->
  forall lr' w2, later w1 w2 -> w_gen w1 < w_gen w2 -> p_nvert (w_p w1) <= p_nvert (w_p w2) -> iter_next lr' w2 it1 = UB Dangling.
Proof. exact stale_undefined. Qed.
Print Assumptions C77_undefined.

(** It uses freed storage, or it stops. *)
Theorem C77_exact : forall lr w it w1 it1 c, world_ok w -> 2 <= e_size (i_en it) -> iter_next lr w it = Ok (w1, it1, Ret c) ->
  forall lr' w2, later w1 w2 -> w_gen w1 < w_gen w2 ->
  if e_cur (i_en it1) <=? p_nvert (w_p w2) then iter_next lr' w2 it1 = UB Dangling
  else iter_next lr' w2 it1 = Ok (w2, it1, Raise EStopIteration).
Proof. exact stale. Qed.
Print Assumptions C77_exact.

(** What holds: an iterator that was not used before lists the cliques of the new graph. *)
Theorem C77_unused_partial : forall w w2 k, world_ok w -> later w w2 -> forall fuel lr q en l,
  drain fuel lr (w_p w2) (new_enum k) = Ok (q, en, l) -> iter_drain fuel lr w2 (new_iter w k) = Ok (mkWorld q (w_gen w2), mkIter en (w_gen w2), l).
Proof. exact unused_iterator. Qed.
Print Assumptions C77_unused_partial.

(** What holds: an iterator that has ended stays so while the graph does not grow. *)
Theorem C77_ended_partial : forall lr w it w1 it1, world_ok w -> iter_next lr w it = Ok (w1, it1, Raise EStopIteration) ->
  forall lr' w2, later w1 w2 -> p_nvert (w_p w2) <= p_nvert (w_p w1) ->
  exists it2, iter_next lr' w2 it1 = Ok (w2, it2, Raise EStopIteration).
Proof. exact finished_stays. Qed.
Print Assumptions C77_ended_partial.

(** One step, building again, another step. *)
Theorem C77_stale_refuted : exists w k w1 it1 c b w2, world_ok w /\ iter_next true w (new_iter w k) = Ok (w1, it1, Ret c)
  /\ builder b /\ build_again b w1 = Ok (Ret w2) /\ iter_next true w2 it1 = UB Dangling.
Proof.
  exists world1, 2, (fst step1), (snd step1), [2; 4], (all_pairs 3 4), world2. split; [exact world1_ok|]. split; [exact step1_eq|].
  split; [apply b_condition|]. split; [vm_compute; reflexivity|]. vm_compute. reflexivity.
Qed.
Print Assumptions C77_stale_refuted.

(** An iterator that has ended yields again, some of the cliques of the new graph. *)
Theorem C77_ended_refuted : exists w k w1 it1 l b w2 w3 it3 l', world_ok w /\ iter_drain 5 true w (new_iter w k) = Ok (w1, it1, l)
  /\ builder b /\ build_again b w1 = Ok (Ret w2) /\ iter_drain 4 true w2 it1 = Ok (w3, it3, l') /\ l' <> [].
Proof.
  destruct world4_resumes as (w3 & it3 & D). exists world1, 2, (fst ended1), (snd ended1). eexists. exists (all_pairs 3 4), world4, w3, it3. eexists.
  split; [exact world1_ok|]. split; [exact ended1_eq|]. split; [apply b_condition|]. split; [vm_compute; reflexivity|]. split; [exact D|discriminate].
Qed.
Print Assumptions C77_ended_refuted.

Example C77_example : world_ok world1 /\ 2 <= e_size (i_en (new_iter world1 2)) /\ iter_next true world1 (new_iter world1 2) = Ok (fst step1, snd step1, Ret [2; 4])
  /\ later (fst step1) world2 /\ w_gen (fst step1) < w_gen world2 /\ p_nvert (w_p (fst step1)) <= p_nvert (w_p world2)
  /\ later (fst step1) world3 /\ w_gen (fst step1) < w_gen world3 /\ (e_cur (i_en (snd step1)) <=? p_nvert (w_p world3)) = false.
Proof.
  split; [exact world1_ok|]. split; [repeat constructor|]. split; [exact step1_eq|]. split; [exact world2_later|]. split; [vm_compute; repeat constructor|].
  split; [vm_compute; repeat constructor|]. split; [exact world3_later|]. split; [vm_compute; repeat constructor|]. vm_compute. reflexivity.
Qed.

Example C77_partial_example : world_ok (fst step1) /\ later (fst step1) world2
  /\ (exists q en l, drain 40 true (w_p world2) (new_enum 3) = Ok (q, en, l) /\ length l = 18)
  /\ (exists w it w1 it1, world_ok w /\ iter_next true w it = Ok (w1, it1, Raise EStopIteration) /\ exists w2, later w1 w2 /\ w_gen w1 < w_gen w2 /\ p_nvert (w_p w2) <= p_nvert (w_p w1)).
Proof.
  assert (W1 : world_ok (fst step1)).
  { assert (E : fst step1 = mkWorld (w_p (fst step1)) (w_gen world1)) by (vm_compute; reflexivity). rewrite E. apply wo_calls; [exact world1_ok|].
    eapply (c_next _ _ true (new_enum 2)); [apply c_start|vm_compute; reflexivity]. }
  split; [exact W1|]. split; [exact world2_later|]. split; [do 3 eexists; split; [vm_compute; reflexivity|reflexivity]|].
  exists world1, (snd ended1). do 2 eexists. split; [exact world1_ok|]. split; [vm_compute; reflexivity|].
  exists (built_world (all_pairs 2 2) world1). split; [|split; vm_compute; repeat constructor].
  apply (l_build _ (all_pairs 2 2) world1); [apply l_start|apply b_condition|vm_compute; reflexivity].
Qed.
