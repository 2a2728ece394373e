(** CopySamples: witnesses for C105. *)
From Verif Require Import Base MUtils MGraph MHeur MStack MApi MExt MNW MNWApi Spec SpecNW SpecKeep SpecScript SpecCopy SpecDec Samples NWSamples SpecRound NWRoundFacts CopyFacts ExtSamples.
Local Open Scope nat_scope.

Lemma copy_example : made sample 8 (adj_rows sample_rows) /\ fits (1 + 2 * (8 * 8))
  /\ exists q M p', get_max_clique (run_env None) sample 1 DEFAULT_UB true true false = Ok (q, Ret [1; 2; 3; 4]) /\ calls sample q
  /\ to_matrix q = Ok (Ret M) /\ from_matrix 8 8 (cell M) = Ok (Ret p') /\ storage_live sample /\ storage_live p'
  /\ get_max_clique (run_env None) p' 1 DEFAULT_UB true true false = Ok (q, Ret [1; 2; 3; 4]).
Proof.
  split; [exact sample_made|]. split; [vm_compute; reflexivity|]. do 3 eexists.
  assert (get_max_clique (run_env None) sample 1 DEFAULT_UB true true false = Ok (fst (match get_max_clique (run_env None) sample 1 DEFAULT_UB true true false with Ok x => x | _ => (sample, Ret []) end), Ret [1; 2; 3; 4])) as E
    by (vm_compute; reflexivity).
  split; [exact E|]. split; [eapply c_get; [apply c_start|exact E]|].
  split; [vm_compute; reflexivity|]. split; [vm_compute; reflexivity|]. split; [exact sample_live|].
  split; [apply liveb_sound; vm_compute; reflexivity|]. vm_compute; reflexivity.
Qed.

Lemma nw_copy_example : nmade half_even wsample 6 (adj_rows wrows) wwts /\ fits (1 + 2 * (6 * 6))
  /\ exists rows p', nw_to_edgelist wsample = Ok (Ret (map Some rows)) /\ nw_from_edgelist half_even rows 6 wwts = Ok (Ret p') /\ nstorage_live p'.
Proof.
  split; [exact wsample_made|]. split; [vm_compute; reflexivity|]. exists [(1, 2); (1, 3); (1, 4); (2, 3); (2, 4); (3, 4); (4, 5); (4, 6); (5, 6)]. eexists.
  split; [vm_compute; reflexivity|]. split; [vm_compute; reflexivity|]. apply liveb_sound; vm_compute; reflexivity.
Qed.
