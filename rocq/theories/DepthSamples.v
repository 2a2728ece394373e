(** DepthSamples: the largest clique of [sample] has four vertices, for P_Depth. *)
From Verif Require Import Base MUtils MGraph MApi Spec SpecDec SearchProps Samples ExtSamples FirstSamples.
Local Open Scope nat_scope.

Lemma sample_four d : clique 8 (adj_rows sample_rows) d -> length d <= 4.
Proof.
  intros C. assert (P : permutes (run_env None)) by apply run_env_sorts. assert (U : untimed (run_env None)) by reflexivity.
  assert (L : (Z.of_nat 8 <= 65535)%Z) by lia.
  assert (E : answer (get_max_clique (run_env None) sample 1 DEFAULT_UB true true false) = Ok (Ret [1; 2; 3; 4])) by (vm_compute; reflexivity).
  pose proof (default_max sample 8 (adj_rows sample_rows) (run_env None) true false sample_made sample_edge sample_live P U L) as H.
  destruct (get_max_clique (run_env None) sample 1 DEFAULT_UB true true false) as [[q r]| |]; cbn [answer ends_with snd] in *; try discriminate.
  injection E as ->. destruct H as (c & EC & M). injection EC as <-. apply (proj2 M d C).
Qed.
