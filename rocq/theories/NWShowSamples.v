(** NWShowSamples: witnesses for P_Show, graphs with weights. *)
From Verif Require Import Base MUtils MGraph MEnum MApi MNW MNWApi MShow MNWShow Spec SpecNW SpecRound SpecShow SpecDec NWSamples ShowFacts NWShowFacts.
Local Open Scope nat_scope.

Definition wprinted (p : pynw) : option (list nitem * list nat) :=
  match q_G p with Some W => match nw_disp W with Ok (_, out, err) => Some (out, err) | _ => None end | None => None end.

(** The weight printed for the clique of vertex 2 is 3; the clique is {2}, which weighs 1. *)
Lemma weight_wrong : exists rnd p n adj w W l1 l2 err v x d m row c, nmade rnd p n adj w /\ sums_exact rnd w /\ q_G p = Some W
  /\ nw_disp W = Ok (W, l1 ++ wlines v x d m row c ++ l2, err) /\ m <> weight w c.
Proof.
  destruct (nw_disp_history half_even wsample 6 (adj_rows wrows) wwts wsample wsample_made wsample_edge wsample_live (nh_start _ _)) as (W & row & deg & L & EG & ED & _).
  assert (P : exists l1 l2 err, wprinted wsample = Some (l1 ++ wlines 2 1 8 3 [1; 2; 3; 4] [2] ++ l2, err)).
  { exists (wlines 1 5 8 8 [1; 2; 3; 4] [1]).
    exists (wlines 3 1 8 2 [1; 2; 3; 4] [3] ++ wlines 5 9 12 12 [4; 5; 6] [5] ++ wlines 6 2 12 3 [4; 5; 6] [6]).
    exists [1; 2; 3; 4; 1; 2; 3; 4; 1; 2; 3; 4; 4; 5; 6; 4; 5; 6]. vm_compute. reflexivity. }
  destruct P as (l1 & l2 & err & P). unfold wprinted in P. rewrite EG, ED in P. injection P as P1 P2.
  exists half_even, wsample, 6, (adj_rows wrows), wwts, W, l1, l2, err, 2, 1%Z, 8%Z, 3%Z, [1; 2; 3; 4], [2].
  split; [exact wsample_made|]. split; [exact wwts_exact|]. split; [exact EG|]. split; [rewrite ED, P1, P2; reflexivity|]. vm_compute. discriminate.
Qed.

(** [wsample] after a search. *)
Definition wsearched : pynw := match nw_get_max_clique half_even nw_env wsample 0 100 true true with Ok (q, _) => q | _ => wsample end.

Lemma wsearched_history : nhistory half_even wsample wsearched.
Proof.
  apply (nh_get half_even wsample wsample nw_env 0%Z 100%Z true true wsearched (Ret [4; 5; 6])); [apply nh_start|apply nw_env_permutes|vm_compute; reflexivity].
Qed.
