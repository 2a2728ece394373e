(** P_Default: NWGraph.get_max_clique without arguments (C80). *)
From Verif Require Import Base MUtils MGraph MApi MNW MNWEnum MNWApi MDefault Spec SpecDec SpecNW SpecRound NWSamples DefaultProps DefaultSamples.
Local Open Scope nat_scope.

(** There are cliques, and the call raises. *)
Theorem C80_light_refuted : exists u p n adj w e d, (0 < u)%Z /\ nmade half_even p n adj w /\ has_edge adj /\ nstorage_live p /\ sums_exact half_even w /\ nonnegative w /\ nsorts e
  /\ clique n adj d /\ 2 <= length d /\ (0 < weight w d)%Z /\ answer (nw_get_default half_even u e p) = Ok (Raise EBounds).
Proof.
  exists 8%Z, light, 6, (adj_rows wrows), light_w, nw_env, [1; 2; 3; 4]. split; [lia|]. split; [exact light_made|]. split; [exact wsample_edge|]. split; [exact light_live|].
  split; [exact light_exact|]. split; [exact light_nonneg|]. split; [exact nw_env_sorts|]. split; [apply cliqueb_sound; vm_compute; reflexivity|].
  split; [simpl; lia|]. split; vm_compute; reflexivity.
Qed.
Print Assumptions C80_light_refuted.

(** The answer is not the heaviest clique. *)
Theorem C80_heavy_refuted : exists u p n adj w e c d, (0 < u)%Z /\ nmade half_even p n adj w /\ has_edge adj /\ nstorage_live p /\ sums_exact half_even w /\ nonnegative w /\ nsorts e
  /\ clique n adj d /\ 2 <= length d /\ answer (nw_get_default half_even u e p) = Ok (Ret c) /\ (weight w c < weight w d)%Z.
Proof.
  exists 1%Z, heavy, 6, (adj_rows heavy_rows), heavy_w, nw_env, [1; 2], [5; 6]. split; [lia|]. split; [exact heavy_made|]. split; [exact heavy_edge|]. split; [exact heavy_live|].
  split; [exact heavy_exact|]. split; [exact heavy_nonneg|]. split; [exact nw_env_sorts|]. split; [apply cliqueb_sound; vm_compute; reflexivity|].
  split; [simpl; lia|]. split; vm_compute; reflexivity.
Qed.
Print Assumptions C80_heavy_refuted.

(** Any weights, after any calls: if every clique weighs less than 1 the call raises. *)
Theorem C80_light : forall rnd u p n adj w, (0 < u)%Z -> nmade rnd p n adj w -> has_edge adj -> nstorage_live p -> sums_exact rnd w ->
  forall q e, nhistory rnd p q -> npermutes e -> (forall d, clique n adj d -> (weight w d < NW_LB u)%Z) ->
  ends_with (nw_get_default rnd u e q) (fun '(_, r) => r = Raise EBounds).
Proof. exact default_light. Qed.
Print Assumptions C80_light.

Example C80_light_example : nmade half_even light 6 (adj_rows wrows) light_w /\ has_edge (adj_rows wrows) /\ nstorage_live light
  /\ sums_exact half_even light_w /\ (forall d, clique 6 (adj_rows wrows) d -> (weight light_w d < NW_LB 8)%Z)
  /\ exists q r, nw_get_max_clique half_even nw_env light 0 100 true true = Ok (q, r) /\ nhistory half_even light q /\ r = Ret [1; 2; 3; 4]
  /\ answer (nw_get_default half_even 8 nw_env q) = Ok (Raise EBounds).
Proof.
  split; [exact light_made|]. split; [exact wsample_edge|]. split; [exact light_live|]. split; [exact light_exact|]. split; [exact light_all|].
  destruct (nw_get_max_clique half_even nw_env light 0 100 true true) as [[q r]| |] eqn:E; try (vm_compute in E; discriminate).
  exists q, r. split; [reflexivity|]. split; [eapply nh_get; [apply nh_start|exact nw_env_permutes|exact E]|].
  vm_compute in E. injection E as <- <-. split; vm_compute; reflexivity.
Qed.

(** Any weights, after any calls: what is returned is a clique that weighs at least 1. *)
Theorem C80_clique : forall rnd u p n adj w, (0 < u)%Z -> nmade rnd p n adj w -> has_edge adj -> nstorage_live p -> sums_exact rnd w ->
  forall q e, nhistory rnd p q -> npermutes e ->
  ends_with (nw_get_default rnd u e q) (fun '(_, r) => match r with
     | Ret c => clique n adj c /\ (NW_LB u <= weight w c)%Z
     | Raise x => x = EBounds
     end).
Proof. exact default_clique. Qed.
Print Assumptions C80_clique.

(** Fresh or reset: no clique of two or more vertices is heavier than the answer, unless the answer weighs at least 65535; if the
    call raises none weighs more than 1. *)
Theorem C80_heaviest_partial : forall rnd u p n adj w, (0 < u)%Z -> nmade rnd p n adj w -> has_edge adj -> nstorage_live p -> sums_exact rnd w -> nonnegative w ->
  forall q e, nrested rnd n adj w p q -> npermutes e ->
  ends_with (nw_get_default rnd u e q) (fun '(_, r) => match r with
     | Ret c => all_within n adj w (weight w c) \/ (NW_UB u <= weight w c)%Z
     | Raise x => x = EBounds /\ all_within n adj w (NW_LB u)
     end).
Proof. exact default_heaviest. Qed.
Print Assumptions C80_heaviest_partial.

Example C80_example : nmade half_even heavy 6 (adj_rows heavy_rows) heavy_w /\ has_edge (adj_rows heavy_rows) /\ nstorage_live heavy
  /\ sums_exact half_even heavy_w /\ nonnegative heavy_w /\ npermutes nw_env /\ nrested half_even 6 (adj_rows heavy_rows) heavy_w heavy heavy
  /\ nhistory half_even heavy heavy /\ answer (nw_get_default half_even 1 nw_env heavy) = Ok (Ret [1; 2]).
Proof.
  split; [exact heavy_made|]. split; [exact heavy_edge|]. split; [exact heavy_live|]. split; [exact heavy_exact|]. split; [exact heavy_nonneg|].
  split; [exact nw_env_permutes|]. split; [left; reflexivity|]. split; [apply nh_start|]. vm_compute. reflexivity.
Qed.
