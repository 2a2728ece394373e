(** ShowSamples: witnesses for P_Show. *)
From Verif Require Import Base MUtils MGraph MEnum MApi MShow Spec SpecNW SpecOrder SpecFirst SpecShow SpecDec SearchProps Samples ExtSamples FirstSamples ShowFacts.
Local Open Scope nat_scope.

(** [sample] after a search. *)
Definition searched : pygraph := match get_max_clique (run_env None) sample 1 DEFAULT_UB true true false with Ok (q, _) => q | _ => sample end.

Lemma searched_history : history sample searched.
Proof.
  apply (h_get sample sample (run_env None) 1 DEFAULT_UB true true false searched (Ret [1; 2; 3; 4])); [apply h_start| |vm_compute; reflexivity].
  split; [apply run_env_sorts|left; apply Nat.le_refl].
Qed.

Definition printed (p : pygraph) : option (list item * list nat) :=
  match p_G p with Some g => match graph_disp g with Ok (_, out, err) => Some (out, err) | _ => None end | None => None end.

Lemma printed_start p g x : printed p = Some x -> p_G p = Some g -> exists g', graph_disp g = Ok (g', fst x, snd x).
Proof. unfold printed. intros H E. rewrite E in H. destruct (graph_disp g) as [[[g' o] e]| |]; try discriminate. injection H as <-. exists g'. reflexivity. Qed.

Lemma one_neighbours x : In x [2; 3; 4] <-> adj_rows sample_rows 1 x.
Proof.
  split.
  - intros H. split; [intros E; subst x; cbn in H; intuition discriminate|]. cbn in H. destruct H as [<- | [<- | [<- | []]]]; cbn; tauto.
  - unfold adj_rows, sample_rows. intros H. cbn in *. intuition congruence.
Qed.

(** The number printed after "Vertex 1 has" is not the number of its neighbours. *)
Lemma head_wrong : exists p n adj g out err v k nb, made p n adj /\ p_G p = Some g /\ graph_disp g = Ok (g, out, err) /\ In (Head v k) out
  /\ NoDup nb /\ (forall x, In x nb <-> adj v x) /\ k <> length nb.
Proof.
  destruct (disp_fresh sample 8 (adj_rows sample_rows) sample_made sample_edge sample_live) as (g & row & vs & EG & ED & _).
  assert (P : exists x, printed sample = Some x /\ In (Head 1 4) (fst x)).
  { eexists. split; [vm_compute; reflexivity|]. left. reflexivity. }
  destruct P as (x & P & IH). destruct (printed_start _ _ _ P EG) as (g' & E). rewrite ED in E. injection E as _ E1 E2.
  exists sample, 8, (adj_rows sample_rows), g, (fst x), (snd x), 1, 4, [2; 3; 4]. split; [exact sample_made|]. split; [exact EG|].
  split; [rewrite ED, E1, E2; reflexivity|]. split; [exact IH|]. split; [|split; [exact one_neighbours|discriminate]].
  repeat constructor; cbn; intuition discriminate.
Qed.

(** Vertex 4 has neighbours, and nothing is printed about it. *)
Lemma four_missing : exists p n adj g out err v u, made p n adj /\ p_G p = Some g /\ graph_disp g = Ok (g, out, err) /\ adj v u
  /\ forall k, ~ In (Head v k) out.
Proof.
  destruct (disp_fresh sample 8 (adj_rows sample_rows) sample_made sample_edge sample_live) as (g & row & vs & EG & ED & _).
  assert (P : exists x, printed sample = Some x /\ forall k, ~ In (Head 4 k) (fst x)).
  { eexists. split; [vm_compute; reflexivity|]. intros k H. cbn [fst In] in H. repeat (destruct H as [H|H]; [discriminate H|]). exact H. }
  destruct P as (x & P & IH). destruct (printed_start _ _ _ P EG) as (g' & E). rewrite ED in E. injection E as _ E1 E2.
  exists sample, 8, (adj_rows sample_rows), g, (fst x), (snd x), 4, 5. split; [exact sample_made|]. split; [exact EG|].
  split; [rewrite ED, E1, E2; reflexivity|]. split; [split; [discriminate|cbn; tauto]|exact IH].
Qed.
