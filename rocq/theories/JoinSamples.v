(** JoinSamples: sample graphs with all edges between them, for P_Join. *)
From Verif Require Import Base MUtils MGraph MApi MNW MNWEnum MNWApi Spec SpecDec SpecNW SpecBeside SpecJoin SetFacts LoadFacts SpecRound NWRoundFacts NWProps SearchProps Samples ExtSamples NWSamples BesideSamples.
Local Open Scope nat_scope.

Definition across (m n : nat) : list (nat * nat) := list_prod (seq 1 m) (seq (S m) n).

Lemma across_in m n u v : In (u, v) (across m n) <-> 1 <= u <= m /\ m < v <= m + n.
Proof. unfold across. rewrite in_prod_iff, !in_seq. lia. Qed.

Lemma across_joined m n rows1 rows2 : joined m n (adj_rows rows1) (adj_rows rows2) (adj_rows ((rows1 ++ moved m rows2) ++ across m n)).
Proof.
  intros u v. pose proof (moved_beside m rows1 rows2 u v) as H. unfold adj_rows at 1. rewrite (in_app_iff (rows1 ++ moved m rows2)).
  rewrite (in_app_iff (rows1 ++ moved m rows2) (across m n) (v, u)), !across_in.
  assert (K : u <> v /\ (In (u, v) (rows1 ++ moved m rows2) \/ In (v, u) (rows1 ++ moved m rows2)) <-> adj_rows rows1 u v \/ exists x y, u = m + x /\ v = m + y /\ adj_rows rows2 x y) by exact H.
  split.
  - intros (N & [[I|I]|[I|I]]); [|tauto| |tauto]; (destruct (proj1 K) as [A|A]; [split; [exact N|auto]|left; exact A|right; left; exact A]).
  - intros [A|[A|A]]; [destruct (proj2 K (or_introl A)) as [N I]|destruct (proj2 K (or_intror A)) as [N I]|]; [tauto|tauto|]. split; [lia|]. tauto.
Qed.

(** [sample] joined to itself *)
Definition join_rows : list (nat * nat) := (sample_rows ++ moved 8 sample_rows) ++ across 8 8.
Definition join : pygraph := graph_of join_rows 16.

Lemma join_made : made join (8 + 8) (adj_rows join_rows).
Proof. apply made_of; [unfold fits; vm_compute; reflexivity|vm_compute; reflexivity]. Qed.

Lemma join_live : storage_live join.
Proof. apply liveb_sound. vm_compute. reflexivity. Qed.

(** [wsample] joined to itself *)
Definition wjoin_rows : list (nat * nat) := (wrows ++ moved 6 wrows) ++ across 6 6.
Definition wjoin : pynw := match nw_from_edgelist half_even wjoin_rows 12 (wwts ++ wwts) with Ok (Ret p) => p | _ => new_pynw end.

Lemma wjoin_made : nmade half_even wjoin (6 + 6) (adj_rows wjoin_rows) (wwts ++ wwts).
Proof. apply nmade_edgelist; [unfold fits; vm_compute; reflexivity|]. vm_compute. reflexivity. Qed.

Lemma wjoin_live : nstorage_live wjoin.
Proof. apply liveb_sound. vm_compute. reflexivity. Qed.

Lemma wsample_no_lone : no_lone 6 (adj_rows wrows).
Proof.
  intros v R. assert (C : v = 1 \/ v = 2 \/ v = 3 \/ v = 4 \/ v = 5 \/ v = 6) by lia.
  destruct C as [-> |[-> |[-> |[-> |[-> | ->]]]]]; [exists 2|exists 3|exists 4|exists 5|exists 6|exists 5]; (split; [lia|cbn; tauto]).
Qed.
