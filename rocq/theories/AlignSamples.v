(** AlignSamples: two triangles, used in P_Align. *)
From Verif Require Import Base BaseFacts MBits MUtils MGraph MHeur MStack MRec MEnum MApi MExt MGen MCorr MAlign MKabsch MAlignGraph Spec SpecDec SpecGen SpecCorr SpecAlign Samples ExtSamples GenSamples KabschSamples.
From Coq Require Import QArith Qcanon.
Local Open Scope nat_scope.

Definition whole (l : list (Z * Z)) : list (vec qc) := map (fun v => (int (fst v), int (snd v))) l.
Definition corners_q : list (vec qc) := whole [(0, 0); (2, 0); (2, 2)]%Z.
Definition moved_q : list (vec qc) := whole [(5, 1); (5, 3); (3, 3)]%Z.

Definition tri : pygraph :=
  match align_build qc this pd_sort new_pygraph moved_q corners_q (sqd moved_corners) (sqd corners) 1 [(1, 1)%Q] (canvas 8 8) (1 # 2) with
  | Ok (Ret q) => q
  | _ => new_pygraph
  end.

Lemma tri_eq :
  align_build qc this pd_sort new_pygraph moved_q corners_q (sqd moved_corners) (sqd corners) 1 [(1, 1)%Q] (canvas 8 8) (1 # 2) = Ok (Ret tri).
Proof. vm_compute. reflexivity. Qed.

(** The rotation by a right angle that sends one to the other *)
Definition quarter : similarity := mkSim 0 1 5 1.

Lemma tri_aligned : well_aligned (row qc this moved_q) (row qc this corners_q) [(1, 1)%Q] (canvas 8 8) (1 # 2) [0; 1; 2] [0; 1; 2].
Proof.
  intros k l K L N. cbn [length] in K, L.
  assert (D : (k = 0 /\ l = 1) \/ (k = 0 /\ l = 2) \/ (k = 1 /\ l = 2)).
  { destruct k as [|[|[|k]]]; [| | |lia]; (destruct l as [|[|[|l]]]; [| | |lia]); cbn in N; lia. }
  destruct D as [(-> & ->)|[(-> & ->)|(-> & ->)]]; (split; [intros (A & B); vm_compute in A; vm_compute in B; discriminate|]);
    exists quarter; (split; [repeat split; reflexivity|]); (split; [intros s [<-|[]]; repeat split; vm_compute; congruence|vm_compute; congruence]).
Qed.

Lemma pair_aligned : well_aligned (row qc this moved_q) (row qc this corners_q) [(1, 1)%Q] (canvas 8 8) (1 # 2) [1; 2] [1; 2].
Proof.
  intros k l K L N. cbn [length] in K, L.
  assert (D : k = 0 /\ l = 1) by (destruct k as [|[|k]]; [| |lia]; (destruct l as [|[|l]]; [| |lia]); cbn in N; lia).
  destruct D as (-> & ->). apply (tri_aligned 1 2); cbn; lia.
Qed.

Definition tri_out (k : nat) : pygraph * enum * list (list (vec qc) * list (vec qc) * option (qc * mat qc * vec qc)) :=
  match align_drain qc 50 (fun _ => None) svd_good moved_q corners_q true tri (new_enum k) with Ok (p, en, Ret l) => (p, en, l) | _ => (tri, new_enum k, []) end.

Lemma tri_pairs : exists p en l, corr_drain 50 true 3 tri (new_enum 2) = Ok (p, en, Ret l) /\ length l = 11 /\ In ([1; 2], [1; 2]) l.
Proof.
  set (r := match corr_drain 50 true 3 tri (new_enum 2) with Ok (p, en, Ret l) => (p, en, l) | _ => (tri, new_enum 2, []) end).
  exists (fst (fst r)), (snd (fst r)), (snd r). split; [vm_compute; reflexivity|]. split; [vm_compute; reflexivity|].
  vm_compute. do 10 right. left. reflexivity.
Qed.

Lemma tri_missing : exists (S1 S2 : list (vec qc)) d1 d2 eps srt ctl m pct q arccos svd en p p' en' A B d,
  sorts_dists srt /\ (forall k l, d1 k l = d1 l k) /\ (forall k l, d2 k l = d2 l k)
  /\ align_build qc this srt new_pygraph S1 S2 d1 d2 eps ctl m pct = Ok (Ret q) /\ edges_fit q /\ storage_live q
  /\ matching 3 3 [0; 1; 2] [0; 1; 2] /\ close_matches d1 d2 eps [0; 1; 2] [0; 1; 2]
  /\ well_aligned (row qc this S1) (row qc this S2) ctl m pct [0; 1; 2] [0; 1; 2]
  /\ align_get qc arccos svd (run_env None) q S1 S2 1 DEFAULT_UB true true false true = Ok (p, Ret (inl ([0; 1; 2], [0; 1; 2])))
  /\ all_correspondences q 3 3 3 = Ret en
  /\ align_drain qc 50 arccos svd S1 S2 true q en = Ok (p', en', Ret [(A, B, d)])
  /\ elements_at S1 [0; 1; 2] A /\ elements_at S2 [2; 1; 0] B /\ ~ elements_at S2 [0; 1; 2] B.
Proof.
  exists moved_q, corners_q, (sqd moved_corners), (sqd corners), 1%Z, pd_sort, [(1, 1)%Q], (canvas 8 8), (1 # 2), tri, (fun _ => None), svd_good, (new_enum 3).
  exists (match align_get qc (fun _ => None) svd_good (run_env None) tri moved_q corners_q 1 DEFAULT_UB true true false true with Ok (p, _) => p | _ => tri end).
  exists (fst (fst (tri_out 3))), (snd (fst (tri_out 3))), moved_q, (whole [(2, 2); (2, 0); (0, 0)]%Z),
    (match snd (tri_out 3) with (_, _, d) :: _ => d | [] => None end).
  split; [apply pd_sort_sorts|]. split; [intros; apply sqd_sym|]. split; [intros; apply sqd_sym|]. split; [exact tri_eq|]. split; [vm_compute; reflexivity|].
  split; [apply liveb_sound; vm_compute; reflexivity|].
  split; [split; [reflexivity|]; split; [repeat constructor; cbn; lia|]; split; [repeat constructor; cbn; lia|]; split; intros i; cbn; lia|].
  split. { intros k l K L N. cbn [length] in K, L.
    do 3 (destruct k as [|k]; [do 3 (destruct l as [|l]; [first [congruence|vm_compute; reflexivity]|]); lia|]). lia. }
  split; [exact tri_aligned|]. split; [vm_compute; reflexivity|]. split; [vm_compute; reflexivity|]. split; [vm_compute; reflexivity|].
  split; [repeat constructor; reflexivity|]. split; [repeat constructor; reflexivity|].
  intros H. inversion H as [|? ? ? ? X ?]; subst. vm_compute in X. discriminate.
Qed.
