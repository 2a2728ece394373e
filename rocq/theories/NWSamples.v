(** NWSamples: a sorting environment and weighted graphs for the examples and witnesses of P_NW. *)
From Verif Require Import Base MUtils MGraph MApi MNW MNWEnum MNWApi Spec SpecDec SpecNW SetFacts LoadFacts SpecRound NWRoundFacts NWProps.
From Coq Require Import Sorting.Sorted Sorting.Permutation.
Local Open Scope nat_scope.

Fixpoint winsert (x : wdata) (l : list wdata) : list wdata :=
  match l with
  | [] => [x]
  | y :: r => if (wd_deg y <=? wd_deg x)%Z then x :: l else y :: winsert x r
  end.

Definition wsort (l : list wdata) : list wdata := fold_right winsert [] l.

Lemma winsert_perm x l : Permutation (winsert x l) (x :: l).
Proof.
  induction l as [|y l IH]; simpl; auto. destruct (wd_deg y <=? wd_deg x)%Z; auto.
  rewrite IH. apply perm_swap.
Qed.

Lemma winsert_sorted x l : StronglySorted (fun x y => wd_deg y <= wd_deg x)%Z l -> StronglySorted (fun x y => wd_deg y <= wd_deg x)%Z (winsert x l).
Proof.
  induction 1 as [|y l S IH F]; simpl; [repeat constructor|]. destruct (Z.leb_spec (wd_deg y) (wd_deg x)).
  - constructor; [constructor; auto|]. constructor; auto. eapply Forall_impl; [|exact F]. simpl. intros. lia.
  - constructor; auto. eapply Permutation_Forall; [apply Permutation_sym, winsert_perm|]. constructor; auto. lia.
Qed.

(** The storage for [weights] holds -7 everywhere before it is written. *)
Definition nw_env : nwenv := mkNWEnv true wsort (fun _ => (-7)%Z).

Lemma nw_env_sorts : nsorts nw_env.
Proof.
  split.
  - intros l. induction l as [|x l IH]; [constructor|]. cbn. rewrite winsert_perm. auto.
  - intros l. induction l as [|x l IH]; [constructor|]. cbn. apply winsert_sorted. exact IH.
Qed.

Lemma nw_env_permutes : npermutes nw_env.
Proof. apply nw_env_sorts. Qed.

(** Two triangles (with a common neighbourhood) and their weights. *)
Definition wrows : pairs := [(1,2);(2,3);(1,3);(3,4);(4,5);(5,6);(4,6);(2,4);(1,4)].
Definition wwts : list Z := [5; 1; 1; 1; 9; 2]%Z.
Definition wsample : pynw := match nw_from_edgelist half_even wrows 6 wwts with Ok (Ret p) => p | _ => new_pynw end.

Lemma wsample_eq : nw_from_edgelist half_even wrows 6 wwts = Ok (Ret wsample).
Proof. vm_compute. reflexivity. Qed.

Lemma wsample_made : nmade half_even wsample 6 (adj_rows wrows) wwts.
Proof. apply nmade_edgelist; [unfold fits; vm_compute; reflexivity|]. exact wsample_eq. Qed.

Lemma wsample_live : nstorage_live wsample.
Proof. eexists. split; [reflexivity|]. vm_compute. reflexivity. Qed.

Lemma wsample_edge : has_edge (adj_rows wrows).
Proof. exists 1, 2. split; [lia|]. left. left. reflexivity. Qed.

Lemma wwts_nonneg : nonnegative wwts.
Proof. intros x I. simpl in I. lia. Qed.

Lemma wwts_exact : sums_exact half_even wwts.
Proof. apply small_sums. reflexivity. Qed.

(** Six vertices of weight at most 9 weigh at most 54. *)
Lemma wwts_100 : all_within 6 (adj_rows wrows) wwts 100.
Proof.
  intros d (C1 & C2 & _) _.
  assert (V : forall v, (vweight wwts v <= 9)%Z) by (intros v; do 7 (destruct v as [|v]; [vm_compute; discriminate|]); destruct v; vm_compute; discriminate).
  assert (G : forall l, (weight wwts l <= 9 * Z.of_nat (length l))%Z).
  { induction l as [|x l IH]; cbn [weight length]; [lia|]. pose proof (V x). lia. }
  assert (L : length d <= length (seq 1 6)).
  { apply NoDup_incl_length; [apply sorted_nodup; exact C1|]. intros x I. apply C2 in I. apply in_seq. lia. }
  cbn in L. pose proof (G d). lia.
Qed.

(** Iterating all_cliques(T) on an object. *)
Definition wen (p : pynw) (T : Z) : nenum := match nw_all_cliques nw_env p T with Ret en => en | Raise _ => new_nenum [] 0 end.
Definition wout (p : pynw) (T : Z) : pynw * nenum * list (list nat) :=
  match nw_drain half_even 7 true p (wen p T) with Ok r => r | _ => (p, wen p T, []) end.
Definition wafter (p : pynw) (T : Z) : pynw := fst (fst (wout p T)).

Lemma wsample_all T : nw_all_cliques nw_env wsample T = Ret (wen wsample T).
Proof. reflexivity. Qed.

Lemma wsample_3 : nw_drain half_even 7 true wsample (wen wsample 3) = Ok (wafter wsample 3, snd (fst (wout wsample 3)), [[2; 3; 4]; [4; 5]; [5; 6]; [4; 6]]).
Proof. vm_compute. reflexivity. Qed.

Lemma wsample_8 : nw_drain half_even 7 true wsample (wen wsample 8) = Ok (wafter wsample 8, snd (fst (wout wsample 8)), [[4; 5]; [5; 6]]).
Proof. vm_compute. reflexivity. Qed.

Lemma wsample_3_8 : nw_all_cliques nw_env (wafter wsample 3) 8 = Ret (wen (wafter wsample 3) 8)
  /\ nw_drain half_even 7 true (wafter wsample 3) (wen (wafter wsample 3) 8)
     = Ok (wafter (wafter wsample 3) 8, snd (fst (wout (wafter wsample 3) 8)), [[4; 5]; [5; 6]]).
Proof. split; vm_compute; reflexivity. Qed.

(** A search, then an enumeration. *)
Definition wfound : pynw := match nw_get_max_clique half_even nw_env wsample 0 100 true true with Ok (q, _) => q | _ => wsample end.

Lemma wfound_eq : nw_get_max_clique half_even nw_env wsample 0 100 true true = Ok (wfound, Ret [4; 5; 6]).
Proof. vm_compute. reflexivity. Qed.

Lemma wfound_12 : nw_all_cliques nw_env wfound 12 = Ret (wen wfound 12)
  /\ nw_drain half_even 7 true wfound (wen wfound 12) = Ok (wafter wfound 12, snd (fst (wout wfound 12)), [[4; 5; 6]]).
Proof. split; vm_compute; reflexivity. Qed.
