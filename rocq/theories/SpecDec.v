(** SpecDec: deciding [clique] for concrete edge lists, used in witnesses and examples. *)
From Verif Require Import Base MGraph MHeur MEnum MApi Spec.
From Coq Require Import Sorting.Sorted.
Local Open Scope nat_scope.

Fixpoint sortedb (c : list nat) : bool :=
  match c with
  | [] => true
  | x :: r => forallb (Nat.ltb x) r && sortedb r
  end.

Definition pair_in (rows : list (nat * nat)) (u v : nat) : bool :=
  existsb (fun p => ((fst p =? u) && (snd p =? v)) || ((fst p =? v) && (snd p =? u))) rows.

Definition cliqueb (n : nat) (rows : list (nat * nat)) (c : list nat) : bool :=
  sortedb c && forallb (fun v => (1 <=? v) && (v <=? n)) c
  && forallb (fun u => forallb (fun v => (u =? v) || pair_in rows u v) c) c.

Lemma sortedb_sound c : sortedb c = true -> StronglySorted lt c.
Proof.
  induction c as [|x c IH]; simpl; intros H; constructor; apply andb_prop in H; destruct H as [H1 H2]; auto.
  rewrite forallb_forall in H1. apply Forall_forall. intros y I. apply Nat.ltb_lt. auto.
Qed.

Lemma pair_in_sound rows u v : pair_in rows u v = true -> In (u, v) rows \/ In (v, u) rows.
Proof.
  unfold pair_in. rewrite existsb_exists. intros ([x y] & I & H). cbn [fst snd] in H. apply orb_prop in H.
  destruct H as [H|H]; apply andb_prop in H; destruct H as [H1 H2]; apply Nat.eqb_eq in H1, H2; subst; auto.
Qed.

Lemma cliqueb_sound n rows c : cliqueb n rows c = true -> clique n (adj_rows rows) c.
Proof.
  unfold cliqueb. intros H. apply andb_prop in H. destruct H as [H H3]. apply andb_prop in H. destruct H as [H1 H2].
  split; [apply sortedb_sound; auto|]. split.
  - intros v I. rewrite forallb_forall in H2. specialize (H2 v I). apply andb_prop in H2. destruct H2 as [A B].
    apply Nat.leb_le in A, B. lia.
  - intros u v Iu Iv N. rewrite forallb_forall in H3. specialize (H3 u Iu). rewrite forallb_forall in H3. specialize (H3 v Iv).
    destruct (Nat.eqb_spec u v); [congruence|]. simpl in H3. split; auto. apply pair_in_sound. auto.
Qed.

(** A longer clique exists. *)
Lemma not_maximum n rows c d : cliqueb n rows d = true -> length c < length d -> ~ maximum_clique n (adj_rows rows) c.
Proof. intros H L (_ & M). specialize (M d (cliqueb_sound _ _ _ H)). lia. Qed.

(** Two iterators over the same graph, advanced alternately [k] times each. *)
Definition alternate (k : nat) (p : pygraph) : outcome (pygraph * enum * enum * list (exc (list nat)) * list (exc (list nat))) :=
  foldM (fun _ '(p, a, b, la, lb) =>
           '(p, a, x) <- next_clique true p a;; '(p, b, y) <- next_clique true p b;; Ok (p, a, b, la ++ [x], lb ++ [y]))
        (repeat tt k) (p, new_enum 2, new_enum 2, [], []).

(** A sorting function and an environment for witnesses and examples. *)
Fixpoint dinsert (x : vdata) (l : list vdata) : list vdata :=
  match l with
  | [] => [x]
  | y :: r => if d_N y <=? d_N x then x :: l else y :: dinsert x r
  end.

Definition dsort (l : list vdata) : list vdata := fold_right dinsert [] l.

Definition run_env (clk : option (nat -> bool)) : env := mkEnv true dsort clk.

Lemma dinsert_perm x l : Permutation (dinsert x l) (x :: l).
Proof.
  induction l as [|y l IH]; simpl; auto. destruct (d_N y <=? d_N x); auto.
  eapply perm_trans; [apply perm_skip, IH|apply perm_swap].
Qed.

Lemma dsort_perm l : Permutation (dsort l) l.
Proof. induction l as [|x l IH]; simpl; auto. eapply perm_trans; [apply dinsert_perm|]. auto. Qed.

Lemma dinsert_sorted x l : StronglySorted (fun x y => d_N y <= d_N x) l -> StronglySorted (fun x y => d_N y <= d_N x) (dinsert x l).
Proof.
  induction 1 as [|y l SS IH F]; simpl; [repeat constructor|]. destruct (Nat.leb_spec (d_N y) (d_N x)) as [L|L].
  - constructor; [constructor; auto|]. constructor; auto. eapply Forall_impl; [|exact F]. simpl. intros; lia.
  - constructor; auto. rewrite Forall_forall in *. intros z I. apply (Permutation_in _ (dinsert_perm x l)) in I.
    destruct I as [<-|I]; auto. lia.
Qed.

Lemma run_env_sorts clk : sorts (run_env clk).
Proof.
  split; [intros l; apply dsort_perm|]. intros l. induction l as [|x l IH]; [constructor|]. apply dinsert_sorted, IH.
Qed.

Lemma run_steady k : steady (run_env (Some (fun t => k <=? t))).
Proof. intros i j L. simpl. rewrite !Nat.leb_le. lia. Qed.
