(** RowFacts: the rows of a lexicographically sorted list of pairs. *)
From Verif Require Import Base BaseFacts MUtils SortFacts SetFacts.
From Coq Require Import Sorting.Sorted.
Local Open Scope nat_scope.
Local Arguments Nat.sub : simpl never.

Definition rowp (a : pairs) (i : nat) : pairs := filter (fun p => fst p =? i) a.
Definition row (a : pairs) (i : nat) : list nat := map snd (rowp a i).
Definition off (a : pairs) (i : nat) : nat := length (filter (fun p => fst p <? i) a).

Lemma sorted_split a i : sorted_lt a ->
  a = filter (fun p => fst p <? i) a ++ rowp a i ++ filter (fun p => i <? fst p) a.
Proof.
  induction 1 as [|x l S IH F]; auto. unfold rowp in *. simpl.
  rewrite Forall_forall in F.
  destruct (Nat.ltb_spec (fst x) i) as [L|L].
  - replace (fst x =? i) with false by (symmetry; apply Nat.eqb_neq; lia).
    replace (i <? fst x) with false by (symmetry; apply Nat.ltb_ge; lia). simpl. f_equal. exact IH.
  - assert (N1 : filter (fun p => fst p <? i) l = []).
    { destruct (filter (fun p => fst p <? i) l) as [|y r] eqn:E; auto. exfalso.
      assert (I : In y (filter (fun p => fst p <? i) l)) by (rewrite E; left; auto).
      apply filter_In in I. destruct I as [I1 I2]. apply Nat.ltb_lt in I2. specialize (F y I1). unfold lexlt in F. lia. }
    rewrite N1 in *. simpl in *. destruct (Nat.eqb_spec (fst x) i) as [E|E].
    + replace (i <? fst x) with false by (symmetry; apply Nat.ltb_ge; lia). simpl. f_equal. exact IH.
    + replace (i <? fst x) with true by (symmetry; apply Nat.ltb_lt; lia).
      assert (N2 : filter (fun p => fst p =? i) l = []).
      { destruct (filter (fun p => fst p =? i) l) as [|y r] eqn:E2; auto. exfalso.
        assert (I : In y (filter (fun p => fst p =? i) l)) by (rewrite E2; left; auto).
        apply filter_In in I. destruct I as [I1 I2]. apply Nat.eqb_eq in I2. specialize (F y I1). unfold lexlt in F. lia. }
      rewrite N2 in *. simpl in *. f_equal. exact IH.
Qed.

Lemma off_0 a : off a 0 = 0.
Proof. unfold off. induction a; auto. Qed.

Lemma row_length a i : length (row a i) = length (rowp a i).
Proof. apply map_length. Qed.

Lemma off_S a i : off a (S i) = off a i + length (row a i).
Proof.
  rewrite row_length. unfold off, rowp. induction a as [|x a IH]; auto. simpl.
  destruct (Nat.ltb_spec (fst x) (S i)), (Nat.ltb_spec (fst x) i), (Nat.eqb_spec (fst x) i); simpl; lia.
Qed.

Lemma off_le a i : off a i <= length a.
Proof. apply filter_len_le. Qed.

Lemma off_full a n : (forall x, In x a -> fst x < n) -> off a n = length a.
Proof.
  intros H. unfold off. f_equal. induction a as [|x a IH]; auto. simpl.
  replace (fst x <? n) with true by (symmetry; apply Nat.ltb_lt; apply H; left; auto). f_equal. apply IH.
  intros y Hy. apply H. right. auto.
Qed.

Lemma off_mono a i j : i <= j -> off a i <= off a j.
Proof. induction 1; auto. rewrite off_S. lia. Qed.

Lemma at_row a i k : sorted_lt a -> k < length (row a i) ->
  off a i + k < length a /\ at_ a (off a i + k) = (i, nth k (row a i) 0).
Proof.
  intros HS Hk. pose proof (sorted_split a i HS) as E.
  split. { pose proof (off_S a i). pose proof (off_le a (S i)). lia. }
  rewrite row_length in Hk.
  transitivity (at_ (filter (fun p => fst p <? i) a ++ rowp a i ++ filter (fun p => i <? fst p) a) (off a i + k)).
  { rewrite <- E. auto. }
  rewrite app_nth2 by (unfold off; lia).
  unfold off. replace (length (filter (fun p => fst p <? i) a) + k - length (filter (fun p => fst p <? i) a)) with k by lia.
  rewrite app_nth1 by auto.
  assert (I : In (at_ (rowp a i) k) (rowp a i)) by (apply nth_In; auto).
  apply filter_In in I. destruct I as [_ I]. apply Nat.eqb_eq in I.
  unfold row. rewrite (nth_indep _ 0 (snd (0, 0))) by (rewrite map_length; auto). rewrite map_nth.
  destruct (at_ (rowp a i) k); simpl in *. congruence.
Qed.

Lemma at_after a i : sorted_lt a -> off a i < length a -> i <= fst (at_ a (off a i)).
Proof.
  intros HS HL. pose proof (sorted_split a i HS) as E.
  destruct (Nat.lt_ge_cases (fst (at_ a (off a i))) i) as [L|L]; auto. exfalso.
  assert (E2 : at_ a (off a i) = at_ (filter (fun p => fst p <? i) a ++ rowp a i ++ filter (fun p => i <? fst p) a) (off a i))
    by (rewrite <- E; auto).
  rewrite E2 in L. rewrite app_nth2 in L by (unfold off; lia). unfold off in L. rewrite Nat.sub_diag in L. clear E2.
  set (r := rowp a i ++ filter (fun p => i <? fst p) a) in *.
  assert (Hr : 0 < length r). { apply (f_equal (@length _)) in E. rewrite app_length in E. fold r in E. unfold off in HL. lia. }
  assert (I : In (at_ r 0) r) by (apply nth_In; auto).
  apply in_app_or in I. destruct I as [I|I]; apply filter_In in I; destruct I as [_ I].
  - apply Nat.eqb_eq in I. lia.
  - apply Nat.ltb_lt in I. lia.
Qed.

Lemma row_in a i v : In v (row a i) <-> In (i, v) a.
Proof.
  unfold row, rowp. rewrite in_map_iff. split.
  - intros ([x y] & E & I). apply filter_In in I. destruct I as [I J]. apply Nat.eqb_eq in J. simpl in *. congruence.
  - intros I. exists (i, v). split; auto. apply filter_In. split; auto. simpl. apply Nat.eqb_refl.
Qed.

Lemma row_sorted a i : sorted_lt a -> StronglySorted lt (row a i).
Proof.
  intros HS. unfold row. assert (S : sorted_lt (rowp a i)) by (apply filter_sorted; auto).
  assert (E : Forall (fun p => fst p = i) (rowp a i)).
  { apply Forall_forall. intros x I. apply filter_In in I. apply Nat.eqb_eq. apply I. }
  induction S as [|x l S IH F]; simpl; constructor; inversion E; subst; auto.
  apply Forall_forall. rewrite Forall_forall in F, H2. intros v Iv. apply in_map_iff in Iv. destruct Iv as (y & <- & Iy).
  specialize (F y Iy). specialize (H2 y Iy). unfold lexlt in F. lia.
Qed.

(** Position of [x] in a sorted list. *)
Definition idx (x : nat) (l : list nat) : nat := length (filter (fun y => y <? x) l).

Lemma sorted_nth l i j : StronglySorted lt l -> i < j < length l -> nth i l 0 < nth j l 0.
Proof.
  intros HS. revert i j. induction HS as [|x l HS IH F]; intros i j H; simpl in H; [lia|].
  destruct j as [|j]; [lia|]. destruct i as [|i]; simpl.
  - rewrite Forall_forall in F. apply F. apply nth_In. lia.
  - apply IH. lia.
Qed.

Lemma sorted_nth_inj l i j : StronglySorted lt l -> i < length l -> j < length l -> nth i l 0 = nth j l 0 -> i = j.
Proof.
  intros HS Hi Hj E. destruct (Nat.lt_trichotomy i j) as [L|[L|L]]; auto.
  - pose proof (sorted_nth l i j HS ltac:(lia)). lia.
  - pose proof (sorted_nth l j i HS ltac:(lia)). lia.
Qed.

Lemma idx_spec x l : StronglySorted lt l -> In x l -> idx x l < length l /\ nth (idx x l) l 0 = x.
Proof.
  induction 1 as [|y l S IH F]; intros I; [destruct I|]. unfold idx in *. simpl. rewrite Forall_forall in F.
  destruct (Nat.ltb_spec y x) as [L|L]; simpl.
  - destruct I as [->|I]; [lia|]. destruct (IH I). split; [lia|auto].
  - destruct I as [->|I]; [|specialize (F x I); lia].
    assert (E : filter (fun y => y <? x) l = []).
    { destruct (filter (fun y => y <? x) l) as [|z r] eqn:E; auto. exfalso.
      assert (In z (filter (fun y => y <? x) l)) as J by (rewrite E; left; auto).
      apply filter_In in J. destruct J as [J1 J2]. apply Nat.ltb_lt in J2. specialize (F z J1). lia. }
    rewrite E. simpl. split; [lia|auto].
Qed.

Lemma idx_unique x l k : StronglySorted lt l -> k < length l -> nth k l 0 = x -> idx x l = k.
Proof.
  intros HS Hk E. assert (I : In x l) by (rewrite <- E; apply nth_In; auto).
  destruct (idx_spec x l HS I) as [H1 H2]. apply (sorted_nth_inj l); auto. congruence.
Qed.
