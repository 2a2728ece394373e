(** CardFacts: cardinalities of sets of positions below n. *)
From Verif Require Import Base BaseFacts SpecBits SetFacts.
From Coq Require Import Sorting.Sorted.
Local Open Scope nat_scope.
Local Arguments Nat.sub : simpl never.

Definition card (n : nat) (P : nat -> bool) : nat := length (members n P).

Lemma card_S n P : card (S n) P = card n P + (if P n then 1 else 0).
Proof. unfold card, members. rewrite seq_S, filter_app, app_length. cbn [Nat.add filter]. destruct (P n); auto. Qed.

Lemma card_0 P : card 0 P = 0. Proof. reflexivity. Qed.

Lemma card_ext n P Q : (forall i, i < n -> P i = Q i) -> card n P = card n Q.
Proof. intros H. unfold card. rewrite (sel_ext n P Q); auto. Qed.

Lemma card_le n P Q : (forall i, i < n -> P i = true -> Q i = true) -> card n P <= card n Q.
Proof.
  induction n as [|n IH]; intros H; auto. rewrite !card_S. specialize (IH ltac:(intros; apply H; auto)).
  specialize (H n ltac:(lia)). destruct (P n), (Q n); try lia; specialize (H eq_refl); discriminate.
Qed.

Lemma card_bound n P : card n P <= n.
Proof. induction n as [|n IH]; auto. rewrite card_S. destruct (P n); lia. Qed.

Lemma card_or n P Q : card n (fun i => P i || Q i) <= card n P + card n Q.
Proof. induction n as [|n IH]; auto. rewrite !card_S. destruct (P n), (Q n); cbn [orb]; lia. Qed.

Lemma card_single n j : card n (fun i => i =? j) = if j <? n then 1 else 0.
Proof.
  induction n as [|n IH]; auto. rewrite card_S, IH.
  destruct (Nat.eqb_spec n j), (Nat.ltb_spec j n), (Nat.ltb_spec j (S n)); lia.
Qed.

Lemma card_add n P j : j < n -> P j = false -> card n (fun i => (i =? j) || P i) = S (card n P).
Proof.
  revert j. induction n as [|n IH]; intros j Hj HP; [lia|]. rewrite !card_S.
  destruct (Nat.eqb_spec n j) as [->|N].
  - rewrite HP. cbn [orb]. rewrite (card_ext j _ P); [lia|]. intros i Hi. destruct (Nat.eqb_spec i j); [lia|auto].
  - cbn [orb]. rewrite IH by (auto; lia). lia.
Qed.

Lemma card_remove n P j : j < n -> P j = true -> S (card n (fun i => negb (i =? j) && P i)) = card n P.
Proof.
  revert j. induction n as [|n IH]; intros j Hj HP; [lia|]. rewrite !card_S.
  destruct (Nat.eqb_spec n j) as [->|N].
  - rewrite HP. cbn [negb andb]. rewrite (card_ext j _ P); [lia|]. intros i Hi. destruct (Nat.eqb_spec i j); [lia|auto].
  - cbn [negb andb]. rewrite <- (IH j) by (auto; lia). lia.
Qed.

Lemma card_split n P Q : card n P = card n (fun i => P i && Q i) + card n (fun i => P i && negb (Q i)).
Proof. induction n as [|n IH]; auto. rewrite !card_S, IH. destruct (P n), (Q n); cbn [andb negb]; lia. Qed.

Lemma card_zero n P : card n P = 0 <-> forall i, i < n -> P i = false.
Proof.
  induction n as [|n IH].
  - split; auto. intros _ i Hi. lia.
  - rewrite card_S. split.
    + intros H i Hi. destruct (P n) eqn:E; [lia|]. destruct (Nat.eq_dec i n) as [->|]; auto. apply IH; lia.
    + intros H. rewrite (proj2 IH) by (intros; apply H; lia). rewrite H by lia. auto.
Qed.

Lemma card_pos n P : 0 < card n P <-> exists i, i < n /\ P i = true.
Proof.
  split.
  - intros H. unfold card in H. destruct (members n P) as [|x r] eqn:E; [simpl in H; lia|].
    assert (I : In x (members n P)) by (rewrite E; left; auto). apply sel_in in I. eauto.
  - intros (i & Hi & Pi). destruct (card n P) eqn:E; [|lia]. rewrite card_zero in E. rewrite E in Pi by auto. discriminate.
Qed.

Lemma card_filter n P Q : length (filter Q (members n P)) = card n (fun i => P i && Q i).
Proof.
  unfold card, members. induction (seq 0 n) as [|x l IH]; auto. simpl. destruct (P x); simpl; auto.
  destruct (Q x); simpl; auto.
Qed.

Lemma card_false n : card n (fun _ => false) = 0.
Proof. apply card_zero. auto. Qed.

Lemma card_prefix n m P : n <= m -> (forall i, n <= i < m -> P i = false) -> card m P = card n P.
Proof.
  intros H HP. induction H as [|m H IH]; auto. rewrite card_S, IH by (intros; apply HP; lia). rewrite HP by lia. lia.
Qed.

Lemma card_mono n m P : n <= m -> card n P <= card m P.
Proof. induction 1 as [|m H IH]; auto. rewrite card_S. lia. Qed.

Lemma members_prefix n m P : n <= m -> (forall i, n <= i < m -> P i = false) -> members m P = members n P.
Proof.
  intros H HP. unfold members. replace m with (n + (m - n)) by lia. rewrite seq_app, filter_app.
  replace (filter P (seq (0 + n) (m - n))) with (@nil nat); [apply app_nil_r|].
  symmetry. destruct (filter P (seq (0 + n) (m - n))) as [|x r] eqn:E; auto. exfalso.
  assert (I : In x (filter P (seq (0 + n) (m - n)))) by (rewrite E; left; auto).
  apply filter_In in I. destruct I as [I1 I2]. apply in_seq in I1. rewrite HP in I2 by lia. discriminate.
Qed.

Lemma members_S n P : members (S n) P = members n P ++ (if P n then [n] else []).
Proof. unfold members. rewrite seq_S, filter_app. cbn [Nat.add filter]. destruct (P n); auto. Qed.

(** The cardinality of the set of elements of a duplicate-free list. *)
Definition inb (x : nat) (l : list nat) : bool := existsb (Nat.eqb x) l.

Lemma inb_in x l : inb x l = true <-> In x l.
Proof.
  unfold inb. rewrite existsb_exists. split.
  - intros (y & I & E). apply Nat.eqb_eq in E. congruence.
  - intros I. exists x. split; auto. apply Nat.eqb_refl.
Qed.

Lemma inb_not x l : inb x l = false <-> ~ In x l.
Proof. rewrite <- inb_in. destruct (inb x l); split; congruence. Qed.

Lemma card_list n l : NoDup l -> (forall x, In x l -> x < n) -> card n (fun x => inb x l) = length l.
Proof.
  induction 1 as [|x l N1 N2 IH]; intros H; simpl.
  - apply card_false.
  - change (card n (fun i => (i =? x) || inb i l) = S (length l)).
    rewrite card_add; [f_equal; apply IH; intros; apply H; right; auto|apply H; left; auto|]. apply inb_not. auto.
Qed.
