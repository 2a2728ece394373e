(** NWSum: sums of weights over sets of positions. *)
From Verif Require Import Base SpecBits BaseFacts SetFacts CardFacts.
Local Open Scope nat_scope.

Definition zsum (l : list Z) : Z := fold_right Z.add 0%Z l.

Fixpoint wsum (n : nat) (f : nat -> Z) (P : nat -> bool) : Z :=
  match n with
  | 0 => 0%Z
  | S n => (wsum n f P + (if P n then f n else 0))%Z
  end.

Lemma wsum_S n f P : wsum (S n) f P = (wsum n f P + (if P n then f n else 0))%Z. Proof. reflexivity. Qed.

Lemma zsum_app l r : zsum (l ++ r) = (zsum l + zsum r)%Z.
Proof. induction l as [|x l IH]; simpl; auto. rewrite IH. lia. Qed.

Lemma wsum_ext n f P Q : (forall i, i < n -> P i = Q i) -> wsum n f P = wsum n f Q.
Proof. induction n as [|n IH]; intros H; auto. rewrite !wsum_S, IH, H by auto. auto. Qed.

Lemma wsum_extf n f g P : (forall i, i < n -> P i = true -> f i = g i) -> wsum n f P = wsum n g P.
Proof.
  induction n as [|n IH]; intros H; auto. rewrite !wsum_S, IH by (intros; apply H; auto).
  destruct (P n) eqn:E; auto. rewrite H by auto. auto.
Qed.

Lemma wsum_members n f P : wsum n f P = zsum (map f (members n P)).
Proof.
  induction n as [|n IH]; auto. rewrite wsum_S, members_S, map_app, zsum_app, IH.
  destruct (P n); simpl; lia.
Qed.

Lemma wsum_le n f P Q : (forall i, i < n -> (0 <= f i)%Z) -> (forall i, i < n -> P i = true -> Q i = true) ->
  (wsum n f P <= wsum n f Q)%Z.
Proof.
  induction n as [|n IH]; intros F H; [simpl; lia|]. rewrite !wsum_S.
  specialize (IH ltac:(intros; apply F; auto) ltac:(intros; apply H; auto)).
  specialize (H n ltac:(lia)). specialize (F n ltac:(lia)). destruct (P n), (Q n); try lia; specialize (H eq_refl); discriminate.
Qed.

Lemma wsum_zero n f P : (forall i, i < n -> P i = false) -> wsum n f P = 0%Z.
Proof. induction n as [|n IH]; intros H; auto. rewrite wsum_S, IH, H by auto. auto. Qed.

Lemma wsum_false n f : wsum n f (fun _ => false) = 0%Z. Proof. apply wsum_zero. auto. Qed.

Lemma wsum_nonneg n f P : (forall i, i < n -> (0 <= f i)%Z) -> (0 <= wsum n f P)%Z.
Proof. intros F. rewrite <- (wsum_false n f). apply wsum_le; auto. discriminate. Qed.

Lemma wsum_split n f P Q : wsum n f P = (wsum n f (fun i => P i && Q i) + wsum n f (fun i => P i && negb (Q i)))%Z.
Proof. induction n as [|n IH]; auto. rewrite !wsum_S, IH. destruct (P n), (Q n); cbn [andb negb]; lia. Qed.

Lemma wsum_single n f j : wsum n f (fun i => i =? j) = if j <? n then f j else 0%Z.
Proof.
  induction n as [|n IH]; auto. rewrite wsum_S, IH.
  destruct (Nat.ltb_spec j n), (Nat.ltb_spec j (S n)), (Nat.eqb_spec n j) as [E|]; try lia. subst. lia.
Qed.

Lemma wsum_or n f P Q : (forall i, i < n -> P i = true -> Q i = true -> False) ->
  wsum n f (fun i => P i || Q i) = (wsum n f P + wsum n f Q)%Z.
Proof.
  induction n as [|n IH]; intros H; auto. rewrite !wsum_S, IH by (intros; eapply H; eauto).
  specialize (H n ltac:(lia)). destruct (P n), (Q n); cbn [orb]; try lia; exfalso; auto.
Qed.

Lemma wsum_add n f P j : j < n -> P j = false -> wsum n f (fun i => (i =? j) || P i) = (f j + wsum n f P)%Z.
Proof.
  intros Hj HP. rewrite wsum_or.
  - rewrite wsum_single. destruct (Nat.ltb_spec j n); lia.
  - intros i Hi E. apply Nat.eqb_eq in E. subst. congruence.
Qed.

Lemma wsum_remove n f P j : j < n -> P j = true -> wsum n f P = (f j + wsum n f (fun i => negb (i =? j)%nat && P i))%Z.
Proof.
  intros Hj HP. rewrite <- wsum_add by (rewrite ?Nat.eqb_refl; auto). apply wsum_ext. intros i Hi.
  destruct (Nat.eqb_spec i j) as [->|]; auto.
Qed.

Lemma wsum_list n f l : NoDup l -> (forall x, In x l -> x < n) -> wsum n f (fun x => inb x l) = zsum (map f l).
Proof.
  induction 1 as [|x l N1 N2 IH]; intros H; simpl.
  - apply wsum_false.
  - change (wsum n f (fun i => (i =? x) || inb i l) = (f x + zsum (map f l))%Z).
    rewrite wsum_add, IH; auto; [intros; apply H; right; auto|apply H; left; auto|apply inb_not; auto].
Qed.

Lemma wsum_prefix n m f P : n <= m -> (forall i, n <= i < m -> P i = false) -> wsum m f P = wsum n f P.
Proof.
  intros H HP. induction H as [|m H IH]; auto. rewrite wsum_S, IH by (intros; apply HP; lia). rewrite HP by lia. lia.
Qed.

(** K is within the path R, one more position j, and S2. *)
Lemma wsum_three n f R j S2 K : (forall i, i < n -> (0 <= f i)%Z) -> NoDup R -> (forall x, In x R -> x < n) -> j < n ->
  (forall x, x < n -> K x = true -> In x R \/ x = j \/ S2 x = true) ->
  (wsum n f K <= zsum (map f R) + f j + wsum n f S2)%Z.
Proof.
  intros F ND HR Hj H. rewrite (wsum_split n f K (fun x => inb x R)), (wsum_split n f (fun i => K i && negb (inb i R)) (fun x => x =? j)).
  assert (E1 : (wsum n f (fun i => K i && inb i R) <= wsum n f (fun i => inb i R))%Z).
  { apply wsum_le; auto. intros i _ E. apply andb_prop in E. tauto. }
  assert (E2 : (wsum n f (fun i => (K i && negb (inb i R)) && (i =? j)%nat) <= wsum n f (fun i => (i =? j)%nat))%Z).
  { apply wsum_le; auto. intros i _ E. apply andb_prop in E. tauto. }
  assert (E3 : (wsum n f (fun i => (K i && negb (inb i R)) && negb (i =? j)%nat) <= wsum n f S2)%Z).
  { apply wsum_le; auto. intros i Hi E. apply andb_prop in E. destruct E as [E E']. apply andb_prop in E. destruct E as [E E''].
    destruct (H i Hi E) as [I|[->|]]; auto.
    - apply inb_in in I. rewrite I in E''. discriminate.
    - rewrite Nat.eqb_refl in E'. discriminate. }
  rewrite wsum_single in E2. rewrite wsum_list in E1 by auto. destruct (Nat.ltb_spec j n); lia.
Qed.

(** Sums rounded by r after every addition, in the order of the positions. *)
Fixpoint rsum (r : Z -> Z) (n : nat) (f : nat -> Z) (P : nat -> bool) : Z :=
  match n with
  | 0 => 0%Z
  | S n => if P n then r (rsum r n f P + f n)%Z else rsum r n f P
  end.

Lemma rsum_S r n f P : rsum r (S n) f P = if P n then r (rsum r n f P + f n)%Z else rsum r n f P. Proof. reflexivity. Qed.

Lemma rsum_exact r n f P : (forall m Q, m <= n -> r (wsum m f Q) = wsum m f Q) -> rsum r n f P = wsum n f P.
Proof.
  induction n as [|n IH]; intros H; auto. rewrite rsum_S, IH by (intros; apply H; lia). pose proof (H (S n) P (Nat.le_refl _)) as E.
  rewrite wsum_S in *. destruct (P n); auto. lia.
Qed.

Lemma rsum_zero r n f P : (forall i, i < n -> P i = false) -> rsum r n f P = 0%Z.
Proof. induction n as [|n IH]; intros H; auto. rewrite rsum_S, H by auto. auto. Qed.

Lemma rsum_prefix r n m f P : n <= m -> (forall i, n <= i < m -> P i = false) -> rsum r m f P = rsum r n f P.
Proof.
  intros H HP. induction H as [|m H IH]; auto. rewrite rsum_S, HP by lia. apply IH. intros. apply HP. lia.
Qed.

Lemma rsum_ext r n f P Q : (forall i, i < n -> P i = Q i) -> rsum r n f P = rsum r n f Q.
Proof. induction n as [|n IH]; intros H; auto. rewrite !rsum_S, IH, H by auto. auto. Qed.

(** Lists indexed by 0 .. nv - 1 *)
Lemma rd_mapseq {A} (f : nat -> A) nv i : i < nv -> rd (map f (seq 0 nv)) i = Ok (f i).
Proof.
  intros H. apply rd_some. rewrite nth_error_map, (nth_error_nth' _ 0) by (rewrite seq_length; auto).
  rewrite seq_nth by auto. reflexivity.
Qed.

Lemma wr_mapseq {A} (f : nat -> A) nv i x : i < nv ->
  wr (map f (seq 0 nv)) i x = Ok (map (fun k => if k =? i then x else f k) (seq 0 nv)).
Proof.
  intros H. rewrite wr_ok by (rewrite map_length, seq_length; auto). f_equal.
  apply list_ext. intros k. rewrite nth_error_upd. rewrite map_length, seq_length.
  assert (E : forall g : nat -> A, nth_error (map g (seq 0 nv)) k = if k <? nv then Some (g k) else None).
  { intros g. destruct (Nat.ltb_spec k nv).
    - rewrite nth_error_map, (nth_error_nth' _ 0) by (rewrite seq_length; auto). rewrite seq_nth by auto. reflexivity.
    - apply nth_error_None. rewrite map_length, seq_length. auto. }
  rewrite !E. destruct (Nat.eqb_spec i k) as [->|].
  - cbn [andb]. destruct (k <? nv); auto. rewrite Nat.eqb_refl. reflexivity.
  - cbn [andb]. destruct (k <? nv); auto. destruct (Nat.eqb_spec k i); [congruence|auto].
Qed.

Lemma mapseq_S {A} (f : nat -> A) i : map f (seq 0 (S i)) = map f (seq 0 i) ++ [f i].
Proof. rewrite seq_S, map_app. reflexivity. Qed.

Lemma mapseq_nth {A} (l : list A) d : map (fun i => nth i l d) (seq 0 (length l)) = l.
Proof.
  induction l as [|x l IH]; auto. cbn [length]. rewrite <- cons_seq. cbn [map nth]. f_equal.
  rewrite <- seq_shift, map_map. exact IH.
Qed.
