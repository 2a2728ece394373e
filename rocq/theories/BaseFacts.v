(** BaseFacts: weakest-precondition rules for the constructs of Base. *)
From Verif Require Import Base.
Local Open Scope nat_scope.
Global Arguments Nat.div : simpl never.
Global Arguments Nat.modulo : simpl never.
Global Arguments N.testbit : simpl never.
Global Arguments N.of_nat : simpl never.
Global Arguments Z.of_nat : simpl never.

(** Total correctness: the computation returns a value satisfying [P]. *)
Notation wp := ends_with (only parsing).

Lemma wp_iff {A} (o : outcome A) P : wp o P <-> exists a, o = Ok a /\ P a.
Proof.
  destruct o; simpl; split; intros H; try tauto.
  - eauto.
  - destruct H as (b & E & H); injection E; intros; subst; auto.
  - destruct H as (b & E & H); discriminate.
  - destruct H as (b & E & H); discriminate.
Qed.

Lemma wp_ok {A} (a : A) (P : A -> Prop) : P a -> wp (Ok a) P.
Proof. auto. Qed.

Lemma wp_bind {A B} (x : outcome A) (f : A -> outcome B) P :
  wp x (fun a => wp (f a) P) -> wp (bind x f) P.
Proof. destruct x; simpl; auto. Qed.

Lemma wp_bind_inv {A B} (x : outcome A) (f : A -> outcome B) P :
  wp (bind x f) P -> wp x (fun a => wp (f a) P).
Proof. destruct x; simpl; auto. Qed.

Lemma wp_mono {A} (o : outcome A) (P Q : A -> Prop) :
  wp o P -> (forall a, P a -> Q a) -> wp o Q.
Proof. destruct o; simpl; auto. Qed.

Lemma wp_conj {A} (o : outcome A) (P Q : A -> Prop) : wp o P -> wp o Q -> wp o (fun a => P a /\ Q a).
Proof. destruct o; simpl; auto. Qed.

Lemma bind_ok {A B} (x : outcome A) (f : A -> outcome B) b :
  bind x f = Ok b -> exists a, x = Ok a /\ f a = Ok b.
Proof. destruct x; simpl; intros; try discriminate; eauto. Qed.

(** rd, wr, upd *)
Lemma wp_rd {A} (l : list A) i x (P : A -> Prop) : nth_error l i = Some x -> P x -> wp (rd l i) P.
Proof. unfold rd; intros ->; auto. Qed.

Lemma rd_ok {A} (l : list A) i x : rd l i = Ok x -> nth_error l i = Some x.
Proof. unfold rd; destruct (nth_error l i); congruence. Qed.

Lemma rd_some {A} (l : list A) i x : nth_error l i = Some x -> rd l i = Ok x.
Proof. unfold rd; intros ->; auto. Qed.

Lemma wp_wr {A} (l : list A) i x (P : list A -> Prop) : i < length l -> P (upd l i x) -> wp (wr l i x) P.
Proof. unfold wr; intros H; apply Nat.ltb_lt in H; rewrite H; auto. Qed.

Lemma wr_ok {A} (l : list A) i x : i < length l -> wr l i x = Ok (upd l i x).
Proof. unfold wr; intros H; apply Nat.ltb_lt in H; rewrite H; auto. Qed.

Lemma upd_length {A} (l : list A) i x : length (upd l i x) = length l.
Proof. revert i; induction l; intros [|i]; simpl; auto. Qed.

Lemma nth_error_upd {A} (l : list A) i j x :
  nth_error (upd l i x) j = if (i =? j) && (j <? length l) then Some x else nth_error l j.
Proof.
  revert i j; induction l as [|a l IH]; intros i j.
  - simpl. destruct i; simpl; destruct j; simpl; auto; destruct (i =? j); auto.
  - destruct i as [|i], j as [|j]; simpl; auto. rewrite IH. reflexivity.
Qed.

Lemma nth_error_upd_eq {A} (l : list A) i x : i < length l -> nth_error (upd l i x) i = Some x.
Proof. intros H. rewrite nth_error_upd, Nat.eqb_refl. apply Nat.ltb_lt in H; rewrite H; auto. Qed.

Lemma nth_error_upd_neq {A} (l : list A) i j x : i <> j -> nth_error (upd l i x) j = nth_error l j.
Proof. intros H. rewrite nth_error_upd. destruct (Nat.eqb_spec i j); simpl; congruence. Qed.

Lemma nth_upd {A} (l : list A) i j x d :
  nth j (upd l i x) d = if (i =? j) && (j <? length l) then x else nth j l d.
Proof.
  revert i j; induction l as [|a l IH]; intros i j.
  - simpl. destruct i; simpl; destruct j; simpl; auto; destruct (i =? j); auto.
  - destruct i as [|i], j as [|j]; simpl; auto. rewrite IH. reflexivity.
Qed.

Lemma upd_same {A} (l : list A) i x : nth_error l i = Some x -> upd l i x = l.
Proof.
  revert i; induction l as [|a l IH]; intros [|i]; simpl; intros H; try discriminate; auto.
  - congruence.
  - f_equal; auto.
Qed.

Lemma nth_error_Some_nth {A} (l : list A) i d : i < length l -> nth_error l i = Some (nth i l d).
Proof. apply nth_error_nth'. Qed.

Lemma nth_error_lt {A} (l : list A) i x : nth_error l i = Some x -> i < length l.
Proof. intros H. apply nth_error_Some. congruence. Qed.

Lemma list_ext {A} (l l' : list A) :
  (forall i, nth_error l i = nth_error l' i) -> l = l'.
Proof.
  revert l'; induction l as [|a l IH]; intros [|b l'] H; auto.
  - specialize (H 0); discriminate.
  - specialize (H 0); discriminate.
  - f_equal. { specialize (H 0); simpl in H; congruence. }
    apply IH. intros i. apply (H (S i)).
Qed.

(** foldM *)
Lemma wp_foldM {X S} (f : X -> S -> outcome S) (l : list X) (I : list X -> S -> Prop) s (Q : S -> Prop) :
  I [] s ->
  (forall pre x post s, l = pre ++ x :: post -> I pre s -> wp (f x s) (I (pre ++ [x]))) ->
  (forall s, I l s -> Q s) ->
  wp (foldM f l s) Q.
Proof.
  intros H0 Hs HQ.
  assert (G : forall post pre s, l = pre ++ post -> I pre s -> wp (foldM f post s) Q).
  { induction post as [|x post IH]; intros pre s' E HI; simpl.
    - apply HQ. rewrite app_nil_r in E. congruence.
    - apply wp_bind. eapply wp_mono. { eapply Hs; eauto. }
      intros a Ha. simpl in Ha. apply (IH (pre ++ [x])).
      + rewrite E, <- app_assoc. reflexivity.
      + exact Ha. }
  apply (G l []); auto.
Qed.

Lemma foldM_app {X S} (f : X -> S -> outcome S) l1 l2 s :
  foldM f (l1 ++ l2) s = (s' <- foldM f l1 s;; foldM f l2 s').
Proof.
  revert s; induction l1 as [|x l1 IH]; intros s; simpl; auto.
  destruct (f x s); simpl; auto.
Qed.

(** A fold whose steps never fail is the pure fold. *)
Lemma foldM_pure {X S} (f : X -> S -> outcome S) (h : X -> S -> S) l s :
  (forall x s, In x l -> f x s = Ok (h x s)) -> foldM f l s = Ok (fold_left (fun s x => h x s) l s).
Proof.
  revert s; induction l as [|x l IH]; intros s H; simpl; auto.
  rewrite H by (left; auto). simpl. apply IH. intros; apply H; right; auto.
Qed.

Lemma wp_for {S} lo hi (f : nat -> S -> outcome S) (I : nat -> S -> Prop) s (Q : S -> Prop) :
  lo <= hi ->
  I lo s ->
  (forall i s, lo <= i < hi -> I i s -> wp (f i s) (I (Datatypes.S i))) ->
  (forall s, I hi s -> Q s) ->
  wp (for_ lo hi f s) Q.
Proof.
  intros Hle H0 Hs HQ. unfold for_.
  assert (G : forall n lo s, lo + n = hi -> I lo s ->
              (forall i s, lo <= i < hi -> I i s -> wp (f i s) (I (Datatypes.S i))) ->
              wp (foldM f (seq lo n) s) Q).
  { clear lo s Hle H0 Hs. induction n as [|n IH]; intros lo s E HI Hs; simpl.
    - apply HQ. replace hi with lo by lia. auto.
    - apply wp_bind. eapply wp_mono. { apply Hs; auto. lia. }
      intros a Ha. apply IH; auto. lia. intros; apply Hs; auto; lia. }
  apply G; auto. lia.
Qed.

Lemma for_nil {S} lo hi (f : nat -> S -> outcome S) s : hi <= lo -> for_ lo hi f s = Ok s.
Proof. intros H. unfold for_. replace (hi - lo) with 0 by lia. reflexivity. Qed.

Lemma for_split {S} lo mid hi (f : nat -> S -> outcome S) s :
  lo <= mid <= hi -> for_ lo hi f s = (s' <- for_ lo mid f s;; for_ mid hi f s').
Proof.
  intros H. unfold for_. replace (hi - lo) with ((mid - lo) + (hi - mid)) by lia.
  rewrite seq_app, foldM_app. replace (lo + (mid - lo)) with mid by lia. reflexivity.
Qed.

Lemma for_ext {S} lo hi (f g : nat -> S -> outcome S) s :
  (forall i s, lo <= i < hi -> f i s = g i s) -> for_ lo hi f s = for_ lo hi g s.
Proof.
  intros H. unfold for_.
  assert (G : forall l s, (forall x, In x l -> lo <= x < hi) -> foldM f l s = foldM g l s).
  { induction l as [|x l IH]; intros s' Hl; simpl; auto.
    rewrite H by (apply Hl; left; auto). destruct (g x s'); simpl; auto.
    apply IH. intros; apply Hl; right; auto. }
  apply G. intros x Hx. apply in_seq in Hx. lia.
Qed.

(** loopN *)
Lemma wp_loopN {S R} fuel (body : S -> outcome (step S R)) (I : S -> Prop) (mu : S -> nat) s (Q : R -> Prop) :
  I s -> mu s < fuel ->
  (forall s, I s -> wp (body s) (fun r => match r with Cont s' => I s' /\ mu s' < mu s | Done x => Q x end)) ->
  wp (loopN fuel body s) Q.
Proof.
  revert s; induction fuel as [|f IH]; intros s HI Hm Hs; [lia|]. simpl.
  apply wp_bind. eapply wp_mono. { apply Hs; auto. }
  intros [s'|x]; simpl; auto. intros [HI' Hm']. apply IH; auto. lia.
Qed.

(** run2 *)
Lemma pow2_pos k : 0 < 2 ^ k.
Proof. induction k; simpl; lia. Qed.

Lemma wp_run2 {S R} k (body : S -> outcome (step S R)) (I : S -> Prop) (mu : S -> nat) s (Q : R -> Prop) :
  I s -> mu s < 2 ^ k ->
  (forall s, I s -> wp (body s) (fun r => match r with Cont s' => I s' /\ mu s' < mu s | Done x => Q x end)) ->
  wp (run2 k body s) Q.
Proof.
  intros HI Hm Hs.
  assert (G : forall k s, I s ->
    wp (loop2 k body s) (fun r => match r with Cont s' => I s' /\ mu s' + 2 ^ k <= mu s | Done x => Q x end)).
  { clear s k HI Hm. induction k as [|k IH]; intros s HI; simpl.
    - eapply wp_mono. { apply Hs; auto. } intros [s'|x]; auto. intros [? ?]; split; auto; lia.
    - apply wp_bind. eapply wp_mono. { apply IH; auto. }
      intros [s'|x]; simpl; auto. intros [HI' Hm'].
      eapply wp_mono. { apply IH; auto. }
      intros [s''|x]; auto. intros [? ?]; split; auto; lia. }
  unfold run2. apply wp_bind. eapply wp_mono. { apply G; auto. }
  intros [s'|x]; simpl; auto. intros [_ H]. lia.
Qed.

(** The same with the measure as part of the invariant. *)
Lemma wp_run2_rel {S R} k (body : S -> outcome (step S R)) (I : S -> nat -> Prop) s n (Q : R -> Prop) :
  I s n -> n < 2 ^ k ->
  (forall s n, I s n -> wp (body s) (fun r => match r with Cont s' => exists n', n' < n /\ I s' n' | Done x => Q x end)) ->
  wp (run2 k body s) Q.
Proof.
  intros HI Hm Hs.
  assert (G : forall k s n, I s n ->
    wp (loop2 k body s) (fun r => match r with Cont s' => exists n', n' + 2 ^ k <= n /\ I s' n' | Done x => Q x end)).
  { clear s k n HI Hm. induction k as [|k IH]; intros s n HI; simpl.
    - eapply wp_mono. { apply Hs; eauto. } intros [s'|x]; auto. intros (n' & ? & ?). exists n'. split; auto; lia.
    - apply wp_bind. eapply wp_mono. { apply IH; eauto. }
      intros [s'|x]; simpl; auto. intros (n' & Hn' & HI').
      eapply wp_mono. { apply IH; eauto. }
      intros [s''|x]; auto. intros (n'' & ? & ?). exists n''. split; auto; lia. }
  unfold run2. apply wp_bind. eapply wp_mono. { apply G; eauto. }
  intros [s'|x]; simpl; auto. intros (n' & H & _). lia.
Qed.

Lemma wp_loopN_rel {S R} fuel (body : S -> outcome (step S R)) (I : S -> nat -> Prop) s n (Q : R -> Prop) :
  I s n -> n < fuel ->
  (forall s n, I s n -> wp (body s) (fun r => match r with Cont s' => exists n', n' < n /\ I s' n' | Done x => Q x end)) ->
  wp (loopN fuel body s) Q.
Proof.
  revert s n; induction fuel as [|f IH]; intros s n HI Hm Hs; [lia|]. simpl.
  apply wp_bind. eapply wp_mono. { apply Hs; eauto. }
  intros [s'|x]; simpl; auto. intros (n' & Hn' & HI'). apply (IH s' n'); auto. lia.
Qed.

(** Tactic support. *)
Ltac wstep := first [ apply wp_bind | apply wp_ok ].

Lemma wp_pair {A B C} (o : outcome (A * B)) (f : A -> B -> outcome C) P :
  wp o (fun p => wp (f (fst p) (snd p)) P) -> wp (bind o (fun x => match x with (a, b) => f a b end)) P.
Proof. destruct o as [[a b]| |]; simpl; auto. Qed.

Lemma filter_len_le {A} (f : A -> bool) l : length (filter f l) <= length l.
Proof. induction l as [|a l IH]; simpl; auto. destruct (f a); simpl; lia. Qed.

Lemma skipn_skipn {A} x y (l : list A) : skipn x (skipn y l) = skipn (x + y) l.
Proof.
  revert l; induction y as [|y IH]; intros l.
  - rewrite Nat.add_0_r. reflexivity.
  - replace (x + S y) with (S (x + y)) by lia. destruct l as [|a l]; simpl.
    + destruct x; reflexivity.
    + apply IH.
Qed.

Lemma filter_map_len {A B} (f : B -> bool) (g : A -> B) l :
  length (filter f (map g l)) = length (filter (fun x => f (g x)) l).
Proof. induction l as [|a l IH]; simpl; auto. destruct (f (g a)); simpl; auto. Qed.
