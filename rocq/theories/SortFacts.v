(** SortFacts: insertionSort, radixSort, modUnique and clean_edges. *)
From Verif Require Import Base BaseFacts MUtils.
From Coq Require Import Sorting.Sorted Sorting.Permutation.
Local Open Scope nat_scope.
Local Arguments Nat.sub : simpl never.

(** Lexicographic order on pairs. *)
Definition lexle (x y : nat * nat) : Prop := fst x < fst y \/ (fst x = fst y /\ snd x <= snd y).
Definition lexlt (x y : nat * nat) : Prop := fst x < fst y \/ (fst x = fst y /\ snd x < snd y).

Notation sorted_le := (StronglySorted lexle).
Notation sorted_lt := (StronglySorted lexlt).

Lemma lexle_refl x : lexle x x. Proof. unfold lexle. lia. Qed.
Lemma lexle_trans x y z : lexle x y -> lexle y z -> lexle x z. Proof. unfold lexle. lia. Qed.

Lemma pair_gt_true x y : pair_gt x y = true -> lexlt y x.
Proof.
  unfold pair_gt, lexlt. destruct (Nat.eqb_spec (fst x) (fst y)); simpl; intros H; apply Nat.ltb_lt in H; lia.
Qed.

Lemma pair_gt_false x y : pair_gt x y = false -> lexle x y.
Proof.
  unfold pair_gt, lexle. destruct (Nat.eqb_spec (fst x) (fst y)); simpl; intros H; apply Nat.ltb_ge in H; lia.
Qed.

Lemma sorted_app_iff {A} (R : A -> A -> Prop) l1 l2 :
  StronglySorted R (l1 ++ l2) <->
  StronglySorted R l1 /\ StronglySorted R l2 /\ forall x y, In x l1 -> In y l2 -> R x y.
Proof.
  induction l1 as [|a l1 IH]; simpl.
  - split; [intros H; repeat split; auto; [constructor|tauto]|tauto].
  - split.
    + intros H. inversion H as [|? ? H1 H2]; subst. apply IH in H1. destruct H1 as (S1 & S2 & H3).
      rewrite Forall_app in H2. destruct H2 as [F1 F2]. repeat split; auto.
      * constructor; auto.
      * intros x y [<-|Hx] Hy; auto. rewrite Forall_forall in F2. auto.
    + intros (S1 & S2 & H3). inversion S1; subst. constructor.
      * apply IH. repeat split; auto.
      * apply Forall_app. split; auto. apply Forall_forall. auto.
Qed.

(** [a'] is [a] with the segment [s, e) replaced by a permutation of it that satisfies [Q]. *)
Definition seg (Q : pairs -> Prop) (a a' : pairs) (s e : nat) : Prop :=
  exists pre mid mid' post,
    a = pre ++ mid ++ post /\ a' = pre ++ mid' ++ post /\ length pre = s /\ length mid = e - s
    /\ Permutation mid mid' /\ Q mid'.

Lemma seg_split (a : pairs) s e : s <= e <= length a ->
  exists pre mid post, a = pre ++ mid ++ post /\ length pre = s /\ length mid = e - s.
Proof.
  intros H. exists (firstn s a), (firstn (e - s) (skipn s a)), (skipn (e - s) (skipn s a)).
  rewrite !firstn_skipn. repeat split; auto.
  - rewrite firstn_length. lia.
  - rewrite firstn_length, skipn_length. lia.
Qed.

(** ** swap on an explicit decomposition *)
Lemma nth_error_mid {A} (l : list A) x r i : i = length l -> nth_error (l ++ x :: r) i = Some x.
Proof. intros ->. rewrite nth_error_app2 by lia. replace (length l - length l) with 0 by lia. auto. Qed.

Lemma upd_mid {A} (l : list A) a x r i : i = length l -> upd (l ++ a :: r) i x = l ++ x :: r.
Proof. intros ->. induction l; simpl; congruence. Qed.

Lemma swap_adj {A} (l : list A) x y r i : i = length l ->
  swap (l ++ x :: y :: r) (S i) i = Ok (l ++ y :: x :: r).
Proof.
  intros Hi. unfold swap.
  replace (l ++ x :: y :: r) with ((l ++ [x]) ++ y :: r) by (rewrite <- app_assoc; auto).
  rewrite (rd_some _ (S i) y) by (apply nth_error_mid; rewrite app_length; simpl; lia). cbn [bind].
  replace ((l ++ [x]) ++ y :: r) with (l ++ x :: y :: r) by (rewrite <- app_assoc; auto).
  rewrite (rd_some _ i x) by (apply nth_error_mid; auto). cbn [bind].
  rewrite wr_ok by (rewrite app_length; simpl; lia). cbn [bind].
  replace (l ++ x :: y :: r) with ((l ++ [x]) ++ y :: r) by (rewrite <- app_assoc; auto).
  rewrite upd_mid by (rewrite app_length; simpl; lia).
  replace ((l ++ [x]) ++ x :: r) with (l ++ x :: x :: r) by (rewrite <- app_assoc; auto).
  rewrite wr_ok by (rewrite app_length; simpl; lia). rewrite upd_mid by auto. auto.
Qed.

(** ** insertionSort *)
Lemma isort_inner pre A y B post :
  sorted_le A -> sorted_le B -> (forall x b, In x A -> In b B -> lexle x b) -> (forall b, In b B -> lexle y b) ->
  wp (loopN (S (length pre + length A))
        (fun '(j, a) =>
            if j =? length pre then Ok (Done a)
            else
              x <- rd a (j - 1);; y <- rd a j;;
              if pair_gt x y then a <- swap a j (j - 1);; Ok (Cont (j - 1, a))
              else Ok (Done a))
        (length pre + length A, pre ++ (A ++ y :: B) ++ post))
     (fun a' => exists mid', a' = pre ++ mid' ++ post /\ Permutation (A ++ y :: B) mid' /\ sorted_le mid').
Proof.
  intros SA SB HAB HyB.
  apply wp_loopN with (mu := fun s => fst s - length pre)
    (I := fun s => exists A' B', fst s = length pre + length A' /\ snd s = pre ++ (A' ++ y :: B') ++ post
       /\ Permutation (A ++ y :: B) (A' ++ y :: B')
       /\ sorted_le A' /\ sorted_le B' /\ (forall x b, In x A' -> In b B' -> lexle x b) /\ (forall b, In b B' -> lexle y b)).
  - exists A, B. simpl. repeat split; auto.
  - simpl. lia.
  - intros [j a] (A' & B' & Hj & Ha & HP & SA' & SB' & HAB' & HyB'). simpl in Hj, Ha. subst a.
    destruct (Nat.eqb_spec j (length pre)) as [E|NE].
    + apply wp_ok. destruct A' as [|x0 A']; [|simpl in Hj; lia].
      exists (y :: B'). simpl in *. repeat split; auto. constructor; auto. apply Forall_forall. auto.
    + destruct A' as [|a0 A0] using rev_ind; [simpl in Hj; lia|]. clear IHA0. rename a0 into x. rename A0 into A'.
      rewrite app_length in Hj. simpl in Hj.
      replace (pre ++ ((A' ++ [x]) ++ y :: B') ++ post) with ((pre ++ A') ++ x :: y :: B' ++ post)
        by (rewrite <- !app_assoc; reflexivity).
      assert (Hl : length (pre ++ A') = j - 1) by (rewrite app_length; lia).
      rewrite (rd_some _ (j - 1) x) by (apply nth_error_mid; auto). cbn [bind].
      rewrite (rd_some _ j y).
      2: { replace ((pre ++ A') ++ x :: y :: B' ++ post) with ((pre ++ A' ++ [x]) ++ y :: B' ++ post)
             by (rewrite <- !app_assoc; reflexivity).
           apply nth_error_mid. rewrite !app_length. simpl. lia. }
      cbn [bind]. apply sorted_app_iff in SA'. destruct SA' as (SA1 & SA2 & SA3).
      destruct (pair_gt x y) eqn:G.
      * replace (swap ((pre ++ A') ++ x :: y :: B' ++ post) j (j - 1))
          with (Ok (A := pairs) ((pre ++ A') ++ y :: x :: B' ++ post)).
        2: { symmetry. replace j with (S (j - 1)) at 1 by lia. apply swap_adj. auto. }
        cbn [bind]. apply wp_ok. split; [|simpl; lia].
        exists A', (x :: B'). simpl. repeat split; auto; try lia.
        -- rewrite <- !app_assoc. reflexivity.
        -- eapply perm_trans; [exact HP|]. rewrite <- app_assoc. apply Permutation_app_head. apply perm_swap.
        -- constructor; auto. apply Forall_forall. intros b Hb. apply HAB'; auto. apply in_or_app. right; left; auto.
        -- intros u b Hu [<-|Hb]; [apply SA3; simpl; auto|]. apply HAB'; auto. apply in_or_app; auto.
        -- intros b [<-|Hb]; auto. apply pair_gt_true in G. unfold lexlt, lexle in *. lia.
      * apply wp_ok. exists ((A' ++ [x]) ++ y :: B'). repeat split; auto.
        -- rewrite <- !app_assoc. reflexivity.
        -- apply pair_gt_false in G. apply sorted_app_iff. repeat split.
           ++ apply sorted_app_iff. auto.
           ++ constructor; auto. apply Forall_forall. auto.
           ++ intros u b Hu [<-|Hb]; [|apply HAB'; auto].
              apply in_app_or in Hu. destruct Hu as [Hu|[<-|[]]]; auto.
              eapply lexle_trans; [|exact G]. apply SA3; simpl; auto.
Qed.

Lemma insertionSort_spec a s e : s <= e <= length a -> wp (insertionSort a s e) (fun a' => seg sorted_le a a' s e).
Proof.
  intros H. destruct (seg_split a s e H) as (pre & mid & post & Ha & Hp & Hm). unfold insertionSort.
  destruct (Nat.le_gt_cases e (s + 1)) as [L|L].
  - rewrite for_nil by auto. apply wp_ok. exists pre, mid, mid, post. repeat split; auto.
    destruct mid as [|x [|y mid]]; simpl in Hm; try lia; repeat constructor.
  - apply wp_for with (I := fun i a' => exists m1, a' = pre ++ (m1 ++ skipn (i - s) mid) ++ post
        /\ Permutation (firstn (i - s) mid) m1 /\ sorted_le m1); try lia.
    + exists (firstn 1 mid). replace (s + 1 - s) with 1 by lia. rewrite firstn_skipn. repeat split; auto.
      destruct mid; simpl; repeat constructor.
    + intros i a' Hi (m1 & Ha' & HP & HS).
      destruct (skipn (i - s) mid) as [|y r] eqn:Er.
      { exfalso. assert (length (skipn (i - s) mid) = 0) by (rewrite Er; auto). rewrite skipn_length in H0. lia. }
      assert (Hm1 : length m1 = i - s).
      { rewrite <- (Permutation_length HP), firstn_length. lia. }
      assert (Hi' : i = length pre + length m1) by lia.
      pose proof (isort_inner pre m1 y [] (r ++ post) HS (SSorted_nil _) ltac:(intros; contradiction) ltac:(intros; contradiction)) as G.
      rewrite <- Hi', Hp in G.
      replace (pre ++ (m1 ++ [y]) ++ r ++ post) with a' in G by (rewrite Ha', <- !app_assoc; reflexivity).
      eapply wp_mono; [exact G|]. intros a'' (mid' & E & P & SS). exists mid'. repeat split; auto.
      * rewrite E, <- app_assoc. do 2 f_equal. f_equal.
        replace (S i - s) with (1 + (i - s)) by lia. 
        replace r with (skipn 1 (y :: r)) by auto. rewrite <- Er, skipn_skipn. auto.
      * eapply perm_trans; [|exact P].
        replace (firstn (S i - s) mid) with (firstn (i - s) mid ++ [y]).
        { apply Permutation_app_tail. auto. }
        replace (S i - s) with ((i - s) + 1) by lia.
        rewrite <- (firstn_skipn (i - s) mid) at 2. rewrite Er, firstn_app.
        rewrite firstn_firstn. replace (Nat.min (i - s + 1) (i - s)) with (i - s) by lia.
        rewrite firstn_length. replace (i - s + 1 - Nat.min (i - s) (length mid)) with 1 by lia. auto.
    + intros a' (m1 & Ha' & HP & HS). exists pre, mid, m1, post. repeat split; auto.
      * rewrite Ha'. replace (skipn (e - s) mid) with (@nil (nat * nat)); [rewrite app_nil_r; auto|].
        symmetry. apply skipn_all2. lia.
      * rewrite firstn_all2 in HP by lia. auto.
Qed.

(** ** Pointwise view *)
Notation at_ a p := (nth p a (0, 0)).

Definition perm_out (a0 a : pairs) (s e : nat) : Prop :=
  length a = length a0 /\ Permutation a0 a /\ forall p, ~ (s <= p < e) -> at_ a p = at_ a0 p.

Definition psorted (a : pairs) (s e : nat) : Prop := forall p q, s <= p < q -> q < e -> lexle (at_ a p) (at_ a q).

Lemma perm_out_refl a s e : perm_out a a s e.
Proof. repeat split; auto. Qed.

Lemma perm_out_trans a b c s e : perm_out a b s e -> perm_out b c s e -> perm_out a c s e.
Proof.
  intros (L1 & P1 & O1) (L2 & P2 & O2). repeat split; try congruence.
  - eapply perm_trans; eauto.
  - intros p Hp. rewrite O2, O1; auto.
Qed.

Lemma perm_out_weaken a b s e s' e' : perm_out a b s e -> s' <= s -> e <= e' -> perm_out a b s' e'.
Proof. intros (L1 & P1 & O1) ? ?. repeat split; auto. intros p Hp. apply O1. lia. Qed.

Lemma at_mid (pre mid post : pairs) p : length pre <= p < length pre + length mid ->
  at_ (pre ++ mid ++ post) p = at_ mid (p - length pre).
Proof. intros H. rewrite app_nth2 by lia. rewrite app_nth1 by lia. auto. Qed.

Lemma list_eq_at (l l' : pairs) : length l = length l' -> (forall p, p < length l -> at_ l p = at_ l' p) -> l = l'.
Proof. intros HL H. apply (nth_ext l l' (0,0) (0,0)); auto. Qed.

Lemma perm_out_seg a0 a s e : s <= e <= length a0 -> perm_out a0 a s e ->
  exists pre mid mid' post, a0 = pre ++ mid ++ post /\ a = pre ++ mid' ++ post /\ length pre = s /\ length mid = e - s
     /\ length mid' = e - s /\ Permutation mid mid'.
Proof.
  intros H (HL & HP & HO).
  destruct (seg_split a0 s e H) as (pre & mid & post & E0 & L1 & L2).
  destruct (seg_split a s e ltac:(lia)) as (pre' & mid' & post' & E & L1' & L2').
  assert (Epre : pre' = pre).
  { apply list_eq_at; [lia|]. intros p Hp. specialize (HO p ltac:(lia)). rewrite E, E0 in HO.
    rewrite !app_nth1 in HO by lia. auto. }
  assert (Lp : length post' = length post).
  { rewrite E, E0, !app_length in HL. lia. }
  assert (Epost : post' = post).
  { apply list_eq_at; auto. intros p Hp. specialize (HO (e + p) ltac:(lia)). rewrite E, E0 in HO.
    rewrite !app_nth2 in HO by (rewrite ?app_length; lia).
    replace (e + p - length pre' - length mid') with p in HO by lia.
    replace (e + p - length pre - length mid) with p in HO by lia. auto. }
  subst pre' post'. exists pre, mid, mid', post. repeat split; auto.
  rewrite E0, E in HP. apply Permutation_app_inv_l in HP. apply Permutation_app_inv_r in HP. auto.
Qed.

Lemma perm_out_forall (P : nat * nat -> Prop) a0 a s e : s <= e <= length a0 -> perm_out a0 a s e ->
  (forall p, s <= p < e -> P (at_ a0 p)) -> forall p, s <= p < e -> P (at_ a p).
Proof.
  intros H HP HA p Hp. destruct (perm_out_seg a0 a s e H HP) as (pre & mid & mid' & post & E0 & E & L1 & L2 & L3 & PM).
  rewrite E, at_mid by lia.
  assert (I : In (at_ mid' (p - length pre)) mid) by (eapply Permutation_in; [apply Permutation_sym; exact PM|]; apply nth_In; lia).
  apply (In_nth _ _ (0,0)) in I. destruct I as (q & Hq & Eq). rewrite <- Eq.
  specialize (HA (length pre + q) ltac:(lia)). rewrite E0, at_mid in HA by lia.
  replace (length pre + q - length pre) with q in HA by lia. auto.
Qed.

Lemma seg_pointwise a a' s e : s <= e -> seg sorted_le a a' s e -> perm_out a a' s e /\ psorted a' s e.
Proof.
  intros Hse (pre & mid & mid' & post & E & E' & L1 & L2 & P & S). pose proof (Permutation_length P).
  split.
  - repeat split.
    + rewrite E, E', !app_length. lia.
    + rewrite E, E'. apply Permutation_app_head. apply Permutation_app_tail. auto.
    + intros p Hp. rewrite E, E'. destruct (Nat.lt_ge_cases p (length pre)).
      * rewrite !app_nth1 by lia. auto.
      * rewrite !(app_nth2 pre) by lia.
        destruct (Nat.lt_ge_cases (p - length pre) (length mid)); [lia|]. rewrite !app_nth2 by lia. rewrite H. auto.
  - intros p q Hp Hq. rewrite E', !at_mid by lia.
    set (i := p - length pre). set (j := q - length pre). assert (i < j < length mid') by lia. clearbody i j.
    clear - S H0. revert i j H0. induction S as [|x l S IH F]; intros i j H; simpl in H; [lia|].
    destruct j as [|j]; [lia|]. destruct i as [|i]; simpl.
    + rewrite Forall_forall in F. apply F. apply nth_In. lia.
    + apply IH. lia.
Qed.

Lemma psorted_list a : psorted a 0 (length a) -> sorted_le a.
Proof.
  induction a as [|x a IH]; intros H; constructor.
  - apply IH. intros p q Hp Hq. apply (H (S p) (S q)); simpl; lia.
  - apply Forall_forall. intros y Hy. apply (In_nth _ _ (0,0)) in Hy. destruct Hy as (q & Hq & E).
    rewrite <- E. apply (H 0 (S q)); simpl; lia.
Qed.

Lemma swap_spec (a : pairs) j t : j < length a -> t < length a ->
  wp (swap a j t) (fun a' => length a' = length a /\ Permutation a a'
     /\ forall p, at_ a' p = if p =? t then at_ a j else if p =? j then at_ a t else at_ a p).
Proof.
  intros Hj Ht. unfold swap.
  rewrite (rd_some a j (at_ a j)) by (apply nth_error_nth'; auto). cbn [bind].
  rewrite (rd_some a t (at_ a t)) by (apply nth_error_nth'; auto). cbn [bind].
  rewrite wr_ok by auto. cbn [bind]. rewrite wr_ok by (rewrite upd_length; auto). apply wp_ok.
  split; [rewrite !upd_length; auto|]. split.
  - apply Permutation_nth_error. split; [rewrite !upd_length; auto|].
    exists (fun p => if p =? t then j else if p =? j then t else p). split.
    + intros p q. destruct (Nat.eqb_spec p t), (Nat.eqb_spec q t), (Nat.eqb_spec p j), (Nat.eqb_spec q j); lia.
    + intros p. rewrite !nth_error_upd, upd_length.
      destruct (Nat.eqb_spec p t) as [->|N1].
      * rewrite Nat.eqb_refl. replace (t <? length a) with true by (symmetry; apply Nat.ltb_lt; auto). simpl.
        symmetry. apply nth_error_nth'. auto.
      * replace (t =? p) with false by (symmetry; apply Nat.eqb_neq; auto). cbn [andb].
        destruct (Nat.eqb_spec p j) as [->|N2].
        -- rewrite Nat.eqb_refl. replace (j <? length a) with true by (symmetry; apply Nat.ltb_lt; auto). simpl.
           symmetry. apply nth_error_nth'. auto.
        -- replace (j =? p) with false by (symmetry; apply Nat.eqb_neq; auto). auto.
  - intros p. rewrite !nth_upd, upd_length. rewrite (Nat.eqb_sym p t), (Nat.eqb_sym p j).
    destruct (Nat.eqb_spec t p) as [->|N1]; cbn [andb].
    + replace (p <? length a) with true by (symmetry; apply Nat.ltb_lt; auto). auto.
    + destruct (Nat.eqb_spec j p) as [->|N2]; cbn [andb]; auto.
      replace (p <? length a) with true by (symmetry; apply Nat.ltb_lt; auto). auto.
Qed.

(** ** Digits *)
Lemma digit_mod kf shift x : digit kf shift x = (if kf then fst x else snd x) / 2 ^ shift mod 16.
Proof. unfold digit. change 15 with (Nat.ones 4). rewrite Nat.land_ones, Nat.shiftr_div_pow2. auto. Qed.

Lemma digit_lt kf shift x : digit kf shift x < 16.
Proof. rewrite digit_mod. apply Nat.mod_upper_bound. lia. Qed.

(** Everything above the digit at [shift]. *)
Definition hikey (kf : bool) (shift : nat) (x : nat * nat) : nat * nat :=
  if kf then (fst x / 2 ^ (shift + 4), 0) else (fst x, snd x / 2 ^ (shift + 4)).

Lemma split_digit v shift : v / 2 ^ shift = 16 * (v / 2 ^ (shift + 4)) + v / 2 ^ shift mod 16.
Proof.
  rewrite Nat.pow_add_r. change (2 ^ 4) with 16. rewrite <- Nat.div_div by (try lia; apply Nat.pow_nonzero; lia).
  apply Nat.div_mod. lia.
Qed.

Lemma key_order kf shift x y : hikey kf shift x = hikey kf shift y -> digit kf shift x < digit kf shift y -> lexlt x y.
Proof.
  unfold hikey. rewrite !digit_mod. intros H D.
  assert (M : forall u v, u / 2 ^ shift < v / 2 ^ shift -> u < v).
  { intros u v Huv. destruct (Nat.lt_ge_cases u v) as [L|L]; auto.
    pose proof (Nat.div_le_mono v u (2 ^ shift) ltac:(apply Nat.pow_nonzero; lia) L). lia. }
  destruct kf; injection H; intros.
  - left. apply M. rewrite (split_digit (fst x)), (split_digit (fst y)). lia.
  - right. split; auto. apply M. rewrite (split_digit (snd x)), (split_digit (snd y)). lia.
Qed.

Lemma key_next kf shift x y : hikey kf shift x = hikey kf shift y -> digit kf shift x = digit kf shift y ->
  (4 <= shift -> hikey kf (shift - 4) x = hikey kf (shift - 4) y)
  /\ (shift = 0 -> kf = true -> fst x = fst y) /\ (shift = 0 -> kf = false -> x = y).
Proof.
  unfold hikey. rewrite !digit_mod. intros H D.
  assert (E : (if kf then fst x else snd x) / 2 ^ shift = (if kf then fst y else snd y) / 2 ^ shift).
  { destruct kf; injection H; intros.
    - rewrite (split_digit (fst x) shift), (split_digit (fst y) shift). lia.
    - rewrite (split_digit (snd x) shift), (split_digit (snd y) shift). lia. }
  repeat split.
  - intros. replace (shift - 4 + 4) with shift by lia. destruct kf; injection H; intros; congruence.
  - intros -> ->. change (2 ^ 0) with 1 in E. rewrite !Nat.div_1_r in E. auto.
  - intros -> ->. change (2 ^ 0) with 1 in E. rewrite !Nat.div_1_r in E. injection H; intros.
    destruct x, y; simpl in *; congruence.
Qed.

(** ** Counting digits *)
Definition cnt (kf : bool) (shift : nat) (a : pairs) (s e d : nat) : nat :=
  length (filter (fun p => digit kf shift (at_ a p) =? d) (seq s (e - s))).

Fixpoint psum (c : nat -> nat) (i : nat) : nat := match i with 0 => 0 | S k => psum c k + c k end.

Lemma psum_mono c i j : i <= j -> psum c i <= psum c j.
Proof. induction 1; simpl; lia. Qed.

Lemma psum_ext c c' i : (forall k, k < i -> c k = c' k) -> psum c i = psum c' i.
Proof. induction i as [|i IH]; intros H; simpl; auto. rewrite IH, H by (intros; auto; apply H; lia). auto. Qed.

Lemma psum_le c c' i : (forall k, k < i -> c k <= c' k) -> psum c i <= psum c' i.
Proof. induction i as [|i IH]; intros H; simpl; auto. specialize (IH ltac:(intros; apply H; lia)). specialize (H i ltac:(lia)). lia. Qed.

Lemma psum_dec c c' i k : k < i -> c' k < c k -> (forall j, j < i -> c' j <= c j) -> psum c' i < psum c i.
Proof.
  induction i as [|i IH]; intros Hk HL HA; [lia|]. simpl.
  destruct (Nat.eq_dec k i) as [->|].
  - pose proof (psum_le c' c i ltac:(intros; apply HA; lia)). lia.
  - specialize (IH ltac:(lia) HL ltac:(intros; apply HA; lia)). specialize (HA i ltac:(lia)). lia.
Qed.

Lemma psum_split {A} (f : A -> nat) (l : list A) n : (forall x, In x l -> f x < n) ->
  psum (fun d => length (filter (fun x => f x =? d) l)) n = length l.
Proof.
  induction l as [|x l IH]; intros H; simpl.
  - induction n; simpl; auto. rewrite IHn; auto. intros; contradiction.
  - rewrite <- IH by (intros; apply H; right; auto). specialize (H x (or_introl eq_refl)). clear IH.
    induction n as [|n IHn]; [lia|]. simpl. destruct (Nat.eqb_spec (f x) n) as [E|E].
    + simpl. rewrite (psum_ext _ (fun d => length (filter (fun x0 => f x0 =? d) l)) n); [lia|].
      intros k Hk. replace (f x =? k) with false; auto. symmetry. apply Nat.eqb_neq. lia.
    + rewrite IHn by lia. lia.
Qed.

Lemma cnt_total kf shift a s e : psum (cnt kf shift a s e) 16 = e - s.
Proof.
  unfold cnt. rewrite (psum_split (fun p => digit kf shift (at_ a p))) by (intros; apply digit_lt). apply seq_length.
Qed.

Lemma map_at_mid (pre mid post : pairs) : map (fun p => at_ (pre ++ mid ++ post) p) (seq (length pre) (length mid)) = mid.
Proof.
  apply list_eq_at.
  - rewrite map_length, seq_length. auto.
  - intros p Hp. rewrite map_length, seq_length in Hp.
    rewrite (nth_indep _ (0,0) ((fun p => at_ (pre ++ mid ++ post) p) 0)) by (rewrite map_length, seq_length; auto).
    rewrite (map_nth (fun p => at_ (pre ++ mid ++ post) p)). rewrite seq_nth by auto. rewrite at_mid by lia. f_equal. lia.
Qed.

Lemma perm_filter {A} (f : A -> bool) l l' : Permutation l l' -> Permutation (filter f l) (filter f l').
Proof.
  induction 1; simpl; auto.
  - destruct (f x); auto.
  - destruct (f x), (f y); auto. apply perm_swap.
  - eapply perm_trans; eauto.
Qed.

Lemma cnt_perm kf shift a0 a s e d : s <= e <= length a0 -> perm_out a0 a s e ->
  cnt kf shift a s e d = cnt kf shift a0 s e d.
Proof.
  intros H HP. destruct (perm_out_seg a0 a s e H HP) as (pre & mid & mid' & post & E0 & E & L1 & L2 & L3 & PM).
  unfold cnt. rewrite <- (filter_map_len (fun x => digit kf shift x =? d) (fun p => at_ a p)).
  rewrite <- (filter_map_len (fun x => digit kf shift x =? d) (fun p => at_ a0 p)).
  rewrite E0, E. rewrite <- L1. rewrite <- L1 in L2, L3. rewrite <- L2 at 2. rewrite <- L3. rewrite !map_at_mid.
  apply Permutation_length, perm_filter, Permutation_sym. auto.
Qed.

Lemma cnt_positions kf shift a s e d (ps : list nat) :
  NoDup ps -> (forall p, In p ps -> s <= p < e /\ digit kf shift (at_ a p) = d) -> length ps <= cnt kf shift a s e d.
Proof.
  intros HN H. unfold cnt. apply NoDup_incl_length; auto. intros p Hp. apply filter_In.
  destruct (H p Hp) as [H1 H2]. split; [apply in_seq; lia|]. apply Nat.eqb_eq. auto.
Qed.

Lemma rs_count_spec a s e shift kf : s <= e <= length a ->
  wp (rs_count a s e shift kf) (fun ends => length ends = 16 /\ forall d, d < 16 -> nth d ends 0 = cnt kf shift a s e d).
Proof.
  intros H. unfold rs_count.
  apply wp_for with (I := fun i ends => length ends = 16 /\ forall d, d < 16 -> nth d ends 0 = cnt kf shift a s i d); try lia.
  - split; auto. intros d Hd. unfold cnt. replace (s - s) with 0 by lia. simpl.
    change (nth d (repeat 0 16) 0 = 0). apply nth_repeat.
  - intros i ends Hi [L C]. apply wp_bind. eapply wp_rd. { apply nth_error_nth' with (d := (0,0)). lia. }
    set (x := at_ a i). pose proof (digit_lt kf shift x).
    cbv zeta. apply wp_bind. eapply wp_rd. { apply nth_error_nth' with (d := 0). lia. }
    apply wp_wr; [lia|]. split; [rewrite upd_length; auto|].
    intros d Hd. rewrite nth_upd. unfold cnt. replace (S i - s) with (S (i - s)) by lia.
    rewrite seq_S, filter_app, app_length. replace (s + (i - s)) with i by lia. cbn [filter]. fold x.
    fold (cnt kf shift a s i d). rewrite L.
    replace (d <? 16) with true by (symmetry; apply Nat.ltb_lt; auto). rewrite andb_true_r.
    destruct (Nat.eqb_spec (digit kf shift x) d) as [E|E]; simpl.
    + rewrite E, C by auto. lia.
    + rewrite C by auto. lia.
  - auto.
Qed.

Lemma rs_offsets_spec start c ends :
  length ends = 16 -> (forall d, d < 16 -> nth d ends 0 = c d) ->
  wp (rs_offsets start ends) (fun r => length (fst r) = 16 /\ length (snd r) = 16
     /\ (forall d, d < 16 -> nth d (fst r) 0 = start + psum c d)
     /\ (forall d, d < 16 -> nth d (snd r) 0 = start + psum c (S d))).
Proof.
  intros L C. unfold rs_offsets.
  apply wp_bind. eapply wp_rd. { apply nth_error_nth' with (d := 0). lia. }
  apply wp_bind. apply wp_wr; [lia|].
  apply wp_bind. apply wp_wr; [simpl; lia|].
  apply wp_for with (I := fun i r => length (fst r) = 16 /\ length (snd r) = 16
     /\ (forall d, d < i -> nth d (fst r) 0 = start + psum c d)
     /\ (forall d, d < i -> nth d (snd r) 0 = start + psum c (S d))
     /\ (forall d, i <= d < 16 -> nth d (snd r) 0 = c d)); try lia.
  - cbn [fst snd]. rewrite !upd_length. split; [auto|]. split; [auto|]. split; [|split].
    + intros d Hd. assert (d = 0) by lia. subst. simpl. lia.
    + intros d Hd. assert (d = 0) by lia. subst. rewrite nth_upd. rewrite L. simpl. rewrite C by lia. lia.
    + intros d Hd. rewrite nth_upd. replace (0 =? d) with false by (symmetry; apply Nat.eqb_neq; lia). simpl. apply C. lia.
  - intros i [st en] Hi (L1 & L2 & H1 & H2 & H3). cbn [fst snd] in *.
    apply wp_bind. eapply wp_rd. { apply nth_error_nth' with (d := 0). lia. }
    apply wp_bind. eapply wp_rd. { apply nth_error_nth' with (d := 0). lia. }
    apply wp_bind. apply wp_wr; [lia|]. apply wp_bind. apply wp_wr; [lia|]. apply wp_ok. cbn [fst snd].
    rewrite !upd_length. split; [auto|]. split; [auto|].
    assert (E : nth (i - 1) en 0 = start + psum c i).
    { rewrite H2 by lia. replace (S (i - 1)) with i by lia. auto. }
    split; [|split].
    + intros d Hd. rewrite nth_upd, L1. destruct (Nat.eqb_spec i d) as [->|].
      * replace (d <? 16) with true by (symmetry; apply Nat.ltb_lt; lia). simpl. auto.
      * simpl. apply H1. lia.
    + intros d Hd. rewrite nth_upd, L2. destruct (Nat.eqb_spec i d) as [->|].
      * replace (d <? 16) with true by (symmetry; apply Nat.ltb_lt; lia). cbn [andb]. rewrite E, H3 by lia. simpl. lia.
      * cbn [andb]. apply H2. lia.
    + intros d Hd. rewrite nth_upd. replace (i =? d) with false by (symmetry; apply Nat.eqb_neq; lia). cbn [andb]. apply H3. lia.
  - intros [st en] (L1 & L2 & H1 & H2 & H3). cbn [fst snd] in *. auto.
Qed.
