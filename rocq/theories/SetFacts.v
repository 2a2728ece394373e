(** SetFacts: counting, set algebra and decoding of bitsets. *)
From Verif Require Import Base BaseFacts MBits BitsFacts PopFacts.
From Coq Require Import Sorting.Sorted.
Local Open Scope nat_scope.
Local Arguments Nat.sub : simpl never.
Local Arguments Nat.mul : simpl never.

(** The positions below [n] satisfying [P], in increasing order. *)
Notation sel := members (only parsing).

Lemma sel_in n P x : In x (sel n P) <-> x < n /\ P x = true.
Proof. unfold sel. rewrite filter_In, in_seq. intuition lia. Qed.

Lemma sel_ext n P Q : (forall i, i < n -> P i = Q i) -> sel n P = sel n Q.
Proof. intros H. apply filter_ext_in. intros i Hi. apply in_seq in Hi. apply H. lia. Qed.

Lemma seq_sorted s n : StronglySorted lt (seq s n).
Proof.
  revert s; induction n as [|n IH]; intros s; simpl; constructor; auto.
  apply Forall_forall. intros x Hx. apply in_seq in Hx. lia.
Qed.

Lemma filter_sorted {A} (R : A -> A -> Prop) (f : A -> bool) l : StronglySorted R l -> StronglySorted R (filter f l).
Proof.
  induction 1 as [|a l H IH F]; simpl; [constructor|]. destruct (f a); auto. constructor; auto.
  rewrite Forall_forall in *. intros x Hx. apply filter_In in Hx. apply F. tauto.
Qed.

Lemma sel_sorted n P : StronglySorted lt (sel n P).
Proof. apply filter_sorted, seq_sorted. Qed.

Lemma sorted_nodup l : StronglySorted lt l -> NoDup l.
Proof.
  induction 1 as [|a l H IH F]; constructor; auto. intros I. rewrite Forall_forall in F. specialize (F a I). lia.
Qed.

Lemma sorted_ext l1 l2 : StronglySorted lt l1 -> StronglySorted lt l2 -> (forall x, In x l1 <-> In x l2) -> l1 = l2.
Proof.
  revert l2; induction l1 as [|a l1 IH]; intros l2 S1 S2 H.
  - destruct l2 as [|b l2]; auto. exfalso. apply (H b). left; auto.
  - destruct l2 as [|b l2]. { exfalso. apply (H a). left; auto. }
    inversion S1 as [|? ? S1' F1]; subst. inversion S2 as [|? ? S2' F2]; subst.
    rewrite Forall_forall in F1, F2.
    assert (a = b).
    { destruct (proj1 (H a) (or_introl eq_refl)) as [E|E]; auto.
      destruct (proj2 (H b) (or_introl eq_refl)) as [E'|E']; auto.
      specialize (F1 _ E'). specialize (F2 _ E). lia. }
    subst b. f_equal. apply IH; auto. intros x. split; intros Hx.
    + destruct (proj1 (H x) (or_intror Hx)) as [E|E]; auto. subst. specialize (F1 _ Hx). lia.
    + destruct (proj2 (H x) (or_intror Hx)) as [E|E]; auto. subst. specialize (F2 _ Hx). lia.
Qed.

Lemma sel_unique n P l : StronglySorted lt l -> (forall x, In x l <-> x < n /\ P x = true) -> sel n P = l.
Proof. intros S H. apply sorted_ext; auto using sel_sorted. intros x. rewrite sel_in. symmetry. apply H. Qed.

(** ** count *)
Lemma pad_cover_bit n k : N.testbit (pad_cover n) k = (k <? 64)%N && ((n mod 64 =? 0) || (64 - N.of_nat (n mod 64) <=? k)%N).
Proof.
  unfold pad_cover, shl64. rewrite two64_pow.
  pose proof (Nat.mod_upper_bound n 64 ltac:(lia)) as B.
  destruct (N.ltb_spec k 64) as [L|L]; cbn [andb].
  2: { apply N.mod_pow2_bits_high. auto. }
  rewrite N.mod_pow2_bits_low by auto.
  destruct (Nat.eqb_spec (n mod 64) 0) as [E|E].
  - rewrite E. change (N.modulo (N.of_nat (64 - 0)) 64) with 0%N. cbn [orb]. rewrite N.shiftl_0_r, ones_bit. apply N.ltb_lt. auto.
  - replace (N.modulo (N.of_nat (64 - n mod 64)) 64) with (64 - N.of_nat (n mod 64))%N by (rewrite N.mod_small by lia; lia).
    cbn [orb]. destruct (N.leb_spec (64 - N.of_nat (n mod 64)) k) as [H|H].
    + rewrite N.shiftl_spec_high' by auto. rewrite ones_bit. apply N.ltb_lt. lia.
    + apply N.shiftl_spec_low. auto.
Qed.

Lemma trim_word m off n P d :
  memok m -> rep m off n P -> words n = S d ->
  N.land (nth (off + d) m 0%N) (pad_cover n) = nth (off + d) m 0%N.
Proof.
  intros Hm [HL HB] Hd. apply N.bits_inj. intros k. rewrite N.land_spec.
  destruct (N.testbit (nth (off + d) m 0%N) k) eqn:E; auto. cbn [andb]. rewrite pad_cover_bit.
  destruct (N.lt_ge_cases k 64) as [L|L].
  2: { rewrite (proj1 (lt64_bits _) (memok_nth m (off + d) Hm) k L) in E. discriminate. }
  replace (k <? 64)%N with true by (symmetry; apply N.ltb_lt; auto). cbn [andb].
  destruct (Nat.eqb_spec (n mod 64) 0) as [Z|Z]; auto. cbn [orb]. apply N.leb_le.
  set (x := 64 * d + (63 - N.to_nat k)).
  assert (Hx1 : x / 64 = d) by (symmetry; apply Nat.div_unique with (r := 63 - N.to_nat k); lia).
  assert (Hx2 : x mod 64 = 63 - N.to_nat k) by (symmetry; apply Nat.mod_unique with (q := d); lia).
  specialize (HB x). unfold wbit in HB. rewrite Hx1, Hx2 in HB.
  replace (N.of_nat (63 - (63 - N.to_nat k))) with k in HB by lia. rewrite E in HB.
  specialize (HB ltac:(rewrite Hd; unfold x; lia)). symmetry in HB. apply andb_prop in HB. destruct HB as [HB _]. apply Nat.ltb_lt in HB.
  pose proof (words_bounds n). pose proof (Nat.div_mod n 64 ltac:(lia)). pose proof (Nat.mod_upper_bound n 64 ltac:(lia)).
  assert (n / 64 = d) by nia. unfold x in HB. lia.
Qed.

Lemma bits_trim_id m off n P : memok m -> rep m off n P -> 0 < n -> bits_trim m (refer_from off n) = Ok m.
Proof.
  intros Hm HP Hn. unfold bits_trim. cbn [glen gdata gpad refer_from].
  destruct (words n) as [|d] eqn:E. { pose proof (words_pos n Hn). lia. }
  pose proof HP as [HL _].
  rewrite (rd_some m (off + d) (nth (off + d) m 0%N)) by (apply nth_error_nth'; lia). cbn [bind].
  rewrite (trim_word m off n P d) by auto.
  rewrite wr_ok by lia. rewrite upd_same; auto. apply nth_error_nth'. lia.
Qed.

Lemma filter_rev_len {A} (f : A -> bool) l : length (filter f (rev l)) = length (filter f l).
Proof.
  induction l as [|a l IH]; simpl; auto. rewrite filter_app, app_length, IH. simpl.
  destruct (f a); simpl; lia.
Qed.

Lemma popn_pos w : popn 64 w = length (filter (fun i => N.testbit w (N.of_nat (63 - i))) (seq 0 64)).
Proof.
  unfold popn. rewrite <- (filter_map_len (fun k => N.testbit w (N.of_nat k)) (fun i => 63 - i)).
  replace (map (fun i => 63 - i) (seq 0 64)) with (rev (seq 0 64)) by reflexivity.
  rewrite filter_rev_len. auto.
Qed.

Lemma filter_seq_shift f s n : length (filter f (seq s n)) = length (filter (fun i => f (s + i)) (seq 0 n)).
Proof.
  rewrite <- (filter_map_len f (fun i => s + i)). f_equal. f_equal.
  induction n as [|n IH] using nat_ind; auto.
  rewrite !seq_S, map_app, <- IH. simpl. auto.
Qed.

Lemma count_words m off w : memok m ->
  length (filter (wbit m off) (seq 0 (64 * w))) =
  fold_left (fun c i => c + popn 64 (nth (off + i) m 0%N)) (seq 0 w) 0.
Proof.
  intros Hm. induction w as [|w IH]; auto.
  replace (64 * S w) with (64 * w + 64) by lia. rewrite seq_app, filter_app, app_length, IH.
  rewrite (seq_S w 0), fold_left_app. cbn [fold_left]. apply Nat.add_cancel_l. rewrite (Nat.add_0_l (64 * w)), (Nat.add_0_l w).
  rewrite popn_pos, filter_seq_shift. apply (f_equal (@length nat)). apply filter_ext_in. intros i Hi. apply in_seq in Hi.
  unfold wbit.
  replace ((64 * w + i) / 64) with w by (apply Nat.div_unique with (r := i); lia).
  replace ((64 * w + i) mod 64) with i by (apply Nat.mod_unique with (q := w); lia). auto.
Qed.

Lemma rep_sel_len m off n P : rep m off n P -> length (filter (wbit m off) (seq 0 (64 * words n))) = length (sel n P).
Proof.
  intros [HL HB]. pose proof (words_bounds n). unfold sel.
  rewrite (filter_ext_in (wbit m off) (fun i => (i <? n) && P i)).
  2: { intros i Hi. apply in_seq in Hi. apply HB. lia. }
  replace (64 * words n) with (n + (64 * words n - n)) by lia.
  rewrite seq_app, filter_app, app_length.
  rewrite (filter_ext_in _ P (seq 0 n)).
  2: { intros i Hi. apply in_seq in Hi. replace (i <? n) with true; auto. symmetry; apply Nat.ltb_lt; lia. }
  rewrite (filter_ext_in _ (fun _ => false) (seq (0 + n) _)).
  2: { intros i Hi. apply in_seq in Hi. replace (i <? n) with false; auto. symmetry; apply Nat.ltb_ge; lia. }
  assert (E : forall (l : list nat), filter (fun _ => false) l = []) by (induction l; auto).
  rewrite E. simpl. lia.
Qed.

Lemma bits_count_spec m off n P b :
  memok m -> rep m off n P -> b = refer_from off n -> 0 < n -> bits_count m b = Ok (m, length (sel n P)).
Proof.
  intros Hm HP -> Hn. unfold bits_count. rewrite (bits_trim_id m off n P) by auto. cbn [bind glen gdata refer_from].
  unfold for_. pose proof HP as [HL HB].
  rewrite (foldM_pure _ (fun i c => c + popn 64 (nth (off + i) m 0%N))).
  - cbn [bind]. rewrite <- (rep_sel_len m off n P HP), count_words by auto.
    replace (words n - 0) with (words n) by lia. auto.
  - intros i c Hi. apply in_seq in Hi.
    rewrite (rd_some m (off + i) (nth (off + i) m 0%N)) by (apply nth_error_nth'; lia). cbn [bind].
    rewrite bitcount_spec by (apply memok_nth; auto). rewrite Nat2N.id. auto.
Qed.

(** ** decoding *)
Lemma upd_app_mid {A} (l : list A) a x r : upd (l ++ a :: r) (length l) x = l ++ x :: r.
Proof. induction l; simpl; congruence. Qed.

Lemma bits_subset_spec m off n P b elems base :
  memok m -> rep m off n P -> b = refer_from off n -> 0 < n -> base + n <= length elems ->
  bits_subset m b elems base = Ok (m, map (fun i => nth (base + i) elems 0) (sel n P)).
Proof.
  intros Hm HP -> Hn HE. unfold bits_subset. rewrite (bits_count_spec m off n P) by auto.
  cbn [bind glen refer_from].
  set (f := fun i => nth (base + i) elems 0).
  assert (G : wp (for_ 0 n (fun i '(ans, ct) =>
      x <- bits_get m (refer_from off n) i;;
      if (x : bool) then e <- rd elems (base + i);; ans <- wr ans ct e;; Ok (ans, S ct) else Ok (ans, ct))
      (repeat 0 (length (sel n P)), 0)) (fun r => fst r = map f (sel n P))).
  { apply wp_for with (I := fun i r =>
        snd r = length (filter P (seq 0 i)) /\
        fst r = map f (filter P (seq 0 i)) ++ repeat 0 (length (filter P (seq i (n - i))))); try lia.
    - simpl. replace (n - 0) with n by lia. auto.
    - intros i [ans ct] Hi [I1 I2]. simpl in I1, I2. rewrite (bits_get_spec m off n P) by (auto; lia). cbn [bind].
      rewrite seq_S, filter_app. simpl plus. cbn [filter].
      replace (n - i) with (S (n - S i)) in I2 by lia. cbn [seq filter] in I2.
      destruct (P i) eqn:Pi.
      + apply wp_bind. eapply wp_rd. { apply nth_error_Some_nth with (d := 0). lia. }
        apply wp_bind. cbn [length repeat] in I2. 
        assert (Hl : ct = length (map f (filter P (seq 0 i)))) by (rewrite map_length; auto).
        apply wp_wr. { rewrite I2, app_length. simpl. lia. }
        apply wp_ok. simpl. split.
        * rewrite app_length. simpl. lia.
        * rewrite I2, Hl, upd_app_mid, map_app, <- app_assoc. reflexivity.
      + apply wp_ok. simpl. rewrite app_nil_r. auto.
    - intros [ans ct] [I1 I2]. simpl in *. replace (n - n) with 0 in I2 by lia. simpl in I2.
      rewrite app_nil_r in I2. auto. }
  apply wp_iff in G. destruct G as ([ans ct] & E & H). simpl in H.
  rewrite E. cbn [bind]. rewrite H. auto.
Qed.

(** ** set algebra *)
Lemma bits_op_spec (f : N -> N -> N) (h : bool -> bool -> bool) m o1 o2 n P Q :
  (forall a b k, (a < two64)%N -> (b < two64)%N -> N.testbit (f a b) k = if (k <? 64)%N then h (N.testbit a k) (N.testbit b k) else false) ->
  h false false = false ->
  memok m -> rep m o1 n P -> rep m o2 n Q -> (o1 + words n <= o2 \/ o2 + words n <= o1) -> 0 < n ->
  wp (bits_op f m (refer_from o1 n) (refer_from o2 n))
     (fun m' => memok m' /\ rep m' o1 n (fun i => h (P i) (Q i)) /\ same_out m m' o1 (words n)).
Proof.
  intros Hf Hh Hm HP HQ HD Hn. unfold bits_op. cbn [glen gdata refer_from]. apply wp_bind.
  pose proof HP as [HPL HPB]. pose proof HQ as [HQL HQB].
  eapply wp_mono.
  { apply wp_for with (I := fun i m' => memok m' /\ same_out m m' o1 (words n)
         /\ (forall k, k < i -> nth (o1 + k) m' 0%N = f (nth (o1 + k) m 0%N) (nth (o2 + k) m 0%N))
         /\ forall k, i <= k -> nth (o1 + k) m' 0%N = nth (o1 + k) m 0%N)
      (Q := fun m' => memok m' /\ same_out m m' o1 (words n)
         /\ forall k, k < words n -> nth (o1 + k) m' 0%N = f (nth (o1 + k) m 0%N) (nth (o2 + k) m 0%N)); auto; try lia.
    - repeat split; auto. intros; lia.
    - intros i m' Hi (H1 & [H2 H2'] & H3 & H4). apply wp_bind.
      eapply wp_rd. { apply nth_error_Some_nth with (d := 0%N). lia. }
      apply wp_bind. eapply wp_rd. { apply nth_error_Some_nth with (d := 0%N). lia. }
      apply wp_wr; [lia|]. rewrite H4 by lia. rewrite (H2' (o2 + i)) by lia. split; [|split; [|split]].
      + apply memok_upd; auto. apply lt64_bits. intros k Hk. rewrite Hf by (apply memok_nth; auto).
        replace (k <? 64)%N with false; auto. symmetry. apply N.ltb_ge. auto.
      + eapply same_out_trans; [split; eauto|]. apply same_out_upd. lia.
      + intros k Hk. rewrite nth_upd. destruct (Nat.eqb_spec (o1 + i) (o1 + k)) as [E|E].
        * assert (i = k) by lia. subst k. replace (o1 + i <? length m') with true by (symmetry; apply Nat.ltb_lt; lia). auto.
        * simpl. apply H3. lia.
      + intros k Hk. rewrite nth_upd. destruct (Nat.eqb_spec (o1 + i) (o1 + k)) as [E|E]; [lia|].
        simpl. apply H4. lia.
    - intros m' (H1 & H2 & H3 & _). auto. }
  intros m' (H1 & H2 & H3).
  assert (R : rep m' o1 n (fun i => h (P i) (Q i))).
  { split. { destruct H2; lia. } intros i Hi. unfold wbit. rewrite H3 by (apply words_lt64; auto). rewrite Hf by (apply memok_nth; auto).
    replace (pos i <? 64)%N with true by (symmetry; apply N.ltb_lt; lia).
    fold (wbit m o1 i). fold (wbit m o2 i). rewrite HPB, HQB by auto. destruct (i <? n); simpl; auto. }
  rewrite (bits_trim_id m' o1 n _ H1 R Hn). apply wp_ok. auto.
Qed.
