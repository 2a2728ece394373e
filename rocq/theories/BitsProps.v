(** BitsProps: lemmas behind the theorems of P_Bits. *)
From Verif Require Import Base BaseFacts MBits BitsFacts SetFacts MUtils FindFacts SortFacts RadixFacts.
From Coq Require Import Sorting.Sorted.
Local Open Scope nat_scope.

Lemma lt64_high a k : (a < two64)%N -> (k <? 64)%N = false -> N.testbit a k = false.
Proof. intros H E. apply N.ltb_ge in E. apply (proj1 (lt64_bits a) H). auto. Qed.

Lemma bits_and_spec m o1 o2 n P Q :
  memok m -> rep m o1 n P -> rep m o2 n Q -> (o1 + words n <= o2 \/ o2 + words n <= o1) -> 0 < n ->
  wp (bits_and m (refer_from o1 n) (refer_from o2 n))
     (fun m' => memok m' /\ rep m' o1 n (fun i => P i && Q i) /\ same_out m m' o1 (words n)).
Proof.
  intros. apply (bits_op_spec N.land andb); auto. intros a b k Ha Hb. rewrite N.land_spec.
  destruct (k <? 64)%N eqn:E; auto. rewrite lt64_high; auto.
Qed.

Lemma bits_or_spec m o1 o2 n P Q :
  memok m -> rep m o1 n P -> rep m o2 n Q -> (o1 + words n <= o2 \/ o2 + words n <= o1) -> 0 < n ->
  wp (bits_or m (refer_from o1 n) (refer_from o2 n))
     (fun m' => memok m' /\ rep m' o1 n (fun i => P i || Q i) /\ same_out m m' o1 (words n)).
Proof.
  intros. apply (bits_op_spec N.lor orb); auto. intros a b k Ha Hb. rewrite N.lor_spec.
  destruct (k <? 64)%N eqn:E; auto. rewrite !lt64_high; auto.
Qed.

Lemma bits_xor_spec m o1 o2 n P Q :
  memok m -> rep m o1 n P -> rep m o2 n Q -> (o1 + words n <= o2 \/ o2 + words n <= o1) -> 0 < n ->
  wp (bits_xor m (refer_from o1 n) (refer_from o2 n))
     (fun m' => memok m' /\ rep m' o1 n (fun i => xorb (P i) (Q i)) /\ same_out m m' o1 (words n)).
Proof.
  intros. apply (bits_op_spec N.lxor xorb); auto. intros a b k Ha Hb. rewrite N.lxor_spec.
  destruct (k <? 64)%N eqn:E; auto. rewrite !lt64_high; auto.
Qed.

Lemma bits_minus_spec m o1 o2 n P Q :
  memok m -> rep m o1 n P -> rep m o2 n Q -> (o1 + words n <= o2 \/ o2 + words n <= o1) -> 0 < n ->
  wp (bits_minus m (refer_from o1 n) (refer_from o2 n))
     (fun m' => memok m' /\ rep m' o1 n (fun i => P i && negb (Q i)) /\ same_out m m' o1 (words n)).
Proof.
  intros. apply (bits_op_spec _ (fun a b => a && negb b)); auto. intros a b k Ha Hb.
  rewrite N.land_spec, N.lxor_spec, ones_bit. destruct (k <? 64)%N eqn:E.
  - destruct (N.testbit b k); auto.
  - rewrite lt64_high; auto.
Qed.

Lemma pad_cover_strict_spec n : pad_cover_strict n = if n mod 64 =? 0 then None else Some (pad_cover n).
Proof.
  unfold pad_cover_strict, pad_cover, shl64. pose proof (Nat.mod_upper_bound n 64 ltac:(lia)).
  destruct (Nat.eqb_spec (n mod 64) 0) as [E|E].
  - rewrite E. auto.
  - replace (64 - n mod 64 <? 64) with true by (symmetry; apply Nat.ltb_lt; lia).
    rewrite (N.mod_small (N.of_nat (64 - n mod 64)) 64) by lia. auto.
Qed.

(** The slice [l[base .. base + n)] as a list. *)
Lemma slice_increasing l base n : base + n <= length l -> StronglySorted lt (firstn n (skipn base l)) -> increasing l base n.
Proof.
  intros HL HS i j Hij.
  assert (E : forall k, k < n -> nth (base + k) l 0 = nth k (firstn n (skipn base l)) 0).
  { intros k Hk. rewrite <- (firstn_skipn base l) at 1. rewrite app_nth2 by (rewrite firstn_length; lia).
    rewrite firstn_length. replace (base + k - Nat.min base (length l)) with k by lia.
    rewrite <- (firstn_skipn n (skipn base l)) at 1. rewrite app_nth1; auto. rewrite firstn_length, skipn_length. lia. }
  rewrite !E by lia. assert (HJ : j < length (firstn n (skipn base l))) by (rewrite firstn_length, skipn_length; lia).
  clear E HL. destruct Hij as [Hij _]. revert i j Hij HJ. induction HS as [|x s HS IH F]; intros i j Hij HJ; simpl in HJ; [lia|].
  destruct j as [|j]; [lia|]. destruct i as [|i]; simpl.
  - rewrite Forall_forall in F. apply F. apply nth_In. lia.
  - apply IH; lia.
Qed.

Lemma find_exact l base n val : 0 < n -> base + n <= length l -> (Z.of_nat (length l) < 2 ^ 63)%Z ->
  StronglySorted lt (firstn n (skipn base l)) ->
  wp (binary_find l (Z.of_nat base) (Z.of_nat n) val)
     (fun r => (fst r = true <-> In val (firstn n (skipn base l)))
        /\ exists k, snd r = Z.of_nat k /\ k < n /\ (fst r = true -> nth (base + k) l 0 = val)
           /\ forall i, i < k -> nth (base + i) l 0 < val).
Proof.
  intros Hn HL HZ HS. eapply wp_mono. { apply binary_find_spec; auto. apply slice_increasing; auto. }
  intros [b z] (k & Ez & Hk & H1 & H2 & H3). cbn [fst snd] in *.
  assert (E : forall k, k < n -> nth k (firstn n (skipn base l)) 0 = nth (base + k) l 0).
  { intros q Hq. rewrite <- (firstn_skipn base l) at 2. rewrite app_nth2 by (rewrite firstn_length; lia).
    rewrite firstn_length. replace (base + q - Nat.min base (length l)) with q by lia.
    rewrite <- (firstn_skipn n (skipn base l)) at 2. rewrite app_nth1; auto. rewrite firstn_length, skipn_length. lia. }
  assert (LL : length (firstn n (skipn base l)) = n) by (rewrite firstn_length, skipn_length; lia).
  split; [|exists k; auto]. split.
  - intros Eb. rewrite <- (H2 Eb), <- E by auto. apply nth_In. lia.
  - intros HI. destruct b; auto. exfalso. apply (In_nth _ _ 0) in HI. destruct HI as (i & Hi & Ei).
    rewrite LL in Hi. rewrite E in Ei by auto. apply (H3 eq_refl i); auto.
Qed.

Lemma find_resume l base n val s : 0 < n -> base + n <= length l -> (Z.of_nat (length l) < 2 ^ 63)%Z ->
  StronglySorted lt (firstn n (skipn base l)) ->
  s <= n -> (forall i, i < s -> nth (base + i) l 0 < val) ->
  wp (binary_find l (wrap (Z.of_nat base + Z.of_nat s)) (wrap (Z.of_nat n - Z.of_nat s)) val)
     (fun r => (fst r = true <-> In val (firstn n (skipn base l)))
        /\ exists s', wrap (Z.of_nat s + snd r) = Z.of_nat s' /\ s' < n /\ forall i, i < s' -> nth (base + i) l 0 < val).
Proof.
  intros Hn HL HZ HS Hs Hlt. eapply wp_mono. { apply bf_resume; eauto. apply slice_increasing; auto. }
  intros [b z] (k & Ez & Hk & H1 & H2 & H3). cbn [fst snd] in *.
  assert (E : forall k, k < n -> nth k (firstn n (skipn base l)) 0 = nth (base + k) l 0).
  { intros q Hq. rewrite <- (firstn_skipn base l) at 2. rewrite app_nth2 by (rewrite firstn_length; lia).
    rewrite firstn_length. replace (base + q - Nat.min base (length l)) with q by lia.
    rewrite <- (firstn_skipn n (skipn base l)) at 2. rewrite app_nth1; auto. rewrite firstn_length, skipn_length. lia. }
  assert (LL : length (firstn n (skipn base l)) = n) by (rewrite firstn_length, skipn_length; lia).
  split; [|exists k; auto]. split.
  - intros Eb. destruct (H2 Eb) as (i & Hi & Ei). rewrite <- Ei, <- E by auto. apply nth_In. lia.
  - intros HI. destruct b; auto. exfalso. apply (In_nth _ _ 0) in HI. destruct HI as (i & Hi & Ei).
    rewrite LL in Hi. rewrite E in Ei by auto. apply (H3 eq_refl i); auto.
Qed.

(** clear(k): the words up to the one of position k, or all words if k is 0. *)
Lemma bits_clear_any m off n P b k :
  memok m -> rep m off n P -> b = refer_from off n ->
  wp (bits_clear m b k)
     (fun m' => memok m' /\ rep m' off n (fun x => negb (k =? 0) && (k / 64 <? x / 64) && P x) /\ same_out m m' off (words n)).
Proof.
  intros Hm [HL HP] ->. unfold bits_clear. cbn [glen gdata refer_from].
  set (cl := if (k =? 0) || (words n <? 1 + k / 64) then words n else 1 + k / 64).
  assert (Hcl : cl <= words n).
  { unfold cl. destruct (Nat.eqb_spec k 0); cbn [orb]; [lia|]. destruct (Nat.ltb_spec (words n) (1 + k / 64)); lia. }
  eapply wp_mono. { apply wp_zero_words; auto. lia. }
  intros m' (H1 & H2 & H3). split; [auto|]. split; [|eapply same_out_weaken; eauto; lia].
  destruct H2 as [H2 H2']. split; [lia|]. intros i Hi. pose proof (words_lt64 n i Hi) as Hw.
  assert (HC : (i / 64 < cl) <-> negb (k =? 0) && (k / 64 <? i / 64) = false).
  { unfold cl. destruct (Nat.eqb_spec k 0) as [E|E]; cbn [orb negb andb]. { split; auto. }
    destruct (Nat.ltb_spec (words n) (1 + k / 64)); destruct (Nat.ltb_spec (k / 64) (i / 64)); split; intros; auto; try lia; discriminate. }
  unfold wbit. destruct (Nat.lt_ge_cases (i / 64) cl) as [L|L].
  - rewrite H3 by lia. rewrite N.bits_0. rewrite (proj1 HC L). cbn [andb]. symmetry. apply andb_false_r.
  - rewrite H2' by lia. specialize (HP i Hi). unfold wbit in HP. rewrite HP.
    destruct (negb (k =? 0) && (k / 64 <? i / 64)) eqn:E; [reflexivity|]. pose proof (proj2 HC eq_refl). lia.
Qed.

Lemma bits_block_empty_spec m off n P b i :
  memok m -> rep m off n P -> gdata b = off -> i < n ->
  wp (bits_block_empty m b i) (fun r => r = true <-> forall x, x < n -> x / 64 = i / 64 -> P x = false).
Proof.
  intros Hm [HL HP] Hb Hi. unfold bits_block_empty. rewrite Hb.
  pose proof (words_lt n i Hi) as Hw.
  apply wp_bind. eapply wp_rd. { apply nth_error_Some_nth with (d := 0%N). lia. }
  apply wp_ok. rewrite N.eqb_eq. split.
  - intros E x Hx Ex. pose proof (words_lt n x Hx) as Hxw.
    assert (Hx64 : x < 64 * words n). { pose proof (Nat.div_mod x 64 ltac:(lia)). pose proof (Nat.mod_upper_bound x 64 ltac:(lia)). lia. }
    specialize (HP x Hx64). unfold wbit in HP. rewrite Ex, E, N.bits_0 in HP.
    replace (x <? n) with true in HP by (symmetry; apply Nat.ltb_lt; lia). cbn [andb] in HP. auto.
  - intros H. apply N.bits_inj_0. intros c. destruct (N.lt_ge_cases c 64) as [L|L].
    + set (x := 64 * (i / 64) + (63 - N.to_nat c)).
      assert (Ex : x / 64 = i / 64) by (symmetry; apply Nat.div_unique with (r := 63 - N.to_nat c); unfold x; lia).
      assert (Em : x mod 64 = 63 - N.to_nat c) by (symmetry; apply Nat.mod_unique with (q := i / 64); unfold x; lia).
      assert (Hx64 : x < 64 * words n) by (unfold x; lia).
      specialize (HP x Hx64). unfold wbit in HP. rewrite Ex, Em in HP.
      replace (N.of_nat (63 - (63 - N.to_nat c))) with c in HP by lia. rewrite HP.
      destruct (Nat.ltb_spec x n); cbn [andb]; auto.
    + apply (proj1 (lt64_bits _) (memok_nth m (off + i / 64) Hm)). auto.
Qed.
