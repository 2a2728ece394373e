(** BitsFacts: what the graphBits operations do, in terms of the set of positions a block of words represents. *)
From Verif Require Import Base BaseFacts MBits.
From Verif Require Export SpecBits.
Local Open Scope nat_scope.
Local Arguments Nat.sub : simpl never.
Local Arguments Nat.mul : simpl never.

(** * words *)
Lemma words_spec n : words n = (n + 63) / 64.
Proof.
  unfold words. pose proof (Nat.div_mod n 64 ltac:(lia)) as E.
  pose proof (Nat.mod_upper_bound n 64 ltac:(lia)).
  destruct (Nat.eqb_spec (n mod 64) 0) as [H0|H0].
  - apply Nat.div_unique with (r := 63); lia.
  - apply Nat.div_unique with (r := n mod 64 - 1); lia.
Qed.

Lemma words_bounds n : n <= 64 * words n < n + 64.
Proof.
  rewrite words_spec. pose proof (Nat.div_mod (n + 63) 64 ltac:(lia)).
  pose proof (Nat.mod_upper_bound (n + 63) 64 ltac:(lia)). lia.
Qed.

Lemma words_lt n i : i < n -> i / 64 < words n.
Proof.
  intros H. pose proof (words_bounds n). apply Nat.div_lt_upper_bound; lia.
Qed.

Lemma words_lt64 n i : i < 64 * words n -> i / 64 < words n.
Proof. intros H. apply Nat.div_lt_upper_bound; lia. Qed.

Lemma words_mono n m : n <= m -> words n <= words m.
Proof. intros H. rewrite !words_spec. apply Nat.div_le_mono; lia. Qed.

Lemma words_le n : words n <= n.
Proof. pose proof (words_bounds n). lia. Qed.

Lemma words_pos n : 0 < n -> 0 < words n.
Proof. pose proof (words_bounds n). lia. Qed.

Lemma words_small n : 0 < n <= 64 -> words n = 1.
Proof. pose proof (words_bounds n). lia. Qed.

(** * Words as sets of bits *)
Lemma two64_pow : two64 = (2 ^ 64)%N. Proof. reflexivity. Qed.
Lemma ALL_ONES_ones : ALL_ONES = N.ones 64. Proof. reflexivity. Qed.

Lemma lt64_bits w : (w < two64)%N <-> forall k, (64 <= k)%N -> N.testbit w k = false.
Proof.
  rewrite two64_pow. split.
  - intros H k Hk. destruct (N.eq_dec w 0) as [->|Hw]; [apply N.bits_0|].
    apply N.bits_above_log2. apply N.log2_lt_pow2; try lia.
    eapply N.lt_le_trans; [exact H|]. apply N.pow_le_mono_r; lia.
  - intros H. destruct (N.eq_dec w 0) as [->|Hw]; [reflexivity|].
    apply N.log2_lt_pow2; [lia|]. destruct (N.lt_ge_cases (N.log2 w) 64) as [L|L]; auto.
    specialize (H _ L). rewrite N.bit_log2 in H by auto. discriminate.
Qed.

Lemma bmask_eq i : bmask i = (2 ^ N.of_nat (63 - i mod 64))%N.
Proof.
  unfold bmask. change MSB_64 with (2 ^ 63)%N. rewrite N.shiftr_div_pow2.
  pose proof (Nat.mod_upper_bound i 64 ltac:(lia)).
  rewrite <- N.pow_sub_r by (try discriminate; lia). f_equal. lia.
Qed.

Lemma bmask_bit i k : N.testbit (bmask i) k = (k =? N.of_nat (63 - i mod 64))%N.
Proof. rewrite bmask_eq, N.pow2_bits_eqb. apply N.eqb_sym. Qed.

Lemma ones_bit k : N.testbit ALL_ONES k = (k <? 64)%N.
Proof.
  rewrite ALL_ONES_ones. destruct (N.ltb_spec k 64).
  - apply N.ones_spec_low; auto.
  - apply N.ones_spec_high; auto.
Qed.

Lemma pos_lt x : (pos x < 64)%N.
Proof. lia. Qed.

Lemma pos_inj x y : x / 64 = y / 64 -> pos x = pos y -> x = y.
Proof.
  intros H1 H2. pose proof (Nat.div_mod x 64 ltac:(lia)). pose proof (Nat.div_mod y 64 ltac:(lia)).
  pose proof (Nat.mod_upper_bound x 64 ltac:(lia)). pose proof (Nat.mod_upper_bound y 64 ltac:(lia)).
  lia.
Qed.

(** * Memory *)
Lemma memok_nth m k : memok m -> (nth k m 0 < two64)%N.
Proof.
  intros H. destruct (Nat.lt_ge_cases k (length m)).
  - unfold memok in H. rewrite Forall_forall in H. apply H. apply nth_In; auto.
  - rewrite nth_overflow by auto. reflexivity.
Qed.

Lemma memok_upd m k w : memok m -> (w < two64)%N -> memok (upd m k w).
Proof.
  intros H Hw. unfold memok in *. rewrite Forall_forall in *. intros x Hx.
  apply In_nth_error in Hx. destruct Hx as [j Hj]. rewrite nth_error_upd in Hj.
  destruct ((k =? j) && (j <? length m)).
  - congruence.
  - apply H. eapply nth_error_In; eauto.
Qed.

Lemma same_out_refl m off w : same_out m m off w.
Proof. split; auto. Qed.

Lemma same_out_trans m1 m2 m3 off w : same_out m1 m2 off w -> same_out m2 m3 off w -> same_out m1 m3 off w.
Proof. intros [L1 H1] [L2 H2]. split; [congruence|]. intros k Hk. rewrite H2, H1; auto. Qed.

Lemma same_out_weaken m m' off w off' w' :
  same_out m m' off w -> off' <= off -> off + w <= off' + w' -> same_out m m' off' w'.
Proof. intros [L H] ? ?. split; auto. intros k Hk. apply H. lia. Qed.

Lemma same_out_upd m off w k x : off <= k < off + w -> same_out m (upd m k x) off w.
Proof.
  intros H. split; [apply upd_length|]. intros j Hj. rewrite nth_upd.
  destruct (Nat.eqb_spec k j); simpl; auto. lia.
Qed.

Lemma rep_ext m off n P Q : rep m off n P -> (forall i, i < n -> P i = Q i) -> rep m off n Q.
Proof.
  intros [H1 H2] E. split; auto. intros i Hi. rewrite H2 by auto.
  destruct (Nat.ltb_spec i n); simpl; auto.
Qed.

Lemma rep_frame m m' off n P off' w' :
  rep m off n P -> same_out m m' off' w' -> (off + words n <= off' \/ off' + w' <= off) -> rep m' off n P.
Proof.
  intros [H1 H2] [L H3] D. split; [lia|]. intros i Hi. rewrite <- H2 by auto. unfold wbit.
  pose proof (words_lt64 n i Hi). rewrite H3; auto. lia.
Qed.

Lemma rep_get m off n P i : rep m off n P -> i < n -> wbit m off i = P i.
Proof.
  intros [H1 H2] Hi. rewrite H2.
  - apply Nat.ltb_lt in Hi. rewrite Hi. auto.
  - pose proof (words_bounds n). lia.
Qed.

Lemma wbit_upd m off k x i :
  k < length m ->
  wbit (upd m k x) off i = if k =? off + i / 64 then N.testbit x (pos i) else wbit m off i.
Proof.
  intros Hk. unfold wbit. rewrite nth_upd. destruct (Nat.eqb_spec k (off + i / 64)); simpl; auto.
  rewrite <- e. apply Nat.ltb_lt in Hk. rewrite Hk. auto.
Qed.

(** ** set / reset / get *)
Lemma bits_set_spec m off n P b i :
  memok m -> rep m off n P -> gdata b = off -> i < n ->
  wp (bits_set m b i) (fun m' => memok m' /\ rep m' off n (fun x => (x =? i) || P x) /\ same_out m m' off (words n)).
Proof.
  intros Hm HP Hb Hi. unfold bits_set. rewrite Hb.
  pose proof (words_lt n i Hi) as Hw. pose proof HP as [HL HB].
  assert (Hk : off + i / 64 < length m) by lia.
  apply wp_bind. eapply wp_rd. { apply nth_error_Some_nth with (d := 0%N). auto. }
  apply wp_wr; auto. split; [|split].
  - apply memok_upd; auto. apply lt64_bits. intros k Hk64.
    rewrite N.lor_spec, bmask_bit.
    pose proof (proj1 (lt64_bits _) (memok_nth m (off + i / 64) Hm) k Hk64) as E. rewrite E. simpl.
    apply N.eqb_neq. lia.
  - split; [rewrite upd_length; lia|]. intros x Hx. rewrite wbit_upd by auto.
    pose proof (words_lt64 n x Hx) as Hxw.
    destruct (Nat.eqb_spec (off + i / 64) (off + x / 64)) as [E|E].
    + rewrite N.lor_spec, bmask_bit. assert (E' : i / 64 = x / 64) by lia. rewrite E'.
      fold (wbit m off x). rewrite HB by auto.
      destruct (Nat.eqb_spec x i) as [->|Hne].
      * rewrite N.eqb_refl, orb_true_r. apply Nat.ltb_lt in Hi. rewrite Hi. auto.
      * replace (pos x =? pos i)%N with false; [rewrite orb_false_r; auto|].
        symmetry. apply N.eqb_neq. intros Hp. apply Hne. apply pos_inj; auto.
    + rewrite HB by auto. destruct (Nat.eqb_spec x i); subst; auto. lia.
  - apply same_out_upd. lia.
Qed.

Lemma bits_reset_spec m off n P b i :
  memok m -> rep m off n P -> gdata b = off -> i < n ->
  wp (bits_reset m b i) (fun m' => memok m' /\ rep m' off n (fun x => negb (x =? i) && P x) /\ same_out m m' off (words n)).
Proof.
  intros Hm HP Hb Hi. unfold bits_reset. rewrite Hb.
  pose proof (words_lt n i Hi) as Hw. pose proof HP as [HL HB].
  assert (Hk : off + i / 64 < length m) by lia.
  apply wp_bind. eapply wp_rd. { apply nth_error_Some_nth with (d := 0%N). auto. }
  apply wp_wr; auto. split; [|split].
  - apply memok_upd; auto. apply lt64_bits. intros k Hk64.
    rewrite N.land_spec.
    pose proof (proj1 (lt64_bits _) (memok_nth m (off + i / 64) Hm) k Hk64) as E. rewrite E. auto.
  - split; [rewrite upd_length; lia|]. intros x Hx. rewrite wbit_upd by auto.
    pose proof (words_lt64 n x Hx) as Hxw.
    destruct (Nat.eqb_spec (off + i / 64) (off + x / 64)) as [E|E].
    + rewrite N.land_spec, N.lxor_spec, bmask_bit, ones_bit. assert (E' : i / 64 = x / 64) by lia. rewrite E'.
      fold (wbit m off x). rewrite HB by auto.
      replace (pos x <? 64)%N with true by (symmetry; apply N.ltb_lt; apply pos_lt).
      destruct (Nat.eqb_spec x i) as [->|Hne].
      * rewrite N.eqb_refl. simpl. rewrite !andb_false_r. auto.
      * replace (pos x =? pos i)%N with false; simpl.
        { rewrite andb_true_r. auto. }
        symmetry. apply N.eqb_neq. intros Hp. apply Hne. apply pos_inj; auto.
    + rewrite HB by auto. destruct (Nat.eqb_spec x i); subst; auto. lia.
  - apply same_out_upd. lia.
Qed.

Lemma bits_toggle_spec m off n P b i :
  memok m -> rep m off n P -> gdata b = off -> i < n ->
  wp (bits_toggle m b i) (fun m' => memok m' /\ rep m' off n (fun x => xorb (x =? i) (P x)) /\ same_out m m' off (words n)).
Proof.
  intros Hm HP Hb Hi. unfold bits_toggle. rewrite Hb.
  pose proof (words_lt n i Hi) as Hw. pose proof HP as [HL HB].
  assert (Hk : off + i / 64 < length m) by lia.
  apply wp_bind. eapply wp_rd. { apply nth_error_Some_nth with (d := 0%N). auto. }
  apply wp_wr; auto. split; [|split].
  - apply memok_upd; auto. apply lt64_bits. intros k Hk64.
    rewrite N.lxor_spec, bmask_bit.
    pose proof (proj1 (lt64_bits _) (memok_nth m (off + i / 64) Hm) k Hk64) as E. rewrite E, xorb_false_l.
    apply N.eqb_neq. lia.
  - split; [rewrite upd_length; lia|]. intros x Hx. rewrite wbit_upd by auto.
    pose proof (words_lt64 n x Hx) as Hxw.
    destruct (Nat.eqb_spec (off + i / 64) (off + x / 64)) as [E|E].
    + rewrite N.lxor_spec, bmask_bit. assert (E' : i / 64 = x / 64) by lia. rewrite E'.
      fold (wbit m off x). rewrite HB by auto.
      destruct (Nat.eqb_spec x i) as [->|Hne].
      * rewrite N.eqb_refl. apply Nat.ltb_lt in Hi. rewrite Hi. simpl. destruct (P i); auto.
      * replace (pos x =? pos i)%N with false; [rewrite xorb_false_r, xorb_false_l; auto|].
        symmetry. apply N.eqb_neq. intros Hp. apply Hne. apply pos_inj; auto.
    + rewrite HB by auto. destruct (Nat.eqb_spec x i); subst; auto; [lia|]. rewrite xorb_false_l. auto.
  - apply same_out_upd. lia.
Qed.

Lemma land_bmask w i : negb (N.eqb (N.land w (bmask i)) 0) = N.testbit w (pos i).
Proof.
  destruct (N.testbit w (pos i)) eqn:E.
  - apply negb_true_iff. apply N.eqb_neq. intros H.
    assert (F : N.testbit (N.land w (bmask i)) (pos i) = false) by (rewrite H; apply N.bits_0).
    rewrite N.land_spec, bmask_bit, E, N.eqb_refl in F. discriminate.
  - apply negb_false_iff. apply N.eqb_eq. apply N.bits_inj_0. intros k.
    rewrite N.land_spec, bmask_bit. destruct (N.eqb_spec k (pos i)) as [->|]; [rewrite E|]; auto.
    apply andb_false_r.
Qed.

Lemma bits_get_spec m off n P b i :
  rep m off n P -> gdata b = off -> i < n -> bits_get m b i = Ok (P i).
Proof.
  intros HP Hb Hi. unfold bits_get. rewrite Hb.
  pose proof (words_lt n i Hi) as Hw. pose proof HP as [HL HB].
  rewrite (rd_some m (off + i / 64) (nth (off + i / 64) m 0%N)) by (apply nth_error_nth'; lia).
  simpl. rewrite land_bmask. fold (wbit m off i). rewrite (rep_get m off n P); auto.
Qed.

(** ** next *)
Lemma shiftr_ones_bit i k : N.testbit (N.shiftr ALL_ONES (N.of_nat (i mod 64))) k = (k <=? pos i)%N.
Proof.
  rewrite N.shiftr_spec', ones_bit. pose proof (Nat.mod_upper_bound i 64 ltac:(lia)).
  destruct (N.ltb_spec (k + N.of_nat (i mod 64)) 64), (N.leb_spec k (pos i)); auto; lia.
Qed.

Lemma bits_next_spec m off n P b i :
  memok m -> rep m off n P -> b = refer_from off n ->
  wp (bits_next m b i)
     (fun r => (i <= r < n /\ P r = true /\ forall x, i <= x < r -> P x = false)
               \/ (r = n /\ forall x, i <= x < n -> P x = false)).
Proof.
  intros Hm HP ->. unfold bits_next. simpl glen.
  assert (G : forall fuel i, 1 <= fuel -> n / 64 + 1 < fuel + i / 64 ->
    wp (bits_next_f fuel m (refer_from off n) i)
     (fun r => (i <= r < n /\ P r = true /\ forall x, i <= x < r -> P x = false)
               \/ (r = n /\ forall x, i <= x < n -> P x = false))).
  { clear i. induction fuel as [|f IH]; intros i Hf1 Hf; [lia|].
    cbn [bits_next_f glen gdata refer_from]. destruct (Nat.ltb_spec i n) as [Hi|Hi].
    2: { right. split; auto. intros; lia. }
    pose proof (words_lt n i Hi) as Hw. pose proof HP as [HL HB].
    rewrite (rd_some m (off + i / 64) (nth (off + i / 64) m 0%N)) by (apply nth_error_nth'; lia).
    cbn [bind]. set (w := nth (off + i / 64) m 0%N). set (mask := N.land w _).
    assert (Hmask : forall x, x / 64 = i / 64 -> N.testbit mask (pos x) = (i <=? x) && ((x <? n) && P x)).
    { intros x Hx. unfold mask. rewrite N.land_spec, shiftr_ones_bit.
      assert (Hw' : N.testbit w (pos x) = (x <? n) && P x).
      { rewrite <- HB. { unfold wbit, w. rewrite Hx. auto. }
        pose proof (Nat.div_mod x 64 ltac:(lia)). pose proof (Nat.mod_upper_bound x 64 ltac:(lia)). lia. }
      rewrite Hw', andb_comm. f_equal.
      pose proof (Nat.div_mod x 64 ltac:(lia)). pose proof (Nat.div_mod i 64 ltac:(lia)).
      pose proof (Nat.mod_upper_bound x 64 ltac:(lia)). pose proof (Nat.mod_upper_bound i 64 ltac:(lia)).
      destruct (Nat.leb_spec i x), (N.leb_spec (pos x) (pos i)); auto; lia. }
    pose proof (Nat.div_mod i 64 ltac:(lia)) as Ei. pose proof (Nat.mod_upper_bound i 64 ltac:(lia)).
    destruct (N.eqb_spec mask 0) as [Z|NZ].
    - assert (Z' : forall x, i <= x < n -> x / 64 = i / 64 -> P x = false).
      { intros x Hx Hx'. specialize (Hmask x Hx'). rewrite Z, N.bits_0 in Hmask.
        replace (i <=? x) with true in Hmask by (symmetry; apply Nat.leb_le; lia).
        replace (x <? n) with true in Hmask by (symmetry; apply Nat.ltb_lt; lia). auto. }
      assert (Hd : (i / 64 + 1) * 64 / 64 = i / 64 + 1) by (apply Nat.div_mul; lia).
      assert (Hn : i / 64 <= n / 64) by (apply Nat.div_le_mono; lia).
      assert (Hlow : forall x, i <= x < (i / 64 + 1) * 64 -> x / 64 = i / 64).
      { intros x Hx. symmetry. apply Nat.div_unique with (r := x - 64 * (i / 64)); lia. }
      eapply wp_mono. { apply IH; lia. }
      intros r [(Hr & Pr & Hx)|(Hr & Hx)].
      + left. repeat split; auto; try lia. intros x Hx'.
        destruct (Nat.lt_ge_cases x ((i / 64 + 1) * 64)).
        * apply Z'; [lia|]. apply Hlow; lia.
        * apply Hx; lia.
      + right. split; auto. intros x Hx'.
        destruct (Nat.lt_ge_cases x ((i / 64 + 1) * 64)).
        * apply Z'; [lia|]. apply Hlow; lia.
        * apply Hx; lia.
    - assert (Hml : (N.log2 mask < 64)%N).
      { destruct (N.lt_ge_cases (N.log2 mask) 64) as [L|L]; auto.
        pose proof (N.bit_log2 mask NZ) as B. unfold mask in B at 1. rewrite N.land_spec in B.
        rewrite (proj1 (lt64_bits w) (memok_nth m _ Hm) _ L) in B. discriminate. }
      unfold clz. set (l := N.to_nat (N.log2 mask)). assert (l < 64) by lia.
      set (r := i / 64 * 64 + (63 - l)).
      assert (Hrd : r / 64 = i / 64) by (symmetry; apply Nat.div_unique with (r := 63 - l); lia).
      assert (Hrm : r mod 64 = 63 - l) by (symmetry; apply Nat.mod_unique with (q := i / 64); lia).
      assert (Hrb : N.testbit mask (pos r) = true).
      { rewrite Hrm. replace (N.of_nat (63 - (63 - l))) with (N.log2 mask) by lia. apply N.bit_log2; auto. }
      rewrite Hmask in Hrb by auto. apply andb_prop in Hrb. destruct Hrb as [R1 R2].
      apply andb_prop in R2. destruct R2 as [R2 R3]. apply Nat.leb_le in R1. apply Nat.ltb_lt in R2.
      left. repeat split; auto. intros x Hx.
      assert (Hxd : x / 64 = i / 64) by (symmetry; apply Nat.div_unique with (r := x - 64 * (i / 64)); lia).
      specialize (Hmask x Hxd).
      pose proof (Nat.div_mod x 64 ltac:(lia)). pose proof (Nat.mod_upper_bound x 64 ltac:(lia)).
      rewrite N.bits_above_log2 in Hmask by lia.
      replace (i <=? x) with true in Hmask by (symmetry; apply Nat.leb_le; lia).
      replace (x <? n) with true in Hmask by (symmetry; apply Nat.ltb_lt; lia). auto. }
  apply G; lia.
Qed.

(** ** clear *)
Lemma wp_zero_words m off w :
  memok m -> off + w <= length m ->
  wp (for_ 0 w (fun i m => wr m (off + i) 0%N) m)
     (fun m' => memok m' /\ same_out m m' off w /\ forall k, off <= k < off + w -> nth k m' 0%N = 0%N).
Proof.
  intros Hm HL.
  apply wp_for with (I := fun i m' => memok m' /\ same_out m m' off w
                                      /\ forall k, off <= k < off + i -> nth k m' 0%N = 0%N); auto; try lia.
  - repeat split; auto. intros; lia.
  - intros i m' Hi (H1 & H2 & H3). pose proof H2 as [HLL HS].
    apply wp_wr; [lia|]. split; [|split].
    + apply memok_upd; auto. reflexivity.
    + eapply same_out_trans; eauto. apply same_out_upd. lia.
    + intros k Hk. rewrite nth_upd. destruct (Nat.eqb_spec (off + i) k).
      * subst. replace (off + i <? length m') with true; auto. symmetry; apply Nat.ltb_lt; lia.
      * simpl. apply H3. lia.
Qed.

Lemma rep_zero m off n : off + words n <= length m ->
  (forall k, off <= k < off + words n -> nth k m 0%N = 0%N) -> rep m off n (fun _ => false).
Proof.
  intros HL H. split; auto. intros i Hi. unfold wbit. rewrite H.
  - rewrite N.bits_0, andb_false_r. auto.
  - pose proof (words_lt64 n i Hi). lia.
Qed.

Lemma rep_zero_inv m off n : rep m off n (fun _ => false) -> memok m ->
  forall k, off <= k < off + words n -> nth k m 0%N = 0%N.
Proof.
  intros [HL H] Hm k Hk. apply N.bits_inj_0. intros b.
  destruct (N.lt_ge_cases b 64) as [L|L].
  - specialize (H (64 * (k - off) + (63 - N.to_nat b))). unfold wbit in H.
    replace ((64 * (k - off) + (63 - N.to_nat b)) / 64) with (k - off) in H
      by (apply Nat.div_unique with (r := 63 - N.to_nat b); lia).
    replace ((64 * (k - off) + (63 - N.to_nat b)) mod 64) with (63 - N.to_nat b) in H
      by (apply Nat.mod_unique with (q := k - off); lia).
    replace (off + (k - off)) with k in H by lia.
    replace (N.of_nat (63 - (63 - N.to_nat b))) with b in H by lia.
    rewrite H by lia. apply andb_false_r.
  - apply (proj1 (lt64_bits _) (memok_nth m k Hm)). auto.
Qed.

(** clear(0) empties the whole block. *)
Lemma bits_clear0_spec m off n P b :
  memok m -> rep m off n P -> b = refer_from off n ->
  wp (bits_clear m b 0) (fun m' => memok m' /\ rep m' off n (fun _ => false) /\ same_out m m' off (words n)).
Proof.
  intros Hm [HL HP] ->. unfold bits_clear. simpl glen. cbn [Nat.eqb orb gdata refer_from].
  eapply wp_mono. { apply wp_zero_words; auto. }
  intros m' (H1 & H2 & H3). repeat split; auto; try apply H2.
  - destruct H2; lia.
  - apply rep_zero; auto. destruct H2; lia.
Qed.

(** clear(k) for 0 < k <= n empties at least the words of positions below k. *)
Lemma bits_clear_spec m off n b k :
  memok m -> off + words n <= length m -> b = refer_from off n -> 0 < k <= n ->
  wp (bits_clear m b k) (fun m' => memok m' /\ rep m' off k (fun _ => false) /\ same_out m m' off (words n)).
Proof.
  intros Hm HL -> Hk. unfold bits_clear. cbn [glen gdata refer_from].
  replace (k =? 0) with false by (symmetry; apply Nat.eqb_neq; lia). cbn [orb].
  set (cl := if words n <? 1 + k / 64 then words n else 1 + k / 64).
  assert (Hcl : words k <= cl <= words n).
  { unfold cl. pose proof (words_mono k n ltac:(lia)).
    assert (words k <= 1 + k / 64).
    { pose proof (words_bounds k). pose proof (Nat.div_mod k 64 ltac:(lia)).
      pose proof (Nat.mod_upper_bound k 64 ltac:(lia)). lia. }
    destruct (Nat.ltb_spec (words n) (1 + k / 64)); lia. }
  eapply wp_mono. { apply wp_zero_words; auto. lia. }
  intros m' (H1 & H2 & H3). split; [auto|]. split.
  - apply rep_zero. { destruct H2; lia. } intros j Hj. apply H3. lia.
  - eapply same_out_weaken; eauto. lia.
Qed.

(** ** copy *)
Lemma bits_copy_data_spec m dst src n P b1 b2 :
  memok m -> rep m src n P -> dst + words n <= length m -> (dst + words n <= src \/ src + words n <= dst) ->
  gdata b1 = dst -> glen b1 = n -> gdata b2 = src ->
  wp (bits_copy_data m b1 b2) (fun m' => memok m' /\ rep m' dst n P /\ same_out m m' dst (words n)).
Proof.
  intros Hm HP HL HD E1 E2 E3. unfold bits_copy_data. rewrite E1, E2, E3. pose proof HP as [HPL HPB].
  eapply wp_mono.
  { apply wp_for with (I := fun i m' => memok m' /\ same_out m m' dst (words n)
         /\ forall k, k < i -> nth (dst + k) m' 0%N = nth (src + k) m 0%N)
      (Q := fun m' => memok m' /\ same_out m m' dst (words n)
         /\ forall k, k < words n -> nth (dst + k) m' 0%N = nth (src + k) m 0%N); auto; try lia.
    - repeat split; auto. intros; lia.
    - intros i m' Hi (H1 & [H2 H2'] & H3). apply wp_bind.
      eapply wp_rd. { apply nth_error_Some_nth with (d := 0%N). lia. }
      apply wp_wr; [lia|]. split; [|split].
      + apply memok_upd; auto. apply memok_nth; auto.
      + eapply same_out_trans; [split; eauto|]. apply same_out_upd. lia.
      + intros k Hk. rewrite nth_upd. destruct (Nat.eqb_spec (dst + i) (dst + k)) as [E|E].
        * assert (i = k) by lia. subst k. replace (dst + i <? length m') with true by (symmetry; apply Nat.ltb_lt; lia).
          simpl. apply H2'. lia.
        * simpl. apply H3. lia. }
  intros m' (H1 & H2 & H3). split; [auto|]. split; auto. split. { destruct H2; lia. }
  intros i Hi. rewrite <- HPB by auto. unfold wbit. rewrite H3; auto. apply words_lt64; auto.
Qed.

Lemma bits_copy_from_spec m src n P ptr :
  memok m -> rep m src n P -> ptr + words n <= length m -> (ptr + words n <= src \/ src + words n <= ptr) ->
  wp (bits_copy_from m (refer_from src n) ptr)
     (fun r => snd r = refer_from ptr n /\ memok (fst r) /\ rep (fst r) ptr n P /\ same_out m (fst r) ptr (words n)).
Proof.
  intros. unfold bits_copy_from. apply wp_bind.
  eapply wp_mono. { eapply bits_copy_data_spec with (src := src) (dst := ptr) (P := P); eauto. }
  intros m' (H3 & H4 & H5). apply wp_ok. simpl. auto.
Qed.
