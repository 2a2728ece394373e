(** PopFacts: the SWAR bit count of gbits.cpp:15-24 counts the set bits of a 64-bit word. *)
From Verif Require Import Base BaseFacts MBits BitsFacts.
Local Open Scope N_scope.
Local Arguments N.add : simpl never.
Local Arguments N.mul : simpl never.
Local Arguments N.land : simpl never.
Local Arguments N.shiftr : simpl never.
Local Arguments N.pow : simpl never.

(** Number of set bits among the lowest [n]. *)
Definition popn (n : nat) (w : N) : nat :=
  length (filter (fun k => N.testbit w (N.of_nat k)) (seq 0 n)).

(** Little-endian bytes. *)
Fixpoint V (l : list N) : N := match l with [] => 0 | b :: r => b + 256 * V r end.

Definition bytes (l : list N) : Prop := Forall (fun b => b < 256) l.

Lemma testbit_lo b r k : b < 256 -> k < 8 -> N.testbit (b + 256 * r) k = N.testbit b k.
Proof.
  intros Hb Hk. rewrite <- (N.mod_pow2_bits_low (b + 256 * r) 8 k Hk).
  change (2 ^ 8) with 256. rewrite (N.mul_comm 256), N.mod_add by discriminate.
  rewrite N.mod_small by auto. auto.
Qed.

Lemma testbit_hi b r k : b < 256 -> N.testbit (b + 256 * r) (k + 8) = N.testbit r k.
Proof.
  intros Hb. rewrite <- N.shiftr_spec'. f_equal. rewrite N.shiftr_div_pow2. change (2 ^ 8) with 256.
  rewrite (N.mul_comm 256), N.div_add by discriminate. rewrite N.div_small by auto. auto.
Qed.

Lemma lt256_bits w : w < 256 <-> forall k, 8 <= k -> N.testbit w k = false.
Proof.
  change 256 with (2 ^ 8). split.
  - intros H k Hk. destruct (N.eq_dec w 0) as [->|Hw]; [apply N.bits_0|].
    apply N.bits_above_log2. apply N.log2_lt_pow2; try lia.
    eapply N.lt_le_trans; [exact H|]. apply N.pow_le_mono_r; lia.
  - intros H. destruct (N.eq_dec w 0) as [->|Hw]; [reflexivity|].
    apply N.log2_lt_pow2; [lia|]. destruct (N.lt_ge_cases (N.log2 w) 8) as [L|L]; auto.
    specialize (H _ L). rewrite N.bit_log2 in H by auto. discriminate.
Qed.

Lemma land_lt256 a b : a < 256 -> N.land a b < 256.
Proof.
  intros H. apply lt256_bits. intros k Hk. rewrite N.land_spec.
  rewrite (proj1 (lt256_bits a) H k Hk). auto.
Qed.

Lemma land_split a0 m0 a m : a0 < 256 -> m0 < 256 ->
  N.land (a0 + 256 * a) (m0 + 256 * m) = N.land a0 m0 + 256 * N.land a m.
Proof.
  intros Ha Hm. apply N.bits_inj. intros k. rewrite N.land_spec.
  destruct (N.lt_ge_cases k 8) as [L|L].
  - rewrite !testbit_lo, N.land_spec by (auto using land_lt256). auto.
  - replace k with ((k - 8) + 8) by lia. rewrite !testbit_hi, N.land_spec by (auto using land_lt256). auto.
Qed.

(** Shift by k <= 8 then mask with bytes below 2^(8-k): acts on each byte separately. *)
Lemma shift_mask l k mk :
  bytes l -> k <= 8 -> mk < 2 ^ (8 - k) ->
  N.land (N.shiftr (V l) k) (V (repeat mk (length l))) = V (map (fun b => N.land (N.shiftr b k) mk) l).
Proof.
  intros Hl Hk Hmk. assert (M : mk < 256).
  { eapply N.lt_le_trans; [exact Hmk|]. change 256 with (2 ^ 8). apply N.pow_le_mono_r; lia. }
  induction l as [|b l IH]; simpl.
  - rewrite N.shiftr_0_l, N.land_0_l. auto.
  - inversion Hl; subst. rewrite <- IH by auto. clear IH.
    apply N.bits_inj. intros i. rewrite N.land_spec.
    assert (L8 : N.land (N.shiftr b k) mk < 256).
    { rewrite N.land_comm. apply land_lt256; auto. }
    destruct (N.lt_ge_cases i 8) as [L|L].
    + rewrite !testbit_lo by auto. rewrite N.land_spec, !N.shiftr_spec'.
      destruct (N.lt_ge_cases (i + k) 8) as [L'|L'].
      * rewrite testbit_lo by auto. auto.
      * assert (Z : N.testbit mk i = false).
        { destruct (N.eq_dec mk 0) as [->|Hw]; [apply N.bits_0|].
          apply N.bits_above_log2. apply N.log2_lt_pow2; try lia.
          eapply N.lt_le_trans; [exact Hmk|]. apply N.pow_le_mono_r; lia. }
        rewrite Z, !andb_false_r. auto.
    + replace i with ((i - 8) + 8) by lia. rewrite !testbit_hi by auto. rewrite N.land_spec, !N.shiftr_spec'.
      replace (i - 8 + 8 + k) with ((i - 8 + k) + 8) by lia. rewrite testbit_hi by auto. auto.
Qed.

Lemma V_sub l (f g : N -> N) : (forall b, In b l -> g b <= f b) ->
  V (map g l) <= V (map f l) /\ V (map f l) - V (map g l) = V (map (fun b => f b - g b) l).
Proof.
  induction l as [|b l IH]; intros H; simpl; [split; reflexivity|].
  destruct IH as [I1 I2]. { intros; apply H; right; auto. }
  specialize (H b (or_introl eq_refl)). split; [lia|]. rewrite <- I2. lia.
Qed.

Lemma V_add l (f g : N -> N) : V (map f l) + V (map g l) = V (map (fun b => f b + g b) l).
Proof. induction l as [|b l IH]; simpl; [reflexivity|]. rewrite <- IH. lia. Qed.

Lemma V_bound l : bytes l -> V l < 256 ^ N.of_nat (length l).
Proof.
  induction l as [|b l IH]; intros H; simpl.
  - change (N.of_nat 0) with 0. reflexivity.
  - inversion H; subst. specialize (IH H3).
    replace (N.of_nat (S (length l))) with (N.succ (N.of_nat (length l))) by lia.
    rewrite N.pow_succ_r'. lia.
Qed.

(** (n + (n >> 4)) & 0x0f.. on bytes with both nibbles at most 4. *)
Lemma nibbles l : Forall (fun b => b <= 68 /\ b mod 16 <= 4) l ->
  N.land (V l + N.shiftr (V l) 4) (V (repeat 15 (length l))) = V (map (fun b => N.land (b + N.shiftr b 4) 15) l)
  /\ V l mod 16 <= 4.
Proof.
  induction l as [|b l IH]; intros H; simpl.
  - split; [reflexivity|]. change (0 mod 16) with 0. lia.
  - inversion H as [|? ? [Hb1 Hb2] Hl]; subst. destruct (IH Hl) as [I1 I2]. rewrite <- I1.
    assert (Hs : N.shiftr (b + 256 * V l) 4 = N.shiftr b 4 + 16 * (V l mod 16) + 256 * N.shiftr (V l) 4).
    { rewrite !N.shiftr_div_pow2. change (2 ^ 4) with 16.
      pose proof (N.div_mod (V l) 16 ltac:(discriminate)). set (q := V l / 16) in *. set (r := V l mod 16) in *.
      replace (b + 256 * V l) with (b + (16 * V l) * 16) by lia. rewrite N.div_add by discriminate. lia. }
    assert (Hb4 : N.shiftr b 4 <= 4).
    { rewrite N.shiftr_div_pow2. change (2 ^ 4) with 16. apply N.lt_succ_r.
      apply N.div_lt_upper_bound; [discriminate|]. lia. }
    rewrite Hs. split.
    + replace (b + 256 * V l + (N.shiftr b 4 + 16 * (V l mod 16) + 256 * N.shiftr (V l) 4))
        with ((b + N.shiftr b 4 + 16 * (V l mod 16)) + 256 * (V l + N.shiftr (V l) 4)) by lia.
      rewrite land_split by lia. f_equal.
      change 15 with (N.ones 4). rewrite !N.land_ones. change (2 ^ 4) with 16.
      replace (b + N.shiftr b 4 + 16 * (V l mod 16)) with ((b + N.shiftr b 4) + (V l mod 16) * 16) by lia.
      apply N.mod_add. discriminate.
    + replace (b + 256 * V l) with (b + (16 * V l) * 16) by lia. rewrite N.mod_add by discriminate. auto.
Qed.

(** The per-byte count. *)
Definition g1 (b : N) : N := N.land (N.shiftr b 1) 85.
Definition s1 (b : N) : N := b - g1 b.
Definition s2 (b : N) : N := N.land (s1 b) 51 + N.land (N.shiftr (s1 b) 2) 51.
Definition s3 (b : N) : N := N.land (s2 b + N.shiftr (s2 b) 4) 15.

Definition byte_check (k : nat) : bool :=
  let b := N.of_nat k in
  (g1 b <=? b) && (s1 b <? 256) && (s2 b <=? 68) && (s2 b mod 16 <=? 4) && (s3 b =? N.of_nat (popn 8 b)).

Lemma bytes_checked : forallb byte_check (seq 0 256) = true.
Proof. vm_compute. reflexivity. Qed.

Lemma byte_ok b : b < 256 ->
  g1 b <= b /\ s1 b < 256 /\ s2 b <= 68 /\ s2 b mod 16 <= 4 /\ s3 b = N.of_nat (popn 8 b).
Proof.
  intros H. pose proof bytes_checked as C. rewrite forallb_forall in C.
  specialize (C (N.to_nat b)). unfold byte_check in C. rewrite N2Nat.id in C.
  assert (I : In (N.to_nat b) (seq 0 256)) by (apply in_seq; lia). specialize (C I).
  repeat (apply andb_prop in C; destruct C as [C ?]).
  repeat match goal with H : (_ <=? _) = true |- _ => apply N.leb_le in H
                       | H : (_ <? _) = true |- _ => apply N.ltb_lt in H
                       | H : (_ =? _) = true |- _ => apply N.eqb_eq in H end.
  repeat split; auto.
Qed.

Lemma popn_le n w : (popn n w <= n)%nat.
Proof.
  unfold popn. pose proof (filter_len_le (fun k => N.testbit w (N.of_nat k)) (seq 0 n)) as H.
  rewrite seq_length in H. auto.
Qed.

Lemma popn_split n b r : b < 256 -> popn (8 + n) (b + 256 * r) = (popn 8 b + popn n r)%nat.
Proof.
  intros Hb. unfold popn. rewrite seq_app, filter_app, app_length. f_equal.
  - f_equal. apply filter_ext_in. intros k Hk. apply in_seq in Hk. apply testbit_lo; auto; lia.
  - assert (G : forall m s, length (filter (fun k => N.testbit (b + 256 * r) (N.of_nat k)) (seq (8 + s) m))
                       = length (filter (fun k => N.testbit r (N.of_nat k)) (seq s m))).
    { induction m as [|m IH]; intros s; [reflexivity|]. cbn [seq filter].
      replace (N.of_nat (8 + s)) with (N.of_nat s + 8) by lia. rewrite testbit_hi by auto.
      specialize (IH (S s)). replace (8 + S s)%nat with (S (8 + s)) in IH by lia.
      destruct (N.testbit r (N.of_nat s)); cbn [length]; rewrite IH; reflexivity. }
    apply (G n 0%nat).
Qed.

Lemma popn_V l : bytes l -> popn (8 * length l) (V l) = fold_right (fun b s => popn 8 b + s)%nat 0%nat l.
Proof.
  induction l as [|b l IH]; intros H; [reflexivity|]. inversion H; subst.
  cbn [length V fold_right]. replace (8 * S (length l))%nat with (8 + 8 * length l)%nat by lia.
  rewrite popn_split by auto. rewrite IH by auto. auto.
Qed.

Lemma bytes_exist n w : w < 256 ^ N.of_nat n -> exists l, length l = n /\ bytes l /\ w = V l.
Proof.
  revert w; induction n as [|n IH]; intros w H.
  - exists []. change (N.of_nat 0) with 0 in H. simpl. repeat split; [constructor|]. lia.
  - destruct (IH (w / 256)) as (l & L & B & E).
    { apply N.div_lt_upper_bound; [discriminate|].
      replace (N.of_nat (S n)) with (N.succ (N.of_nat n)) in H by lia. rewrite N.pow_succ_r' in H. auto. }
    exists (w mod 256 :: l). simpl. repeat split; auto.
    + constructor; auto. apply N.mod_lt. discriminate.
    + rewrite <- E. rewrite N.add_comm. apply N.div_mod. discriminate.
Qed.

Lemma shiftr8 b l : b < 256 -> N.shiftr (b + 256 * l) 8 = l.
Proof.
  intros H. rewrite N.shiftr_div_pow2. change (2 ^ 8) with 256.
  rewrite (N.mul_comm 256), N.div_add by discriminate. rewrite N.div_small by auto. auto.
Qed.

Lemma map_forall {A} (P Q : A -> Prop) (f : A -> A) l :
  (forall b, P b -> Q (f b)) -> Forall P l -> Forall Q (map f l).
Proof. intros H F. induction F; simpl; constructor; auto. Qed.

(** The horizontal sum of eight bytes, each at most 8. *)
Lemma hsum c0 c1 c2 c3 c4 c5 c6 c7 :
  c0 <= 8 -> c1 <= 8 -> c2 <= 8 -> c3 <= 8 -> c4 <= 8 -> c5 <= 8 -> c6 <= 8 -> c7 <= 8 ->
  let n := V [c0; c1; c2; c3; c4; c5; c6; c7] in
  let n := (n + N.shiftr n 8) mod two64 in
  let n := (n + N.shiftr n 16) mod two64 in
  let n := (n + N.shiftr n 32) mod two64 in
  N.land n 127 = c0 + c1 + c2 + c3 + c4 + c5 + c6 + c7.
Proof.
  intros H0 H1 H2 H3 H4 H5 H6 H7. cbv zeta.
  assert (T : two64 = 256 ^ N.of_nat 8) by reflexivity.
  assert (S8 : forall b l, b < 256 -> N.shiftr (V (b :: l)) 8 = V l) by (intros; apply shiftr8; auto).
  assert (S16 : forall n, N.shiftr n 16 = N.shiftr (N.shiftr n 8) 8) by (intros; rewrite N.shiftr_shiftr; auto).
  assert (S32 : forall n, N.shiftr n 32 = N.shiftr (N.shiftr n 16) 16) by (intros; rewrite N.shiftr_shiftr; auto).
  rewrite S8 by lia.
  replace (V [c0; c1; c2; c3; c4; c5; c6; c7] + V [c1; c2; c3; c4; c5; c6; c7])
    with (V [c0 + c1; c1 + c2; c2 + c3; c3 + c4; c4 + c5; c5 + c6; c6 + c7; c7]) by (cbn [V]; lia).
  rewrite (N.mod_small (V _) two64) by (rewrite T; apply V_bound; repeat constructor; lia).
  rewrite S16, !S8 by lia.
  replace (V [c0 + c1; c1 + c2; c2 + c3; c3 + c4; c4 + c5; c5 + c6; c6 + c7; c7] + V [c2 + c3; c3 + c4; c4 + c5; c5 + c6; c6 + c7; c7])
    with (V [c0 + c1 + (c2 + c3); c1 + c2 + (c3 + c4); c2 + c3 + (c4 + c5); c3 + c4 + (c5 + c6); c4 + c5 + (c6 + c7); c5 + c6 + c7; c6 + c7; c7])
    by (cbn [V]; lia).
  rewrite (N.mod_small (V _) two64) by (rewrite T; apply V_bound; repeat constructor; lia).
  rewrite S32, !S16, !S8 by lia.
  match goal with |- context [(V ?a + V ?b) mod two64] => set (x := V a + V b) end.
  assert (X : exists r, x = (c0 + c1 + c2 + c3 + c4 + c5 + c6 + c7) + 256 * r /\ x < two64).
  { exists (V [c1 + c2 + (c3 + c4) + (c5 + c6 + c7); c2 + c3 + (c4 + c5) + (c6 + c7); c3 + c4 + (c5 + c6) + c7; c4 + c5 + (c6 + c7); c5 + c6 + c7; c6 + c7; c7]).
    split; [unfold x; cbn [V]; lia|].
    replace x with (V [c0 + c1 + (c2 + c3) + (c4 + c5 + (c6 + c7)); c1 + c2 + (c3 + c4) + (c5 + c6 + c7); c2 + c3 + (c4 + c5) + (c6 + c7); c3 + c4 + (c5 + c6) + c7; c4 + c5 + (c6 + c7); c5 + c6 + c7; c6 + c7; c7])
      by (unfold x; cbn [V]; lia).
    rewrite T. apply V_bound. repeat constructor; lia. }
  destruct X as (r & X1 & X2). rewrite N.mod_small by auto. rewrite X1.
  change 127 with (N.ones 7). rewrite N.land_ones. change (2 ^ 7) with 128.
  replace (256 * r) with ((2 * r) * 128) by lia. rewrite N.mod_add by discriminate.
  apply N.mod_small. lia.
Qed.

Lemma bitcount_spec w : w < two64 -> bitcount w = N.of_nat (popn 64 w).
Proof.
  intros Hw. destruct (bytes_exist 8 w Hw) as (l & L & B & ->).
  unfold bitcount.
  assert (R55 : 0x5555555555555555 = V (repeat 85 (length l))) by (rewrite L; reflexivity).
  assert (R33 : 0x3333333333333333 = V (repeat 51 (length l))) by (rewrite L; reflexivity).
  assert (R0f : 0x0f0f0f0f0f0f0f0f = V (repeat 15 (length l))) by (rewrite L; reflexivity).
  rewrite R55. rewrite shift_mask by (auto; try reflexivity; lia).
  change (fun b => N.land (N.shiftr b 1) 85) with g1.
  assert (OK : forall b, In b l -> b < 256) by (apply Forall_forall; auto).
  assert (Bo : forall b, In b l -> g1 b <= b) by (intros b Hb; apply (byte_ok b (OK b Hb))).
  pose proof (V_sub l (fun b => b) g1 Bo) as [Le Su]. rewrite map_id in Le, Su.
  assert (E1 : (V l + two64 - V (map g1 l)) mod two64 = V (map s1 l)).
  { replace (V l + two64 - V (map g1 l)) with ((V l - V (map g1 l)) + 1 * two64) by lia.
    rewrite N.mod_add by discriminate.
    change (V (map s1 l)) with (V (map (fun b => b - g1 b) l)). rewrite <- Su. apply N.mod_small. lia. }
  rewrite E1.
  assert (B1 : bytes (map s1 l)).
  { eapply map_forall; [|exact B]. intros b Hb. apply (byte_ok b Hb). }
  rewrite R33.
  assert (M0 : N.land (V (map s1 l)) (V (repeat 51 (length l))) = V (map (fun b => N.land (s1 b) 51) l)).
  { pose proof (shift_mask (map s1 l) 0 51 B1 ltac:(lia) ltac:(reflexivity)) as M.
    rewrite map_length, N.shiftr_0_r in M. rewrite M, map_map. f_equal. }
  assert (M2 : N.land (N.shiftr (V (map s1 l)) 2) (V (repeat 51 (length l))) = V (map (fun b => N.land (N.shiftr (s1 b) 2) 51) l)).
  { pose proof (shift_mask (map s1 l) 2 51 B1 ltac:(lia) ltac:(reflexivity)) as M.
    rewrite map_length in M. rewrite M, map_map. auto. }
  rewrite M0, M2, V_add.
  change (fun b => N.land (s1 b) 51 + N.land (N.shiftr (s1 b) 2) 51) with s2.
  assert (B2 : Forall (fun b => b <= 68 /\ b mod 16 <= 4) (map s2 l)).
  { eapply map_forall; [|exact B]. intros b Hb. pose proof (byte_ok b Hb). tauto. }
  assert (T : two64 = 256 ^ N.of_nat (length l)) by (rewrite L; reflexivity).
  assert (B2' : bytes (map s2 l)).
  { eapply Forall_impl; [|exact B2]. cbv beta. intros; lia. }
  rewrite (N.mod_small (V (map s2 l))) by (rewrite T, <- (map_length s2); apply V_bound; auto).
  destruct (nibbles _ B2) as [N1 _]. rewrite map_length, map_map in N1.
  rewrite (N.mod_small (V (map s2 l) + _)).
  2: { assert (V (map s2 l) <= 68 * 0x0101010101010101).
       { clear - B2 L. assert (G : V (map s2 l) <= V (map (fun _ => 68) l)).
         { clear L. induction l as [|b l IH]; simpl; [lia|]. inversion B2; subst. specialize (IH H2). lia. }
         eapply N.le_trans; [exact G|].
         destruct l as [|a0 [|a1 [|a2 [|a3 [|a4 [|a5 [|a6 [|a7 [|]]]]]]]]]; try discriminate L. cbn [map V]. lia. }
       rewrite N.shiftr_div_pow2.
       pose proof (N.div_le_upper_bound (V (map s2 l)) (2 ^ 4) (V (map s2 l)) ltac:(discriminate) ltac:(change (2 ^ 4) with 16; lia)).
       assert (two64 = 18446744073709551616) by reflexivity. lia. }
  rewrite R0f, N1.
  change (fun x => N.land (s2 x + N.shiftr (s2 x) 4) 15) with s3.
  pose proof (popn_V l B) as PV. rewrite L in PV. change (8 * 8)%nat with 64%nat in PV. rewrite PV.
  assert (P3 : forall b, In b l -> s3 b = N.of_nat (popn 8 b)) by (intros b Hb; apply (byte_ok b (OK b Hb))).
  assert (E3 : map s3 l = map (fun b => N.of_nat (popn 8 b)) l) by (apply map_ext_in; auto).
  rewrite E3. clear - L.
  destruct l as [|b0 [|b1 [|b2 [|b3 [|b4 [|b5 [|b6 [|b7 [|]]]]]]]]]; try discriminate L.
  cbn [map fold_right]. pose proof (popn_le 8 b0). pose proof (popn_le 8 b1). pose proof (popn_le 8 b2).
  pose proof (popn_le 8 b3). pose proof (popn_le 8 b4). pose proof (popn_le 8 b5). pose proof (popn_le 8 b6).
  pose proof (popn_le 8 b7).
  rewrite hsum by lia. lia.
Qed.
