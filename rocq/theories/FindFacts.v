(** FindFacts: binary_find on a strictly increasing slice. *)
From Verif Require Import Base BaseFacts MUtils.
Local Open Scope nat_scope.
Local Arguments Nat.sub : simpl never.

Definition p64 : Z := 18446744073709551616%Z.

Lemma wrap_small z : (0 <= z < p64)%Z -> wrap z = z.
Proof. intros H. unfold wrap. apply Z.mod_small. exact H. Qed.

Lemma wrap_eq z k : (0 <= k < p64)%Z -> (exists q, z = k + q * p64)%Z -> wrap z = k.
Proof.
  intros H [q ->]. unfold wrap. change 18446744073709551616%Z with p64. rewrite Z_mod_plus_full. apply Z.mod_small. auto.
Qed.

Lemma rdz_nat {A} (l : list A) i d : i < length l -> rdz l (Z.of_nat i) = Ok (nth i l d).
Proof.
  intros H. unfold rdz. replace (Z.of_nat i <? Z.of_nat (length l))%Z with true by (symmetry; apply Z.ltb_lt; lia).
  rewrite Nat2Z.id. apply rd_some. apply nth_error_nth'. auto.
Qed.

(** Entry [i] of the slice starting at [base]. *)
Notation ent l base i := (nth (base + i) l 0).

Definition increasing (l : list nat) (base n : nat) : Prop :=
  forall i j, i < j < n -> ent l base i < ent l base j.

Lemma increasing_le l base n i j : increasing l base n -> i <= j < n -> ent l base i <= ent l base j.
Proof.
  intros H Hij. destruct (Nat.eq_dec i j) as [->|]; auto. specialize (H i j). lia.
Qed.

Lemma bf_loop_spec l base n val fuel beg fin loc :
  base + n <= length l -> (Z.of_nat (length l) < 9223372036854775808)%Z -> increasing l base n ->
  ent l base 0 <= val ->
  beg <= n -> (-1 <= fin < Z.of_nat n)%Z -> (Z.of_nat beg <= fin + 1)%Z ->
  (forall i, i < beg -> ent l base i < val) ->
  (forall i, (fin < Z.of_nat i)%Z -> i < n -> val < ent l base i) ->
  (0 <= fin)%Z -> loc < n ->
  (((fin < Z.of_nat beg)%Z -> forall i, i < loc -> ent l base i < val)) ->
  (fin - Z.of_nat beg + 1 < 2 ^ (Z.of_nat fuel - 1))%Z -> 0 < fuel ->
  wp (bf_loop fuel l (Z.of_nat base) val (Z.of_nat beg) fin (Z.of_nat loc))
     (fun r => exists k, snd r = Z.of_nat k /\ k < n /\ (forall i, i < k -> ent l base i < val)
               /\ (fst r = true -> ent l base k = val)
               /\ (fst r = false -> forall i, i < n -> ent l base i <> val)).
Proof.
  intros HL HZ HI H0. revert beg fin loc.
  induction fuel as [|f IH]; intros beg fin loc Hb Hf Hbf Hlo Hhi Hf0 Hloc Hend Hm Hfuel; [lia|].
  cbn [bf_loop]. destruct (Z.leb_spec (Z.of_nat beg) fin) as [Hle|Hgt].
  2: { apply wp_ok. simpl. exists loc. repeat split; auto; [discriminate|].
       intros _ i Hi E. destruct (Nat.lt_ge_cases i beg) as [L|L].
       - specialize (Hlo i L). lia.
       - specialize (Hhi i ltac:(lia) Hi). lia. }
  unfold p64 in *.
  set (d := (fin - Z.of_nat beg)%Z).
  rewrite (wrap_small d) by (unfold d, p64; lia).
  assert (Hsh : (0 <= Z.shiftr d 1 <= d /\ Z.shiftr d 1 * 2 <= d < Z.shiftr d 1 * 2 + 2)%Z).
  { rewrite Z.shiftr_div_pow2 by lia. change (2 ^ 1)%Z with 2%Z.
    pose proof (Z.div_mod d 2 ltac:(lia)). pose proof (Z.mod_pos_bound d 2 ltac:(lia)). unfold d in *. lia. }
  set (h := Z.to_nat (Z.shiftr d 1)).
  assert (Hh : Z.shiftr d 1 = Z.of_nat h) by (unfold h; lia).
  rewrite Hh in *. rewrite (wrap_small (Z.of_nat beg + Z.of_nat h)) by (unfold d, p64 in *; lia).
  set (m := beg + h). replace (Z.of_nat beg + Z.of_nat h)%Z with (Z.of_nat m) by lia.
  assert (Hmn : m < n) by (unfold d in *; lia).
  rewrite (wrap_small (Z.of_nat base + Z.of_nat m)) by (unfold p64; lia).
  replace (Z.of_nat base + Z.of_nat m)%Z with (Z.of_nat (base + m)) by lia.
  rewrite (rdz_nat l (base + m) 0) by lia. cbn [bind].
  destruct (Nat.eqb_spec (ent l base m) val) as [E|NE].
  { apply wp_ok. simpl. exists m. repeat split; auto; [|discriminate].
    intros i Hi. specialize (HI i m ltac:(lia)). lia. }
  assert (P2 : (1 <= Z.of_nat f -> 2 ^ (Z.of_nat (S f) - 1) = 2 * 2 ^ (Z.of_nat f - 1))%Z).
  { intros. replace (Z.of_nat (S f) - 1)%Z with (Z.succ (Z.of_nat f - 1)) by lia. apply Z.pow_succ_r. lia. }
  assert (F1 : (1 <= Z.of_nat f)%Z).
  { destruct f; [|lia]. change (2 ^ (Z.of_nat 1 - 1))%Z with 1%Z in Hm. unfold d in *. lia. }
  specialize (P2 F1).
  destruct (Nat.ltb_spec (ent l base m) val) as [Lt|Ge].
  - rewrite (wrap_small (Z.of_nat m + 1)) by (unfold p64; lia).
    replace (Z.of_nat m + 1)%Z with (Z.of_nat (S m)) by lia.
    apply IH; auto; try (unfold d in *; lia).
    + intros i Hi. destruct (Nat.eq_dec i m) as [->|]; auto. specialize (HI i m ltac:(lia)). lia.
    + intros _ i Hi. specialize (HI i m ltac:(lia)). lia.
  - assert (m <> 0) by (intros ->; replace (base + 0) with base in *; lia).
    rewrite (wrap_small (Z.of_nat m - 1)) by (unfold p64; lia).
    apply IH; auto; try (unfold d in *; lia).
    + intros i Hi1 Hi2. destruct (Nat.eq_dec i m) as [->|]; [lia|]. specialize (HI m i ltac:(lia)). lia.
    + intros Hx i Hi. apply Hlo. lia.
Qed.

Lemma binary_find_spec l base n val :
  0 < n -> base + n <= length l -> (Z.of_nat (length l) < 9223372036854775808)%Z -> increasing l base n ->
  wp (binary_find l (Z.of_nat base) (Z.of_nat n) val)
     (fun r => exists k, snd r = Z.of_nat k /\ k < n /\ (forall i, i < k -> ent l base i < val)
               /\ (fst r = true -> ent l base k = val)
               /\ (fst r = false -> forall i, i < n -> ent l base i <> val)).
Proof.
  intros Hn HL HZ HI. unfold binary_find.
  rewrite (wrap_small (Z.of_nat n - 1)) by (unfold p64; lia).
  rewrite (wrap_small (Z.of_nat base + _)) by (unfold p64; lia).
  replace (Z.of_nat base + (Z.of_nat n - 1))%Z with (Z.of_nat (base + (n - 1))) by lia.
  rewrite (rdz_nat l (base + (n - 1)) 0) by lia. cbn [bind].
  destruct (Nat.ltb_spec (ent l base (n - 1)) val) as [Lt|Ge].
  { apply wp_ok. exists (n - 1). cbn [fst snd].
    assert (A : forall i, i < n -> ent l base i < val).
    { intros i Hi. pose proof (increasing_le l base n i (n - 1) HI ltac:(lia)). lia. }
    repeat split; try lia; try discriminate.
    - intros i Hi. apply A. lia.
    - intros _ i Hi. specialize (A i Hi). lia. }
  rewrite (wrap_small (Z.of_nat base)) by (unfold p64; lia).
  rewrite (rdz_nat l base 0) by lia. cbn [bind].
  destruct (Nat.ltb_spec val (nth base l 0)) as [Lt|Ge'].
  { apply wp_ok. exists 0. cbn [fst snd]. repeat split; try lia; try discriminate.
    intros _ i Hi. pose proof (increasing_le l base n 0 i HI ltac:(lia)) as Hx.
    replace (base + 0) with base in Hx by lia. lia. }
  change 0%Z with (Z.of_nat 0) at 1 2.
  apply (bf_loop_spec l base n val 65 0 (Z.of_nat n - 1) 0); auto; try lia.
  replace (base + 0) with base by lia. auto.
Qed.

(** Resumed search: the entries before [s] are known to be smaller than [val]. The empty range s = n is the case where
    the C++ code reads one entry before the range. *)
Lemma bf_resume l base n val s :
  0 < n -> base + n <= length l -> (Z.of_nat (length l) < 9223372036854775808)%Z -> increasing l base n ->
  s <= n -> (forall i, i < s -> ent l base i < val) ->
  wp (binary_find l (wrap (Z.of_nat base + Z.of_nat s)) (wrap (Z.of_nat n - Z.of_nat s)) val)
     (fun r => exists s', wrap (Z.of_nat s + snd r) = Z.of_nat s' /\ s' < n /\ (forall i, i < s' -> ent l base i < val)
               /\ (fst r = true -> exists i, i < n /\ ent l base i = val)
               /\ (fst r = false -> forall i, i < n -> ent l base i <> val)).
Proof.
  intros Hn HL HZ HI Hs Hlow.
  rewrite (wrap_small (Z.of_nat base + _)) by (unfold p64; lia).
  replace (Z.of_nat base + Z.of_nat s)%Z with (Z.of_nat (base + s)) by lia.
  rewrite (wrap_small (Z.of_nat n - _)) by (unfold p64; lia).
  replace (Z.of_nat n - Z.of_nat s)%Z with (Z.of_nat (n - s)) by lia.
  destruct (Nat.eq_dec s n) as [->|Hne].
  - replace (n - n) with 0 by lia. unfold binary_find.
    rewrite (wrap_eq (Z.of_nat 0 - 1) (p64 - 1)) by (unfold p64; try lia; exists (-1)%Z; unfold p64; lia).
    rewrite (wrap_eq (Z.of_nat (base + n) + _) (Z.of_nat (base + (n - 1)))) by (unfold p64; try lia; exists 1%Z; unfold p64; lia).
    rewrite (rdz_nat l (base + (n - 1)) 0) by lia. cbn [bind].
    specialize (Hlow (n - 1) ltac:(lia)) as Hlast.
    replace (ent l base (n - 1) <? val) with true by (symmetry; apply Nat.ltb_lt; auto).
    apply wp_ok. exists (n - 1). cbn [fst snd]. repeat split; try lia; try discriminate.
    + apply wrap_eq; [unfold p64; lia|]. exists 1%Z. unfold p64. lia.
    + intros i Hi. apply Hlow. lia.
    + intros _ i Hi. specialize (Hlow i Hi). lia.
  - assert (HI' : increasing l (base + s) (n - s)).
    { intros i j Hij. specialize (HI (s + i) (s + j) ltac:(lia)).
      replace (base + s + i) with (base + (s + i)) by lia. replace (base + s + j) with (base + (s + j)) by lia. auto. }
    eapply wp_mono. { apply binary_find_spec; auto; lia. }
    intros [f ans] (k & Hk & Hkn & Hlo & Ht & Hf). cbn [fst snd] in *. subst ans.
    exists (s + k). repeat split.
    + rewrite wrap_small by (unfold p64; lia). lia.
    + lia.
    + intros i Hi. destruct (Nat.lt_ge_cases i s); auto.
      specialize (Hlo (i - s) ltac:(lia)). replace (base + s + (i - s)) with (base + i) in Hlo by lia. auto.
    + intros E. exists (s + k). split; [lia|]. rewrite <- (Ht E). f_equal. lia.
    + intros E i Hi. destruct (Nat.lt_ge_cases i s) as [L|L].
      * specialize (Hlow i L). lia.
      * specialize (Hf E (i - s) ltac:(lia)). replace (base + s + (i - s)) with (base + i) in Hf by lia. auto.
Qed.
