(** FindTwo: binary_find2, fill_dists and the matching loop of the correspondence graphs. *)
From Verif Require Import Base BaseFacts MUtils MExt FindFacts.
From Coq Require Import Sorting.Sorted Sorting.Permutation.
Local Open Scope nat_scope.
Local Arguments Nat.sub : simpl never.

(** Distance of entry [i]. *)
Definition z0 : pdist := mkPD 0 0 0%Z.
Notation dst a i := (d_dist (nth i a z0)).

Definition ascending (a : list pdist) : Prop := forall i j, i <= j < length a -> (dst a i <= dst a j)%Z.

(** What binary_find2 reports: value [f], position [k]. *)
Definition found2 (a : list pdist) (val f : Z) (k : nat) : Prop :=
  k < length a /\
  ((f = (-1)%Z /\ k = length a - 1 /\ forall i, i < length a -> (dst a i < val)%Z)
   \/ (f = 1%Z /\ dst a k = val)
   \/ (f = 0%Z /\ exists b, b <= length a /\ (forall i, i < b -> (dst a i < val)%Z)
        /\ (forall i, b <= i < length a -> (val < dst a i)%Z) /\ (k = b \/ S k = b))).

Lemma bf2_loop_spec a val fuel beg fin loc :
  (Z.of_nat (length a) < 9223372036854775808)%Z -> ascending a ->
  (dst a 0 <= val)%Z -> (0 < length a) ->
  beg <= length a -> (0 <= fin < Z.of_nat (length a))%Z -> (Z.of_nat beg <= fin + 1)%Z ->
  (forall i, i < beg -> (dst a i < val)%Z) ->
  (forall i, (fin < Z.of_nat i)%Z -> i < length a -> (val < dst a i)%Z) ->
  ((fin < Z.of_nat beg)%Z -> exists k, loc = Z.of_nat k /\ k < length a /\ (k = beg \/ S k = beg)) ->
  (fin - Z.of_nat beg + 1 < 2 ^ (Z.of_nat fuel - 1))%Z -> 0 < fuel ->
  wp (bf2_loop fuel a val (Z.of_nat beg) fin loc)
     (fun r => exists k, snd r = Z.of_nat k /\ found2 a val (fst r) k).
Proof.
  intros HZ HI H0 HP. revert beg fin loc.
  induction fuel as [|f IH]; intros beg fin loc Hb Hf Hbf Hlo Hhi Hend Hm Hfuel; [lia|].
  cbn [bf2_loop]. destruct (Z.leb_spec (Z.of_nat beg) fin) as [Hle|Hgt].
  2: { destruct (Hend Hgt) as (k & -> & K1 & K2). apply wp_ok. exists k. split; auto. split; auto. right. right.
       split; auto. exists beg. repeat split; auto. intros i Hi. apply Hhi; lia. }
  unfold p64 in *.
  set (d := (fin - Z.of_nat beg)%Z).
  rewrite (wrap_small d) by (unfold d, p64; lia).
  assert (Hsh : (0 <= Z.shiftr d 1 <= d /\ Z.shiftr d 1 * 2 <= d < Z.shiftr d 1 * 2 + 2)%Z).
  { rewrite Z.shiftr_div_pow2 by lia. change (2 ^ 1)%Z with 2%Z.
    pose proof (Z.div_mod d 2 ltac:(lia)). pose proof (Z.mod_pos_bound d 2 ltac:(lia)). unfold d in *. lia. }
  set (h := Z.to_nat (Z.shiftr d 1)).
  assert (Hh : Z.shiftr d 1 = Z.of_nat h) by (unfold h; lia).
  rewrite Hh in *. rewrite (wrap_small (Z.of_nat beg + Z.of_nat h)) by (unfold d, p64 in *; lia).
  set (m := beg + h). replace (Z.of_nat beg + Z.of_nat h)%Z with (Z.of_nat m) by lia.
  assert (Hmn : m < length a) by (unfold d in *; lia).
  rewrite (rdz_nat a m z0) by lia. cbn [bind].
  destruct (Z.eqb_spec (dst a m) val) as [E|NE].
  { apply wp_ok. exists m. split; auto. split; auto. }
  assert (P2 : (1 <= Z.of_nat f -> 2 ^ (Z.of_nat (S f) - 1) = 2 * 2 ^ (Z.of_nat f - 1))%Z).
  { intros. replace (Z.of_nat (S f) - 1)%Z with (Z.succ (Z.of_nat f - 1)) by lia. apply Z.pow_succ_r. lia. }
  assert (F1 : (1 <= Z.of_nat f)%Z).
  { destruct f; [|lia]. change (2 ^ (Z.of_nat 1 - 1))%Z with 1%Z in Hm. unfold d in *. lia. }
  specialize (P2 F1).
  destruct (Z.ltb_spec (dst a m) val) as [Lt|Ge].
  - rewrite (wrap_small (Z.of_nat m + 1)) by (unfold p64; lia).
    replace (Z.of_nat m + 1)%Z with (Z.of_nat (S m)) by lia.
    apply IH; auto; try (unfold d in *; lia).
    + intros i Hi. pose proof (HI i m ltac:(lia)). lia.
    + intros _. exists m. repeat split; auto.
  - assert (m <> 0) by (intros Em; rewrite Em in *; lia).
    rewrite (wrap_small (Z.of_nat m - 1)) by (unfold p64; lia).
    apply IH; auto; try (unfold d in *; lia).
    + intros i Hi1 Hi2. pose proof (HI m i ltac:(lia)). lia.
    + intros Hx. exists m. repeat split; auto. lia.
Qed.

Lemma binary_find2_spec a val loc :
  0 < length a -> (Z.of_nat (length a) < 9223372036854775808)%Z -> ascending a ->
  wp (binary_find2 a (length a) val loc) (fun r => exists k, snd r = Z.of_nat k /\ found2 a val (fst r) k).
Proof.
  intros Hn HZ HI. unfold binary_find2.
  rewrite (wrap_small (Z.of_nat (length a) - 1)) by (unfold p64; lia).
  replace (Z.of_nat (length a) - 1)%Z with (Z.of_nat (length a - 1)) by lia.
  rewrite (rdz_nat a (length a - 1) z0) by lia. cbn [bind].
  destruct (Z.ltb_spec (dst a (length a - 1)) val) as [Lt|Ge].
  { apply wp_ok. exists (length a - 1). cbn [fst snd]. split; [lia|]. split; [lia|]. left. split; auto. split; auto.
    intros i Hi. pose proof (HI i (length a - 1) ltac:(lia)). lia. }
  change 0%Z with (Z.of_nat 0) at 1. rewrite (rdz_nat a 0 z0) by lia. cbn [bind].
  destruct (Z.ltb_spec val (dst a 0)) as [Lt|Ge'].
  { apply wp_ok. exists 0. cbn [fst snd]. split; [lia|]. split; [lia|]. right. right. split; auto. exists 0.
    repeat split; auto; [lia|lia|]. intros i Hi. pose proof (HI 0 i ltac:(lia)). lia. }
  change 0%Z with (Z.of_nat 0).
  apply bf2_loop_spec; auto; try lia.
Qed.

(** The position binary_find2 reports does not depend on the argument [loc]. *)
Lemma binary_find2_loc a val loc loc' : 0 < length a -> (Z.of_nat (length a) < 9223372036854775808)%Z ->
  binary_find2 a (length a) val loc = binary_find2 a (length a) val loc'.
Proof.
  intros Hn HZ. unfold binary_find2. rewrite (wrap_small (Z.of_nat (length a) - 1)) by (unfold p64; lia).
  destruct (rdz a (Z.of_nat (length a) - 1)) as [xe| |]; auto. cbn [bind]. destruct (d_dist xe <? val)%Z; auto.
  destruct (rdz a 0) as [xb| |]; auto. cbn [bind]. destruct (val <? d_dist xb)%Z; auto.
  change 65 with (S 64). generalize 64. intros f. cbn [bf2_loop]. destruct (Z.leb_spec 0 (Z.of_nat (length a) - 1)); [reflexivity|lia].
Qed.

Definition position (a : list pdist) (val : Z) : nat :=
  match binary_find2 a (length a) val 0 with Ok (_, k) => Z.to_nat k | _ => 0 end.

Lemma binary_find2_position a val loc :
  0 < length a -> (Z.of_nat (length a) < 9223372036854775808)%Z -> ascending a ->
  wp (binary_find2 a (length a) val loc) (fun r => exists k, snd r = Z.of_nat k /\ found2 a val (fst r) k /\ position a val = k).
Proof.
  intros Hn HZ HI. rewrite (binary_find2_loc a val loc 0) by auto. pose proof (binary_find2_spec a val 0 Hn HZ HI) as W.
  apply wp_iff in W. destruct W as ([f k'] & E & k & Ek & F). cbn [fst snd] in *. subst k'. apply wp_iff. exists (f, Z.of_nat k). split; auto. exists k. split; auto.
  split; auto. unfold position. rewrite E. apply Nat2Z.id.
Qed.

(** ** collect *)
Lemma collect_pure {X Y} (f : X -> outcome (list Y)) (g : X -> list Y) l :
  (forall x, In x l -> f x = Ok (g x)) -> collect f l = Ok (flat_map g l).
Proof.
  induction l as [|x l IH]; intros H; auto. cbn [collect flat_map]. rewrite (H x) by (left; auto). cbn [bind].
  rewrite IH; auto. intros y I. apply H. right. auto.
Qed.

Lemma flat_map_len X Y (g : X -> list Y) k l : (forall x, length (g x) <= k) -> length (flat_map g l) <= k * length l.
Proof.
  intros H. induction l as [|x l IH]; [simpl; lia|]. cbn [flat_map length]. rewrite app_length. specialize (H x). lia.
Qed.

(** ** The matching loop *)

(** [lo], [hi]: the ends of the interval of distances matched with a distance. *)

(** [y] lies in the interval of [x], or is the entry of [s2] next to it that binary_find2 stops at. *)
Definition nearby (lo hi : Z -> Z) (s2 : list pdist) (x y : pdist) : Prop :=
  (lo (d_dist x) <= d_dist y <= hi (d_dist x))%Z
  \/ ((d_dist y < lo (d_dist x) /\ forall z, In z s2 -> d_dist z <= d_dist y \/ lo (d_dist x) < d_dist z)%Z
      /\ y = nth (position s2 (lo (d_dist x))) s2 z0)
  \/ ((hi (d_dist x) < d_dist y /\ forall z, In z s2 -> d_dist y <= d_dist z \/ d_dist z < hi (d_dist x))%Z
      /\ y = nth (position s2 (hi (d_dist x))) s2 z0).

(** The distance [t] occurs at most once. *)
Definition once (s2 : list pdist) (t : Z) : Prop :=
  forall i j, i < length s2 -> j < length s2 -> dst s2 i = t -> dst s2 j = t -> i = j.

Definition kept (lo hi : Z -> Z) (s2 : list pdist) (x y : pdist) : Prop :=
  (lo (d_dist x) < d_dist y < hi (d_dist x))%Z \/ ((lo (d_dist x) <= d_dist y <= hi (d_dist x))%Z /\ once s2 (d_dist y)).

Lemma once_entry s2 y : NoDup s2 -> In y s2 -> (forall z, In z s2 -> d_dist z = d_dist y -> z = y) -> once s2 (d_dist y).
Proof.
  intros ND I U i j Hi Hj Ei Ej. apply (proj1 (NoDup_nth s2 z0) ND); auto.
  rewrite (U (nth i s2 z0)), (U (nth j s2 z0)); auto; apply nth_In; auto.
Qed.

Lemma interval_sound lo hi s2 x f1 k1 f2 k2 j : ascending s2 ->
  found2 s2 (lo (d_dist x)) f1 k1 -> f1 <> (-1)%Z -> found2 s2 (hi (d_dist x)) f2 k2 ->
  position s2 (lo (d_dist x)) = k1 -> position s2 (hi (d_dist x)) = k2 ->
  k1 <= j -> (j <= k2 \/ f2 = (-1)%Z /\ j < length s2) -> j < length s2 /\ nearby lo hi s2 x (nth j s2 z0).
Proof.
  intros HS (K1 & F1) N1 (K2 & F2) P1 P2 J1 J2.
  assert (J : j < length s2) by (destruct J2 as [J2|J2]; lia). split; auto.
  assert (Z1 : forall P : Z -> Prop, (forall i, i < length s2 -> P (dst s2 i)) -> forall z, In z s2 -> P (d_dist z)).
  { intros P H z I. destruct (In_nth s2 z z0 I) as (i & I1 & <-). auto. }
  unfold nearby.
  assert (L : (lo (d_dist x) <= dst s2 j)%Z \/ (((dst s2 j < lo (d_dist x))%Z /\ forall i, i < length s2 -> (dst s2 i <= dst s2 j \/ lo (d_dist x) < dst s2 i)%Z) /\ j = k1)).
  { destruct F1 as [(E & _)|[(_ & E)|(_ & b & B1 & B2 & B3 & B4)]]; [congruence| |].
    - left. pose proof (HS k1 j ltac:(lia)). lia.
    - destruct (Nat.lt_ge_cases j b) as [Lt|Ge]; [|left; pose proof (B3 j ltac:(lia)); lia].
      right. assert (b = S j) by lia. subst b. split; [|lia]. split; [apply B2; lia|].
      intros i Hi. destruct (Nat.lt_ge_cases i (S j)); [left; apply HS; lia|right; apply B3; lia]. }
  assert (U : (dst s2 j <= hi (d_dist x))%Z \/ (((hi (d_dist x) < dst s2 j)%Z /\ forall i, i < length s2 -> (dst s2 j <= dst s2 i \/ dst s2 i < hi (d_dist x))%Z) /\ j = k2)).
  { destruct F2 as [(E & _ & B)|[(E1 & E)|(E1 & b & B1 & B2 & B3 & B4)]].
    - left. pose proof (B j J). lia.
    - left. destruct J2 as [J2|[J2 _]]; [|lia]. pose proof (HS j k2 ltac:(lia)). lia.
    - destruct J2 as [J2|[J2 _]]; [|lia].
      destruct (Nat.lt_ge_cases j b) as [Lt|Ge]; [left; pose proof (B2 j ltac:(lia)); lia|].
      right. assert (b = j) by lia. subst b. split; [|lia]. split; [apply B3; lia|].
      intros i Hi. destruct (Nat.lt_ge_cases i j); [right; apply B2; lia|left; apply HS; lia]. }
  destruct L as [L|[(L & L') JL]]; [destruct U as [U|[(U & U') JU]]|].
  - left. lia.
  - right. right. split; [|rewrite P2, JU; auto]. split; auto. apply (Z1 (fun t => dst s2 j <= t \/ t < hi (d_dist x))%Z). auto.
  - right. left. split; [|rewrite P1, JL; auto]. split; auto. apply (Z1 (fun t => t <= dst s2 j \/ lo (d_dist x) < t)%Z). auto.
Qed.

Lemma interval_complete lo hi s2 x f1 k1 f2 k2 j : ascending s2 ->
  found2 s2 (lo (d_dist x)) f1 k1 -> found2 s2 (hi (d_dist x)) f2 k2 ->
  j < length s2 -> kept lo hi s2 x (nth j s2 z0) -> f1 <> (-1)%Z /\ k1 <= j /\ (j <= k2 \/ f2 = (-1)%Z).
Proof.
  intros HS (K1 & F1) (K2 & F2) J K.
  assert (B : (lo (d_dist x) <= dst s2 j <= hi (d_dist x))%Z) by (destruct K as [K|[K _]]; lia).
  split; [|split].
  - intros E. destruct F1 as [(_ & _ & A)|[(E' & _)|(E' & _)]]; try congruence. specialize (A j J). lia.
  - destruct F1 as [(_ & _ & A)|[(_ & E)|(_ & b & B1 & B2 & B3 & B4)]].
    + specialize (A j J). lia.
    + destruct (Nat.le_gt_cases k1 j); auto. pose proof (HS j k1 ltac:(lia)).
      destruct K as [K|[K ND]]; [lia|]. assert (j = k1) by (apply ND; auto; lia). lia.
    + destruct (Nat.lt_ge_cases j b) as [Lt|Ge]; [specialize (B2 j Lt); lia|lia].
  - destruct F2 as [(E & _)|[(_ & E)|(_ & b & B1 & B2 & B3 & B4)]]; auto; left.
    + destruct (Nat.le_gt_cases j k2); auto. pose proof (HS k2 j ltac:(lia)).
      destruct K as [K|[K ND]]; [lia|]. assert (j = k2) by (apply ND; auto; lia). lia.
    + destruct (Nat.lt_ge_cases j b) as [Lt|Ge]; [lia|]. specialize (B3 j ltac:(lia)). lia.
Qed.

Section Loop.
  Variable turn : pdist -> pdist -> pairs.
  Variables s1 s2 : list pdist.
  Variable eps : Z.
  Variable rnd : Z -> Z.
  Hypothesis Hr : forall a b, (a <= b)%Z -> (rnd a <= rnd b)%Z.
  Let lo (a : Z) : Z := rnd (a - eps)%Z.
  Let hi (a : Z) : Z := rnd (lo a + 2 * eps)%Z.
  Hypothesis HS1 : ascending s1.
  Hypothesis HS2 : ascending s2.
  Hypothesis H2 : 0 < length s2.
  Hypothesis HT : forall x y, length (turn x y) <= 2.
  Hypothesis HZ : (Z.of_nat (length s2) < 9223372036854775808)%Z.

  Lemma efr_loop_spec k lb ub : k <= length s1 ->
    wp (efr_loop rnd (fun x y => Ok (turn x y)) s1 s2 (length s2) eps (seq k (length s1 - k)) lb ub)
       (fun rows => length rows <= 2 * ((length s1 - k) * length s2)
          /\ (forall r, In r rows -> exists x y, In x s1 /\ In y s2 /\ nearby lo hi s2 x y /\ In r (turn x y))
          /\ (forall i y r, k <= i < length s1 -> In y s2 -> kept lo hi s2 (nth i s1 z0) y -> In r (turn (nth i s1 z0) y) -> In r rows)).
  Proof.
    remember (length s1 - k) as m eqn:Em. revert k Em lb ub. induction m as [|m IH]; intros k Em lb ub Hk.
    - cbn [seq efr_loop]. apply wp_ok. split; [simpl; lia|]. split; [intros r []|]. intros i y r Hi. lia.
    - cbn [seq efr_loop].
      assert (Hk' : k < length s1) by lia.
      rewrite (rd_some s1 k (nth k s1 z0)) by (apply nth_error_Some_nth; auto). cbn [bind]. cbv zeta.
      set (x := nth k s1 z0) in *.
      change (rnd (d_dist x - eps)%Z) with (lo (d_dist x)). change (rnd (lo (d_dist x) + 2 * eps)%Z) with (hi (d_dist x)).
      apply wp_bind. eapply wp_mono; [apply binary_find2_position; auto|]. intros [f1 l1] (k1 & E1 & F1 & P1). cbn [fst snd] in E1, F1. subst l1.
      destruct (Z.eqb_spec f1 (-1)) as [E|NE].
      { apply wp_ok. split; [simpl; lia|]. split; [intros r []|]. intros i y r Hi Iy K _. exfalso.
        destruct F1 as (_ & [(_ & _ & A)|[(E' & _)|(E' & _)]]); try (rewrite E in E'; discriminate).
        destruct (In_nth s2 y z0 Iy) as (j & J1 & <-). specialize (A j J1).
        pose proof (HS1 k i ltac:(lia)) as L. fold x in L. pose proof (Hr (d_dist x - eps) (dst s1 i - eps) ltac:(lia))%Z as L'.
        fold (lo (d_dist x)) in L'. fold (lo (dst s1 i)) in L'. destruct K as [K|[K _]]; lia. }
      apply wp_bind. eapply wp_mono; [apply binary_find2_position; auto|]. intros [f2 l2] (k2 & E2 & F2 & P2). cbn [fst snd] in E2, F2. subst l2.
      set (ub' := if (f2 =? -1)%Z then wrap (Z.of_nat (length s2) - 1) else Z.of_nat k2).
      assert (U : exists u, ub' = Z.of_nat u /\ u < length s2 /\ forall j, j <= u <-> (j <= k2 \/ f2 = (-1)%Z /\ j < length s2)).
      { unfold ub'. destruct (Z.eqb_spec f2 (-1)) as [E|N2].
        - exists (length s2 - 1). split; [|split; [lia|]].
          + rewrite wrap_small by (unfold p64; lia). lia.
          + destruct F2 as (K2 & _). intros j. lia.
        - exists k2. split; auto. destruct F2 as (K2 & _). split; auto. intros j. lia. }
      destruct U as (u & Eu & U1 & U2). rewrite Eu. rewrite !Nat2Z.id.
      rewrite (collect_pure _ (fun j => turn x (nth j s2 z0))).
      2:{ intros j I. apply in_seq in I. rewrite (rd_some s2 j (nth j s2 z0)) by (apply nth_error_Some_nth; lia). reflexivity. }
      cbn [bind]. apply wp_bind. eapply wp_mono; [apply (IH (S k)); lia|].
      intros rows (R0 & R1 & R2). apply wp_ok. split; [|split].
      + rewrite app_length. pose proof (flat_map_len _ _ (fun j => turn x (nth j s2 z0)) 2 (seq k1 (u + 1 - k1)) (fun j => HT x _)) as FL.
        rewrite seq_length in FL. assert (2 * (u + 1 - k1) <= 2 * length s2) by lia. nia.
      + intros r I. apply in_app_iff in I. destruct I as [I|I]; [|auto].
        apply in_flat_map in I. destruct I as (j & J & I). apply in_seq in J.
        destruct (interval_sound lo hi s2 x f1 k1 f2 k2 j HS2 F1 NE F2 P1 P2 ltac:(lia)) as (J3 & J4); [apply U2; lia|].
        exists x, (nth j s2 z0). repeat split; auto; [apply nth_In; auto|apply nth_In; auto].
      + intros i y r Hi Iy K I. apply in_app_iff. destruct (Nat.eq_dec i k) as [->|N]; [left|right; eapply (R2 i y); eauto; lia].
        destruct (In_nth s2 y z0 Iy) as (j & J1 & <-). fold x in K, I.
        destruct (interval_complete lo hi s2 x f1 k1 f2 k2 j HS2 F1 F2 J1 K) as (_ & A & B).
        apply in_flat_map. exists j. split; auto. apply in_seq. assert (j <= u) by (apply U2; tauto). lia.
  Qed.
End Loop.

(** ** fill_dists *)
Definition row_ids (sym : bool) (n i : nat) : list nat :=
  filter (fun j => negb (j =? i)) (seq (if sym then i + 1 else 0) (n - (if sym then i + 1 else 0))).

Definition entries (sym : bool) (n : nat) (d : nat -> nat -> Z) : list pdist :=
  flat_map (fun i => map (fun j => mkPD i j (d i j)) (row_ids sym n i)) (seq 0 n).

Lemma upd_mid {A} (l : list A) x y r : upd (l ++ x :: r) (length l) y = l ++ y :: r.
Proof. induction l as [|z l IH]; simpl; auto. rewrite IH. auto. Qed.

Lemma fill_row d i js pre k :
  length (filter (fun j => negb (j =? i)) js) <= k ->
  foldM (fun j '(l, count) => if j =? i then Ok (l, count) else l <- wr l count (mkPD i j (d i j));; Ok (l, count + 1))
    js (pre ++ repeat z0 k, length pre)
  = Ok (pre ++ map (fun j => mkPD i j (d i j)) (filter (fun j => negb (j =? i)) js)
            ++ repeat z0 (k - length (filter (fun j => negb (j =? i)) js)),
        length pre + length (filter (fun j => negb (j =? i)) js)).
Proof.
  revert pre k. induction js as [|j js IH]; intros pre k Hk; cbn [foldM filter].
  - cbn [length map app]. rewrite Nat.sub_0_r, Nat.add_0_r. auto.
  - cbn [filter] in Hk. destruct (j =? i) eqn:E; cbn [negb bind] in *; [apply IH; auto|].
    cbn [length] in Hk. destruct k as [|k]; [lia|]. unfold wr. cbn [repeat].
    replace (length pre <? _) with true by (symmetry; apply Nat.ltb_lt; rewrite app_length; cbn [length]; lia).
    cbn [bind]. rewrite upd_mid.
    replace (pre ++ mkPD i j (d i j) :: repeat z0 k) with ((pre ++ [mkPD i j (d i j)]) ++ repeat z0 k) by (rewrite <- app_assoc; auto).
    replace (length pre + 1) with (length (pre ++ [mkPD i j (d i j)])) by (rewrite app_length; auto).
    rewrite IH by lia. rewrite <- !app_assoc. cbn [map app length]. rewrite app_length. cbn [length].
    replace (S k - S (length (filter (fun j0 => negb (j0 =? i)) js))) with (k - length (filter (fun j0 => negb (j0 =? i)) js)) by lia.
    f_equal. f_equal. lia.
Qed.

Lemma fill_rows sym n d is pre k :
  length (flat_map (fun i => map (fun j => mkPD i j (d i j)) (row_ids sym n i)) is) <= k ->
  foldM (fun i s => for_ (if sym then i + 1 else 0) n
         (fun j '(l, count) => if j =? i then Ok (l, count) else l <- wr l count (mkPD i j (d i j));; Ok (l, count + 1)) s)
    is (pre ++ repeat z0 k, length pre)
  = Ok (pre ++ flat_map (fun i => map (fun j => mkPD i j (d i j)) (row_ids sym n i)) is
            ++ repeat z0 (k - length (flat_map (fun i => map (fun j => mkPD i j (d i j)) (row_ids sym n i)) is)),
        length pre + length (flat_map (fun i => map (fun j => mkPD i j (d i j)) (row_ids sym n i)) is)).
Proof.
  revert pre k. induction is as [|i is IH]; intros pre k Hk; cbn [foldM flat_map].
  - cbn [length app]. rewrite Nat.sub_0_r, Nat.add_0_r. auto.
  - cbn [flat_map] in Hk. rewrite app_length, map_length in Hk. unfold for_ at 1.
    rewrite fill_row by (unfold row_ids in Hk; lia). fold (row_ids sym n i). cbn [bind].
    rewrite app_assoc. replace (length pre + length (row_ids sym n i)) with (length (pre ++ map (fun j => mkPD i j (d i j)) (row_ids sym n i)))
      by (rewrite app_length, map_length; auto).
    rewrite IH by lia. rewrite !app_length, !map_length, <- !app_assoc. f_equal. f_equal; [|lia].
    rewrite Nat.sub_add_distr. reflexivity.
Qed.

Lemma row_len_asym n i : i < n -> length (row_ids false n i) = n - 1.
Proof.
  intros H. unfold row_ids. rewrite Nat.sub_0_r.
  assert (E : forall lo k, length (filter (fun j => negb (j =? i)) (seq lo k)) = if (lo <=? i) && (i <? lo + k) then k - 1 else k).
  { intros lo k. revert lo. induction k as [|k IH]; intros lo; cbn [seq filter].
    - destruct ((lo <=? i) && (i <? lo + 0)); simpl; lia.
    - specialize (IH (S lo)). destruct (Nat.eqb_spec lo i) as [E|N]; cbn [negb length]; rewrite IH;
      destruct (Nat.leb_spec (S lo) i), (Nat.leb_spec lo i), (Nat.ltb_spec i (S lo + k)), (Nat.ltb_spec i (lo + S k)); cbn [andb]; lia. }
  rewrite E. destruct (Nat.leb_spec 0 i), (Nat.ltb_spec i (0 + n)); simpl; lia.
Qed.

Lemma row_len_sym n i : length (row_ids true n i) = n - (i + 1).
Proof.
  unfold row_ids. rewrite <- (seq_length (n - (i + 1)) (i + 1)) at 2.
  assert (E : forall l, (forall j, In j l -> i < j) -> filter (fun j => negb (j =? i)) l = l).
  { induction l as [|j l IH]; intros H; auto. cbn [filter]. destruct (Nat.eqb_spec j i) as [->|N].
    - specialize (H i (or_introl eq_refl)). lia.
    - cbn [negb]. f_equal. apply IH. intros x I. apply H. right. auto. }
  rewrite E; auto. intros j I. apply in_seq in I. lia.
Qed.

Lemma entries_len sym n d : length (entries sym n d) = dist_len sym n.
Proof.
  assert (E : length (entries sym n d) = list_sum (map (fun i => length (row_ids sym n i)) (seq 0 n))).
  { unfold entries. generalize (seq 0 n). induction l as [|i l IH]; auto. cbn [flat_map map]. rewrite app_length, map_length, IH. auto. }
  rewrite E. unfold dist_len. destruct sym.
  - assert (H : forall k, k <= n -> list_sum (map (fun i => length (row_ids true n i)) (seq (n - k) k)) * 2 = k * (k - 1)).
    { induction k as [|k IH]; intros Hk; auto. replace (seq (n - S k) (S k)) with ((n - S k) :: seq (n - k) k).
      2:{ cbn [seq]. f_equal. f_equal. lia. }
      cbn [map]. cbn [list_sum fold_right]. fold (list_sum (map (fun i => length (row_ids true n i)) (seq (n - k) k))).
      rewrite Nat.mul_add_distr_r, IH by lia. rewrite row_len_sym. replace (n - (n - S k + 1)) with k by lia.
      destruct k; [reflexivity|]. replace (S (S k) - 1) with (S k) by lia. replace (S k - 1) with k by lia. lia. }
    specialize (H n (Nat.le_refl n)). replace (n - n) with 0 in H by lia. rewrite <- H. rewrite Nat.div_mul; lia.
  - assert (H : forall l, (forall i, In i l -> i < n) -> list_sum (map (fun i => length (row_ids false n i)) l) = length l * (n - 1)).
    { induction l as [|i l IH]; intros H; auto. cbn [map length]. cbn [list_sum fold_right]. fold (list_sum (map (fun i => length (row_ids false n i)) l)).
      rewrite IH by (intros; apply H; right; auto). rewrite row_len_asym by (apply H; left; auto). lia. }
    rewrite H by (intros i I; apply in_seq in I; lia). rewrite seq_length. auto.
Qed.

Lemma fill_dists_eq srt sym n d : fill_dists srt sym n d = Ok (mkR n sym (srt (entries sym n d))).
Proof.
  unfold fill_dists. unfold for_ at 1. pose proof (entries_len sym n d) as E. unfold entries in E.
  change (repeat (mkPD 0 0 0%Z) (dist_len sym n), 0) with ([] ++ repeat z0 (dist_len sym n), @length pdist []).
  rewrite fill_rows by (rewrite Nat.sub_0_r, E; lia). cbn [bind].
  rewrite Nat.sub_0_r, E. replace (dist_len sym n - dist_len sym n) with 0 by lia. cbn [repeat app]. rewrite app_nil_r. reflexivity.
Qed.

(** Ordered pairs of distinct elements the table of a set has an entry for. *)
Definition tabled (sym : bool) (n i j : nat) : Prop := i < n /\ j < n /\ i <> j /\ (sym = true -> i < j).

Lemma entries_in sym n d x : In x (entries sym n d) <->
  tabled sym n (d_fst x) (d_snd x) /\ d_dist x = d (d_fst x) (d_snd x).
Proof.
  unfold entries, row_ids, tabled. rewrite in_flat_map. split.
  - intros (i & I & J). apply in_map_iff in J. destruct J as (j & <- & J). apply filter_In in J. destruct J as (J & N).
    apply in_seq in I, J. cbn [d_fst d_snd d_dist]. destruct (Nat.eqb_spec j i); [discriminate|].
    destruct sym; repeat split; auto; lia.
  - destruct x as [i j z]. cbn [d_fst d_snd d_dist]. intros ((H1 & H2 & H3 & H4) & ->). exists i. split; [apply in_seq; lia|].
    apply in_map_iff. exists j. split; auto. apply filter_In. split.
    + apply in_seq. destruct sym; [specialize (H4 eq_refl); lia|lia].
    + destruct (Nat.eqb_spec j i); auto.
Qed.
