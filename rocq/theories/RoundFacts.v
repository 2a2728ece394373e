(** RoundFacts: the interval of edges_from_relsets in floating-point arithmetic (C69). *)
From Verif Require Import Base Spec SpecRound.
Local Open Scope Z_scope.

Lemma pow_pos k : 0 <= k -> 0 < 2 ^ k.
Proof. intros. apply Z.pow_pos_nonneg; lia. Qed.

Lemma pow_split a b : 0 <= a -> 0 <= b -> 2 ^ (a + b) = 2 ^ a * 2 ^ b.
Proof. intros. apply Z.pow_add_r; auto. Qed.

(** Large doubles lie on a grid, and small multiples of the grid are doubles. *)
Lemma double_grid k z : 0 <= k -> double z -> 2 ^ (k + 52) <= Z.abs z -> exists q, z = q * 2 ^ k.
Proof.
  intros K (m & e & M & E & ->) B. destruct (Z.lt_ge_cases e k) as [L|G].
  - exfalso. rewrite Z.abs_mul, (Z.abs_eq (2 ^ e)) in B by (pose proof (pow_pos e E); lia).
    assert (X : Z.abs m * 2 ^ e < 2 ^ 53 * 2 ^ e) by (apply Z.mul_lt_mono_pos_r; auto; apply pow_pos; auto).
    rewrite <- pow_split in X by lia. assert (Y : 2 ^ (53 + e) <= 2 ^ (k + 52)) by (apply Z.pow_le_mono_r; lia). lia.
  - exists (m * 2 ^ (e - k)). replace e with ((e - k) + k) at 1 by lia. rewrite pow_split by lia. ring.
Qed.

Lemma grid_double k q : 0 <= k -> Z.abs q <= 2 ^ 53 -> double (q * 2 ^ k).
Proof.
  intros K B. destruct (Z.eq_dec (Z.abs q) (2 ^ 53)) as [E|N].
  - exists (Z.sgn q), (53 + k). split; [|split; [lia|]].
    + destruct q; cbn; lia.
    + rewrite pow_split by lia. rewrite <- E, Z.mul_assoc. f_equal. rewrite Z.mul_comm. symmetry. apply Z.abs_sgn.
  - exists q, k. split; [lia|auto].
Qed.

Lemma small_double z : Z.abs z <= 2 ^ 53 -> double z.
Proof. intros B. replace z with (z * 2 ^ 0) by lia. apply grid_double; lia. Qed.

Lemma double_opp z : double z -> double (- z).
Proof. intros (m & e & M & E & ->). exists (- m), e. split; [lia|]. split; [auto|ring]. Qed.

Lemma double_twice z : double z -> double (2 * z).
Proof. intros (m & e & M & E & ->). exists m, (e + 1). split; auto. split; [lia|]. rewrite pow_split by lia. ring. Qed.

(** ** Rounding *)
Section Nearest.
  Variable rnd : Z -> Z.
  Hypothesis Hn : nearest rnd.

  Lemma round_double x : double x -> rnd x = x.
  Proof. intros D. destruct (Hn x) as [_ H]. specialize (H x D). lia. Qed.

  Lemma round_rises : rises rnd.
  Proof.
    intros a b L. destruct (Z.eq_dec a b) as [->|N]; [lia|]. destruct (Hn a) as [D1 H1], (Hn b) as [D2 H2].
    specialize (H1 _ D2). specialize (H2 _ D1). lia.
  Qed.

  Lemma round_below x y : double y -> x <= y -> rnd x <= y.
  Proof. intros D L. rewrite <- (round_double y D). apply round_rises. auto. Qed.

  Lemma round_above x y : double y -> y <= x -> y <= rnd x.
  Proof. intros D L. rewrite <- (round_double y D). apply round_rises. auto. Qed.

  (** A number that is rounded down lies between two points of a grid, no further than half way. *)
  Lemma rounded_down x : rnd x < x -> exists k q, 0 <= k /\ 2 ^ (k + 52) <= Z.abs x /\ rnd x = q * 2 ^ k
    /\ q * 2 ^ k < x < (q + 1) * 2 ^ k /\ 2 * (x - q * 2 ^ k) <= 2 ^ k /\ (0 < x -> 2 ^ (k + 52) <= q * 2 ^ k).
  Proof.
    intros L. assert (ND : ~ double x) by (intros D; rewrite (round_double x D) in L; lia).
    assert (B : 2 ^ 53 < Z.abs x) by (destruct (Z.le_gt_cases (Z.abs x) (2 ^ 53)) as [S|S]; [exfalso; apply ND, small_double; auto|auto]).
    set (k := Z.log2 (Z.abs x) - 52).
    assert (LG : 53 <= Z.log2 (Z.abs x)) by (apply Z.log2_le_pow2; lia).
    assert (K : 0 <= k) by (unfold k; lia).
    pose proof (Z.log2_spec (Z.abs x) ltac:(lia)) as [S1 S2].
    replace (Z.log2 (Z.abs x)) with (k + 52) in S1, S2 by (unfold k; lia).
    replace (Z.succ (k + 52)) with (53 + k) in S2 by lia.
    pose proof (pow_pos k K) as PK. set (g := 2 ^ k) in *.
    assert (E1 : 2 ^ (k + 52) = 2 ^ 52 * g) by (rewrite Z.add_comm, pow_split by lia; reflexivity).
    assert (E2 : 2 ^ (53 + k) = 2 ^ 53 * g) by (rewrite pow_split by lia; reflexivity).
    set (q := x / g). pose proof (Z.div_mod x g ltac:(lia)) as DM. pose proof (Z.mod_pos_bound x g ltac:(lia)) as MB. fold q in DM.
    assert (Q : - 2 ^ 53 <= q < 2 ^ 53).
    { split; [apply Z.div_le_lower_bound; lia|apply Z.div_lt_upper_bound; lia]. }
    assert (DQ : double (q * g)) by (apply grid_double; auto; lia).
    assert (DQ1 : double ((q + 1) * g)) by (apply grid_double; auto; lia).
    assert (NE : x <> q * g) by (intros XE; apply ND; rewrite XE; exact DQ).
    destruct (Hn x) as [DR HR]. pose proof (HR _ DQ1) as H1.
    assert (A : q * g <= rnd x) by (apply round_above; auto; lia).
    assert (POSQ : 0 < x -> 2 ^ 52 <= q) by (intros P; apply Z.div_le_lower_bound; lia).
    assert (NEGQ : x < 0 -> q + 1 <= - 2 ^ 52).
    { intros P. assert (X : x <= - (2 ^ 52 * g)) by lia.
      assert (XN : x <> - 2 ^ 52 * g) by (intros XE; apply ND; rewrite XE; apply grid_double; auto; lia).
      assert (q < - 2 ^ 52); [|lia]. apply Z.div_lt_upper_bound; lia. }
    assert (G : exists r, rnd x = r * g).
    { apply double_grid; auto. rewrite E1. destruct (Z.lt_ge_cases 0 x) as [P|P].
      - specialize (POSQ P). nia.
      - assert (X : x < 0) by lia. specialize (NEGQ X). assert (q * g <= (-2 ^ 52 - 1) * g) by nia. nia. }
    destruct G as [r Er]. assert (RQ : r = q) by nia. rewrite RQ in Er. exists k, q. fold g. split; [auto|]. split; [lia|]. split; [auto|].
    split; [nia|]. split; [nia|]. intros P. specialize (POSQ P). rewrite E1. nia.
  Qed.

  Section Interval.
    Variables d eps : Z.
    Hypothesis Dd : double d.
    Hypothesis De : double eps.
    Hypothesis Pd : 0 <= d.
    Hypothesis Pe : 0 <= eps.
    Let lo : Z := rnd (d - eps).
    Let hi : Z := rnd (lo + 2 * eps).

    (** The interval as computed contains every double of the exact one. *)
    Lemma interval_contains t : double t -> Z.abs (d - t) <= eps -> lo <= t <= hi.
    Proof.
      intros Dt A. split; [apply round_below; auto; lia|]. destruct (Z.le_gt_cases t (lo + 2 * eps)) as [L|G]; [apply round_above; auto|].
      exfalso. assert (LX : lo < d - eps) by lia.
      destruct (rounded_down (d - eps) LX) as (k & q & K & B & E & I & H & P). fold lo in E.
      pose proof (pow_pos k K) as PK. set (g := 2 ^ k) in *.
      destruct (Z.lt_ge_cases 0 (d - eps)) as [X|X].
      - specialize (P X). destruct (double_grid k d K Dd ltac:(lia)) as (a & Ea). destruct (double_grid k t K Dt ltac:(lia)) as (b & Eb).
        fold g in Ea, Eb. assert (b < 2 * a - q) by nia. nia.
      - assert (X' : d - eps < 0) by (destruct (Z.eq_dec (d - eps) 0) as [Z0|]; [rewrite Z0 in *; change (Z.abs 0) with 0 in B; pose proof (pow_pos (k + 52) ltac:(lia)); lia|lia]).
        destruct (Z.lt_ge_cases d (d - eps - lo)) as [S|S].
        + destruct (Hn (d - eps)) as [_ HN]. specialize (HN (- eps) (double_opp _ De)). fold lo in HN. lia.
        + destruct (double_grid k eps K De ltac:(lia)) as (a & Ea). destruct (double_grid k t K Dt ltac:(lia)) as (b & Eb).
          fold g in Ea, Eb. assert (q + 2 * a < b) by nia. nia.
    Qed.

    (** Nothing below the exact interval is in the computed one, except for its lower end. *)
    Lemma interval_low t : double t -> lo <= t -> d - eps <= t \/ t = lo.
    Proof.
      intros Dt L. destruct (Z.le_gt_cases (d - eps) t) as [G|G]; auto. right. destruct (Hn (d - eps)) as [_ H]. specialize (H t Dt). fold lo in H. lia.
    Qed.
  End Interval.

  (** The error of one operation *)
  Lemma round_error x : 2 ^ 53 * Z.abs (x - rnd x) <= Z.abs x.
  Proof.
    destruct (Z.le_gt_cases (Z.abs x) (2 ^ 53)) as [S|S]; [rewrite (round_double x (small_double x S)); lia|].
    set (k := Z.log2 (Z.abs x) - 52).
    assert (LG : 53 <= Z.log2 (Z.abs x)) by (apply Z.log2_le_pow2; lia).
    assert (K : 0 <= k) by (unfold k; lia).
    pose proof (Z.log2_spec (Z.abs x) ltac:(lia)) as [S1 S2].
    replace (Z.log2 (Z.abs x)) with (k + 52) in S1, S2 by (unfold k; lia).
    replace (Z.succ (k + 52)) with (53 + k) in S2 by lia.
    pose proof (pow_pos k K) as PK. set (g := 2 ^ k) in *.
    assert (E1 : 2 ^ (k + 52) = 2 ^ 52 * g) by (rewrite Z.add_comm, pow_split by lia; reflexivity).
    assert (E2 : 2 ^ (53 + k) = 2 ^ 53 * g) by (rewrite pow_split by lia; reflexivity).
    set (q := x / g). pose proof (Z.div_mod x g ltac:(lia)) as DM. pose proof (Z.mod_pos_bound x g ltac:(lia)) as MB. fold q in DM.
    assert (Q : - 2 ^ 53 <= q < 2 ^ 53).
    { split; [apply Z.div_le_lower_bound; lia|apply Z.div_lt_upper_bound; lia]. }
    assert (DQ : double (q * g)) by (apply grid_double; auto; lia).
    assert (DQ1 : double ((q + 1) * g)) by (apply grid_double; auto; lia).
    destruct (Hn x) as [_ HR]. pose proof (HR _ DQ). pose proof (HR _ DQ1). rewrite E1 in S1. lia.
  Qed.

  (** The computed upper end exceeds the exact one by at most three units in the last place. *)
  Lemma interval_high d eps t : 0 <= d -> 0 <= eps -> t <= rnd (rnd (d - eps) + 2 * eps) -> 2 ^ 53 * (t - (d + eps)) <= 3 * (d + eps).
  Proof.
    intros Pd Pe L. pose proof (round_error (d - eps)) as E1. pose proof (round_error (rnd (d - eps) + 2 * eps)) as E2. lia.
  Qed.
End Nearest.

Lemma half_even_nearest : nearest half_even.
Proof.
  intros x. unfold half_even. set (k := Z.log2 (Z.abs x) - 52). destruct (Z.leb_spec k 0) as [S|S].
  { assert (double x). { apply small_double. destruct (Z.eq_dec x 0) as [->|N]; [cbn; lia|].
      pose proof (Z.log2_spec (Z.abs x) ltac:(lia)) as [_ S2]. assert (2 ^ Z.succ (Z.log2 (Z.abs x)) <= 2 ^ 53) by (apply Z.pow_le_mono_r; unfold k in S; lia). lia. }
    split; auto. intros y _. lia. }
  assert (X : x <> 0) by (intros ->; unfold k in S; cbn in S; lia).
  assert (K : 0 <= k) by lia.
  pose proof (Z.log2_spec (Z.abs x) ltac:(lia)) as [S1 S2].
  replace (Z.log2 (Z.abs x)) with (k + 52) in S1, S2 by (unfold k; lia).
  replace (Z.succ (k + 52)) with (53 + k) in S2 by lia.
  pose proof (pow_pos k K) as PK. set (g := 2 ^ k) in *.
  assert (E1 : 2 ^ (k + 52) = 2 ^ 52 * g) by (rewrite Z.add_comm, pow_split by lia; reflexivity).
  assert (E2 : 2 ^ (53 + k) = 2 ^ 53 * g) by (rewrite pow_split by lia; reflexivity).
  cbv zeta. set (q := x / g). set (r := x mod g). pose proof (Z.div_mod x g ltac:(lia)) as DM. pose proof (Z.mod_pos_bound x g ltac:(lia)) as MB. fold q r in DM, MB.
  assert (Q : - 2 ^ 53 <= q < 2 ^ 53).
  { split; [apply Z.div_le_lower_bound; lia|apply Z.div_lt_upper_bound; lia]. }
  assert (DQ : double (q * g)) by (apply grid_double; auto; lia).
  assert (DQ1 : double ((q + 1) * g)) by (apply grid_double; auto; lia).
  destruct (Z.eq_dec r 0) as [R|R].
  { rewrite R. destruct (Z.ltb_spec (2 * 0) g) as [_|C]; [|lia]. split; auto. intros y D. lia. }
  assert (NB : forall y, double y -> y <= q * g \/ (q + 1) * g <= y).
  { intros y D. destruct (Z.le_gt_cases y (q * g)) as [|G1]; auto. destruct (Z.le_gt_cases ((q + 1) * g) y) as [|G2]; auto. exfalso.
    assert (B : 2 ^ 52 * g <= Z.abs y).
    { destruct (Z.lt_ge_cases 0 x) as [P|P].
      - assert (2 ^ 52 <= q) by (apply Z.div_le_lower_bound; lia). nia.
      - assert (q < - 2 ^ 52); [|nia]. apply (Z.mul_lt_mono_pos_r g); [lia|]. rewrite E1 in S1. lia. }
    destruct (double_grid k y K D ltac:(rewrite E1; auto)) as (b & Eb). fold g in Eb.
    rewrite Eb in G1, G2. apply Z.mul_lt_mono_pos_r in G1, G2; lia. }
  destruct (Z.ltb_spec (2 * r) g) as [C1|C1]; [|destruct (Z.ltb_spec g (2 * r)) as [C2|C2]; [|destruct (Z.even q)]];
    (split; [auto|]; intros y D; destruct (NB y D); nia).
Qed.
