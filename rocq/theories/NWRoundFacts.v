(** NWRoundFacts: weights whose sums are not rounded (C72). *)
From Verif Require Import Base MExt MNW MNWApi Spec SpecNW SpecRound RoundFacts.
Local Open Scope nat_scope.

Definition abs_sum (f : nat -> Z) (l : list nat) : Z := fold_right (fun v s => Z.abs (f v) + s)%Z 0%Z l.

Lemma abs_sum_nonneg f l : (0 <= abs_sum f l)%Z.
Proof. induction l as [|x l IH]; cbn [abs_sum fold_right]; [lia|]. fold (abs_sum f l). lia. Qed.

Lemma abs_sum_app f l l' : abs_sum f (l ++ l') = (abs_sum f l + abs_sum f l')%Z.
Proof. induction l as [|x l IH]; cbn [app abs_sum fold_right]; [reflexivity|]. fold (abs_sum f (l ++ l')) (abs_sum f l). lia. Qed.

(** Distinct members of L, and others of weight 0. *)
Lemma abs_sum_incl f L : forall l, NoDup l -> (forall v, In v l -> In v L \/ f v = 0%Z) -> (abs_sum f l <= abs_sum f L)%Z.
Proof.
  intros l. revert L. induction l as [|x l IH]; intros L ND H; [apply abs_sum_nonneg|]. inversion ND as [|? ? NI ND']; subst.
  cbn [abs_sum fold_right]. fold (abs_sum f l). destruct (H x (or_introl eq_refl)) as [I|Z0].
  - apply in_split in I. destruct I as (L1 & L2 & ->). rewrite abs_sum_app. cbn [abs_sum fold_right]. fold (abs_sum f L2).
    assert (X : (abs_sum f l <= abs_sum f (L1 ++ L2))%Z).
    { apply IH; auto. intros v Iv. destruct (H v (or_intror Iv)) as [J|]; auto. left. apply in_app_iff in J. apply in_app_iff.
      destruct J as [J|[->|J]]; auto. contradiction. }
    rewrite abs_sum_app in X. lia.
  - rewrite Z0. cbn [Z.abs Z.add]. apply IH; auto. intros v Iv. apply H. right. auto.
Qed.

Lemma abs_sum_all w : abs_sum (vweight w) (seq 1 (length w)) = fold_right (fun x s => Z.abs x + s)%Z 0%Z w.
Proof.
  assert (G : forall (g : nat -> nat) l, abs_sum (vweight w) (map g l) = abs_sum (fun v => vweight w (g v)) l) by
    (intros g l; induction l as [|x l IH]; cbn [map abs_sum fold_right]; [reflexivity|]; f_equal; exact IH).
  rewrite <- seq_shift, G. unfold vweight. cbn [nth]. clear G.
  assert (H : forall w1 w2, abs_sum (fun v => nth v (w1 ++ w2) 0%Z) (seq (length w1) (length w2)) = fold_right (fun x s => Z.abs x + s)%Z 0%Z w2).
  { intros w1 w2. revert w1. induction w2 as [|x w2 IH]; intros w1; [reflexivity|]. cbn [length seq fold_right abs_sum].
    f_equal; [rewrite app_nth2, Nat.sub_diag by lia; reflexivity|].
    specialize (IH (w1 ++ [x])). rewrite app_length, Nat.add_1_r, <- app_assoc in IH. exact IH. }
  exact (H [] w).
Qed.

Lemma weight_bound w l : NoDup l -> (Z.abs (weight w l) <= fold_right (fun x s => Z.abs x + s)%Z 0%Z w)%Z.
Proof.
  intros ND. rewrite <- abs_sum_all. apply Z.le_trans with (abs_sum (vweight w) l).
  - clear ND. induction l as [|x l IH]; cbn [weight abs_sum fold_right]; [lia|]. fold (abs_sum (vweight w) l). lia.
  - apply abs_sum_incl; auto. intros v _. destruct v as [|v]; [right; reflexivity|].
    destruct (Nat.lt_ge_cases v (length w)); [left; apply in_seq; lia|right]. unfold vweight. cbn [nth]. apply nth_overflow. lia.
Qed.

Lemma vweight_in w v : vweight w v = 0%Z \/ In (vweight w v) w.
Proof.
  destruct v as [|v]; [left; reflexivity|]. unfold vweight. cbn [nth]. destruct (Nat.lt_ge_cases v (length w)); [right; apply nth_In; auto|left; apply nth_overflow; lia].
Qed.

Lemma weight_grid k w l : (forall x, In x w -> (k | x)%Z) -> (k | weight w l)%Z.
Proof.
  intros H. induction l as [|v l IH]; cbn [weight]; [apply Z.divide_0_r|]. apply Z.divide_add_r; auto.
  destruct (vweight_in w v) as [-> | I]; [apply Z.divide_0_r|auto].
Qed.

Lemma grid_sums rnd w : nearest rnd -> on_grid w -> sums_exact rnd w.
Proof.
  intros N (k & Hk & G & B) l ND. apply (round_double rnd N). destruct (weight_grid _ w l G) as (q & E). rewrite E. apply grid_double; auto.
  pose proof (weight_bound w l ND) as X. rewrite E, Z.abs_mul in X. pose proof (pow_pos k Hk) as P. rewrite (Z.abs_eq (2 ^ k)) in X by lia.
  apply (Z.mul_le_mono_pos_r _ _ (2 ^ k)); lia.
Qed.

(** Small whole numbers. *)
Lemma small_sums w : (fold_right (fun x s => Z.abs x + s)%Z 0%Z w <=? 2 ^ 53)%Z = true -> sums_exact half_even w.
Proof.
  intros H. apply grid_sums; [exact half_even_nearest|]. exists 0%Z. split; [lia|]. split.
  - intros x _. exists x. lia.
  - apply Z.leb_le in H. lia.
Qed.

Lemma half_even_rises : rises half_even.
Proof. exact (round_rises half_even half_even_nearest). Qed.
