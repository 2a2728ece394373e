(** SpaceSamples: an edge and a ring of five vertices. *)
From Verif Require Import Base MUtils MGraph MApi MNW MNWEnum MNWApi Spec SpecNW SpecFirst SpecSpace SpecRound LoadFacts SearchProps EnumApi.
Local Open Scope nat_scope.

Definition ring_rows : list (nat * nat) := [(1, 2); (2, 3); (3, 4); (4, 5); (5, 1)].
Definition nb_of (rows : list (nat * nat)) (n v : nat) : list nat :=
  filter (fun u => existsb (fun '(x, y) => ((x =? v) && (y =? u)) || ((x =? u) && (y =? v))) rows && negb (u =? v)) (seq 1 n).

Lemma nb_adj rows n v u : rows_ok n rows -> In u (nb_of rows n v) <-> adj_rows rows v u.
Proof.
  intros OK. unfold nb_of. rewrite filter_In, andb_true_iff, existsb_exists, negb_true_iff, Nat.eqb_neq. split.
  - intros (_ & ((x, y) & I & E) & N). split; auto. rewrite orb_true_iff, !andb_true_iff, !Nat.eqb_eq in E. destruct E as [[-> ->]|[-> ->]]; auto.
  - intros (N & I). assert (1 <= u <= n) by (destruct I as [I|I]; apply OK in I; lia). split; [apply in_seq; lia|]. split; [|auto].
    destruct I as [I|I]; eexists; (split; [exact I|]); cbn; rewrite !Nat.eqb_refl; rewrite ?orb_true_r; reflexivity.
Qed.

Lemma nb_degree rows n v : rows_ok n rows -> degree (adj_rows rows) v (length (nb_of rows n v)).
Proof. intros OK. exists (nb_of rows n v). split; [apply NoDup_filter, seq_NoDup|]. split; auto. intros u. apply nb_adj. auto. Qed.

(** The checks below decide what a graph given by rows needs. *)
Definition after (rows : list (nat * nat)) (n v : nat) : list nat :=
  filter (fun u => (length (nb_of rows n v) <? length (nb_of rows n u)) || ((length (nb_of rows n v) =? length (nb_of rows n u)) && (v <? u))) (nb_of rows n v).

Lemma after_later rows n v : rows_ok n rows -> later_neighbours (adj_rows rows) v (length (after rows n v)).
Proof.
  intros OK. exists (after rows n v). split; [apply NoDup_filter, NoDup_filter, seq_NoDup|]. split; auto. intros u. unfold after.
  rewrite filter_In, (nb_adj rows n v u OK), orb_true_iff, andb_true_iff, !Nat.ltb_lt, Nat.eqb_eq. split; intros [A B]; (split; [auto|]).
  - intros du dv Du Dv. rewrite (degree_fun _ _ _ _ Du (nb_degree rows n u OK)), (degree_fun _ _ _ _ Dv (nb_degree rows n v OK)). lia.
  - specialize (B _ _ (nb_degree rows n u OK) (nb_degree rows n v OK)). lia.
Qed.

Definition most (f : nat -> nat) (n : nat) : nat := list_max (map f (seq 1 n)).

Lemma most_spec f n : 1 <= n -> (forall v, 1 <= v <= n -> f v <= most f n) /\ exists v, 1 <= v <= n /\ f v = most f n.
Proof.
  intros H. unfold most. split.
  - intros v Hv. pose proof (proj1 (list_max_le (map f (seq 1 n)) _) (Nat.le_refl _)) as L. rewrite Forall_forall in L. apply L, in_map, in_seq. lia.
  - assert (X : forall l, l <> [] -> In (list_max l) l).
    { induction l as [|x l IH]; [congruence|]. intros _. cbn [list_max fold_right]. fold (list_max l). destruct l as [|y l]; [left; cbn; lia|].
      destruct (Nat.max_spec x (list_max (y :: l))) as [[_ ->]|[_ ->]]; [right; apply IH; discriminate|left; auto]. }
    assert (I : In (list_max (map f (seq 1 n))) (map f (seq 1 n))) by (apply X; destruct n; [lia|discriminate]).
    apply in_map_iff in I. destruct I as (v & E & I). apply in_seq in I. exists v. split; [lia|auto].
Qed.

Lemma rows_need rows n : rows_ok n rows -> 1 <= n ->
  needs n (adj_rows rows) (2 + list_sum (map (fun v => (length (nb_of rows n v) + 64) / 64) (seq 1 n))
    + 2 * (most (fun v => length (after rows n v)) n + 2) * ((most (fun v => length (nb_of rows n v)) n + 64) / 64)).
Proof.
  intros OK H. destruct (most_spec (fun v => length (nb_of rows n v)) n H) as [A1 A2]. destruct (most_spec (fun v => length (after rows n v)) n H) as [B1 (vk & B2 & B3)].
  exists (fun v => length (nb_of rows n v)), (most (fun v => length (after rows n v)) n), (most (fun v => length (nb_of rows n v)) n).
  split; [intros; apply nb_degree; auto|]. split; auto. split; auto. split; [|split; [exists vk; split; auto; rewrite <- B3; apply after_later; auto|reflexivity]].
  intros v m Hv L. replace m with (length (after rows n v)); [apply B1; auto|].
  destruct (after_later rows n v OK) as (l & N & I & <-). destruct L as (l' & N' & I' & <-). apply Permutation_length, NoDup_Permutation; auto. intros x. rewrite I, I'. tauto.
Qed.

Lemma ring_ok : rows_ok 5 ring_rows.
Proof. intros u v H. cbn in H. intuition (try (inversion H0; subst; lia); try (inversion H; subst; lia)). Qed.
