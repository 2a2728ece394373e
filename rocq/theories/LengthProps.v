(** LengthProps: get_correspondence with lengths that need not be those the graph was built for. *)
From Verif Require Import Base BaseFacts MBits MUtils MGraph MHeur MStack MRec MEnum MApi MExt MPy Spec SpecDec FindTwo RowFacts ConstructFacts LoadFacts ExportFacts LoadProps ExtFacts SearchBase IsoFacts SearchProps Samples ExtProps Samples.
Local Open Scope nat_scope.

Lemma corr2_decodes n2 : 1 <= n2 -> forall c, (forall v, In v c -> 1 <= v) ->
  exists a b, correspondence2 n2 c = Ok (Ret (a, b)) /\ length a = length c /\ length b = length c
    /\ forall k, k < length c -> nth k b 0 < n2 /\ nth k c 0 = nth k a 0 * n2 + nth k b 0 + 1.
Proof.
  intros N. induction c as [|v c IH]; intros P.
  - exists [], []. repeat split; cbn [length] in *; lia.
  - destruct IH as (a & b & E & LA & LB & D); [intros w I; apply P; right; exact I|].
    assert (V : 1 <= v) by (apply P; left; reflexivity).
    exists ((v - 1) / n2 :: a), ((v - 1) mod n2 :: b). cbn [correspondence2].
    destruct (Nat.eqb_spec v 0) as [Z|_]; [lia|]. destruct (Nat.eqb_spec n2 0) as [Z|_]; [lia|]. rewrite E. cbn [bind length].
    repeat split; try congruence; destruct k as [|k]; cbn [nth]; try (apply D; cbn [length] in *; lia).
    + apply Nat.mod_upper_bound. lia.
    + pose proof (Nat.div_mod (v - 1) n2 ltac:(lia)). lia.
Qed.

(** Any second length of at least 1 *)
Lemma lengths_decode p n adj q e len2 lb ub heur dfs cont :
  made p n adj -> has_edge adj -> storage_live p -> history p q -> lawful e lb -> 1 <= len2 ->
  ends_with (get_correspondence e q len2 lb ub heur dfs cont) (fun r =>
    match snd r with
    | Ret (a, b) => length b = length a /\ lb <= length a
        /\ (forall k, k < length a -> nth k b 0 < len2 /\ 1 <= nth k a 0 * len2 + nth k b 0 + 1 <= n)
        /\ (forall k l, k < length a -> l < length a -> k <> l ->
              adj (nth k a 0 * len2 + nth k b 0 + 1) (nth l a 0 * len2 + nth l b 0 + 1))
        /\ forall len1, n <= len1 * len2 -> forall k, k < length a -> nth k a 0 < len1
    | Raise x => x = EBounds
    end).
Proof.
  intros M HE LV H LA N. pose proof (history_ends p n adj q e lb ub heur dfs cont M HE LV H LA) as W. unfold get_correspondence.
  apply wp_bind. eapply wp_mono; [exact W|]. intros [q' [c|x]] (_ & C); cbn [snd] in *; [|apply wp_ok; auto].
  destruct C as ((SS & R & A) & L).
  destruct (corr2_decodes len2 N c) as (a & b & E & L1 & L2 & D); [intros v I; apply R, I|].
  rewrite E. cbn [bind]. apply wp_ok. cbn [snd]. rewrite L1.
  assert (IN : forall k, k < length c -> In (nth k c 0) c) by (intros k K; apply nth_In, K).
  split; [congruence|]. split; [exact L|]. split.
  - intros k K. destruct (D k K) as (D1 & D2). split; [exact D1|]. rewrite <- D2. apply R, IN, K.
  - split.
    + intros k l K K' NE. rewrite <- (proj2 (D k K)), <- (proj2 (D l K')). apply A; [apply IN, K|apply IN, K'|].
      assert (ND : NoDup c).
      { clear - SS. induction SS as [|x c' SS IH F]; constructor; auto. intros I. rewrite Forall_forall in F. specialize (F x I). lia. }
      intros X. apply NE. apply (proj1 (NoDup_nth c 0) ND); assumption.
    + intros len1 B k K. destruct (D k K) as (D1 & D2). pose proof (R _ (IN k K)) as RR. rewrite D2 in RR.
      destruct (le_lt_dec len1 (nth k a 0)) as [G|G]; [|exact G].
      assert (len1 * len2 <= nth k a 0 * len2) by (apply Nat.mul_le_mono_r, G). lia.
Qed.

(** A second length of 0: only a search that finds nothing comes back. *)
Lemma length_zero p n adj q e lb ub heur dfs cont :
  made p n adj -> has_edge adj -> storage_live p -> history p q -> lawful e lb -> 1 <= lb ->
  get_correspondence e q 0 lb ub heur dfs cont = UB DivZero
  \/ exists q', get_correspondence e q 0 lb ub heur dfs cont = Ok (q', Raise EBounds)
       /\ get_max_clique e q lb ub heur dfs cont = Ok (q', Raise EBounds).
Proof.
  intros M HE LV H LA N. pose proof (history_ends p n adj q e lb ub heur dfs cont M HE LV H LA) as W.
  destruct (ends_ok _ _ W) as ([q' [c|x]] & E & _ & C); cbn [snd] in C; unfold get_correspondence; rewrite E; cbn [bind].
  - left. destruct C as ((SS & R & A) & L). destruct c as [|v c]; [cbn [length] in L; lia|].
    specialize (R v (or_introl eq_refl)). cbn [correspondence2]. destruct (Nat.eqb_spec v 0) as [Z|_]; [lia|]. reflexivity.
  - right. subst x. exists q'. split; reflexivity.
Qed.
