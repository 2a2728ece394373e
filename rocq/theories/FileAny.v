(** FileAny: from_file on texts of any form (C09, C57). *)
From Verif Require Import Base MBits MUtils MGraph MHeur MEnum MApi MExt MFile Spec SpecFile SpecBits BaseFacts SetFacts SortFacts RowFacts ConstructFacts FileFacts LoadFacts.
From Coq Require Import Sorting.Sorted.
Local Open Scope nat_scope.
Local Arguments Nat.mul : simpl never.
Local Arguments Nat.sub : simpl never.

(** ** Lines naming vertex 0 *)
Lemma vertex_data_raw a n g i : sorted_lt a -> (forall k, k <= n -> In (k, k) a) -> (forall x, In x a -> fst x <= n /\ snd x <= n) ->
  (Z.of_nat (length a) < 2 ^ 63)%Z -> shaped a n g -> i <= n ->
  vertex_data g i = Ok (filter (fun x => negb (x =? i)) (row a i)).
Proof.
  intros HS Hself Hb HF (E1 & (mcs & E2) & E3) Hi. unfold vertex_data. rewrite E1, E2.
  assert (Hb' : forall x, In x a -> fst x < n + 1 /\ snd x < n + 1) by (intros x I; apply Hb in I; lia).
  assert (Hself' : forall k, k < n + 1 -> In (k, k) a) by (intros k I; apply Hself; lia).
  rewrite (rd_some _ i (mkvert a (mcs i) i)).
  2:{ rewrite nth_error_mapseq by exact Hb'. destruct (Nat.ltb_spec i (n + 1)); auto; lia. }
  cbn [bind mkvert vN velo].
  assert (wp (for_ 0 (length (row a i)) (fun k acc => e <- rd (map snd a) (off a i + k);; Ok (acc ++ [e])) [])
             (fun l => l = row a i)) as W.
  { eapply (wp_for 0 _ _ (fun k l => l = firstn k (row a i))); [lia|reflexivity| |].
    - intros k l Hk ->. rewrite (rd_some _ _ (nth k (row a i) 0)).
      2:{ eapply (el_at a (n + 1)); eauto; lia. }
      cbn [bind]. apply wp_ok. symmetry. apply firstn_S_nth. lia.
    - intros l ->. apply firstn_all. }
  apply wp_iff in W. destruct W as (l & W & ->). rewrite W. cbn [bind].
  replace (existsb (Nat.eqb i) (row a i)) with true; auto. symmetry. apply existsb_exists. exists i.
  rewrite Nat.eqb_refl. split; auto. apply row_in. apply Hself. lia.
Qed.

Lemma lines_raw n rows u v : In (u, v) (self_loops n ++ flat_map (line_pairs n) rows) <->
  u <= n /\ v <= n /\ (u = v \/ In (u, v) rows \/ In (v, u) rows).
Proof.
  rewrite in_app_iff, in_flat_map. unfold self_loops. rewrite in_map_iff. split.
  - intros [(i & E & I)|((x, y) & I & J)].
    + inversion E; subst. apply in_seq in I. repeat split; auto; lia.
    + unfold line_pairs, line_ok in J. cbn [fst snd] in J.
      destruct (Nat.leb_spec x n), (Nat.leb_spec y n), (Nat.eqb_spec x y); cbn [andb negb] in J;
        destruct J as [J|[J|[]]]; inversion J; subst; repeat split; auto; lia.
  - intros (H1 & H2 & H3). destruct (Nat.eq_dec u v) as [->|N].
    + left. exists v. split; auto. apply in_seq. lia.
    + right. destruct H3 as [H3|[I|I]]; [congruence| |]; eexists; (split; [exact I|]); unfold line_pairs, line_ok; cbn [fst snd];
        rewrite (proj2 (Nat.leb_le u n)), (proj2 (Nat.leb_le v n)) by lia.
      * destruct (Nat.eqb_spec u v); [congruence|]. simpl. auto.
      * destruct (Nat.eqb_spec v u); [congruence|]. simpl. auto.
Qed.

Lemma file_all_lines text n rows : allocatable (n + 1 + 2 * length rows) -> market text n rows ->
  wp (from_file (Some text)) (fun r => exists p, r = Ret p /\ p_nvert p = n /\ p_nedges p = length rows /\
    forall v, v <= n -> wp (vertex_neighbors p v) (fun r => exists l, r = Ret l /\ StronglySorted lt l
      /\ forall u, In u l <-> u <> v /\ u <= n /\ (In (u, v) rows \/ In (v, u) rows))).
Proof.
  intros HA HM. rewrite (from_file_eq text n rows HM HA).
  set (E := self_loops n ++ flat_map (line_pairs n) rows).
  assert (HL : length E = n + 1 + 2 * length rows).
  { unfold E, self_loops. rewrite app_length, map_length, seq_length, line_pairs_len. auto. }
  destruct (construct_spec n (n + 1 + 2 * length rows) E) as (a & A1 & A2 & A3).
  - intros [u v] I. apply lines_raw in I. simpl. lia.
  - intros i Hi. apply lines_raw. repeat split; auto.
  - rewrite HL. unfold allocatable in HA. lia.
  - apply wp_bind. unfold load_graph. apply wp_bind. eapply wp_mono; [exact A3|]. intros g B. apply wp_ok. apply wp_ok.
    eexists. split; [reflexivity|]. split; [reflexivity|]. split; [reflexivity|]. intros v Hv.
    unfold vertex_neighbors. cbn [p_nvert p_G]. destruct (Nat.ltb_spec n v); [lia|].
    assert (LA : length a <= length E). { apply NoDup_incl_length; [apply sorted_lt_nodup; auto|]. intros x I. apply A2. auto. }
    rewrite (vertex_data_raw a n g v); auto.
    + cbn [bind]. apply wp_ok. eexists. split; [reflexivity|]. split; [apply filter_sorted, row_sorted; auto|].
      intros u. rewrite filter_In, row_in, A2. unfold E. rewrite lines_raw. destruct (Nat.eqb_spec u v); simpl; intuition congruence.
    + intros k Hk. apply A2, lines_raw. repeat split; auto.
    + intros [x y] I. apply A2, lines_raw in I. simpl. lia.
    + rewrite HL in LA. unfold allocatable in HA. lia.
    + split; [apply (b_el _ _ _ _ B)|]. split; [exists (bound a); apply (b_vs _ _ _ _ B)|apply (b_nv _ _ _ _ B)].
Qed.

(** ** Every text *)
Definition file_ub (u : ub) : Prop := u = Uninit \/ u = OobWrite \/ u = BadShift.

Definition may {A} (o : outcome A) (Q : A -> Prop) : Prop :=
  match o with Ok x => Q x | UB u => file_ub u | OutOfFuel => False end.

Lemma may_bind {A B} (o : outcome A) (f : A -> outcome B) Q : may o (fun x => may (f x) Q) -> may (bind o f) Q.
Proof. destruct o; auto. Qed.

Lemma may_mono {A} (o : outcome A) (P Q : A -> Prop) : may o P -> (forall x, P x -> Q x) -> may o Q.
Proof. destruct o; simpl; auto. Qed.

Lemma may_wp {A} (o : outcome A) Q : wp o Q -> may o Q.
Proof. destruct o; simpl; auto; intros []. Qed.

Lemma may_run2 {S R} k (body : S -> outcome (step S R)) (I : S -> nat -> Prop) s n (Q : R -> Prop) :
  I s n -> n < 2 ^ k ->
  (forall s n, I s n -> may (body s) (fun r => match r with Cont s' => exists n', n' < n /\ I s' n' | Done x => Q x end)) ->
  may (run2 k body s) Q.
Proof.
  intros HI Hm Hs.
  assert (G : forall k s n, I s n ->
    may (loop2 k body s) (fun r => match r with Cont s' => exists n', n' + 2 ^ k <= n /\ I s' n' | Done x => Q x end)).
  { clear s k n HI Hm. induction k as [|k IH]; intros s n HI; cbn [loop2].
    - eapply may_mono. { apply Hs; eauto. } intros [s'|x]; auto. intros (n' & ? & ?). exists n'. split; auto. simpl. lia.
    - apply may_bind. eapply may_mono. { apply IH; eauto. }
      intros [s'|x]; simpl; auto. intros (n' & Hn' & HI').
      eapply may_mono. { apply IH; eauto. }
      intros [s''|x]; auto. intros (n'' & ? & ?). exists n''. split; auto; lia. }
  unfold run2. apply may_bind. eapply may_mono. { apply G; eauto. }
  intros [s'|x]; simpl; auto. intros (n' & H & _). lia.
Qed.

Lemma skip_line_shorter k l : l <> [] -> 0 < k -> length (fst (skip_line k l)) < length l.
Proof.
  intros N K.
  assert (L : forall l k, length (fst (skip_line k l)) <= length l).
  { clear. induction l as [|c l IH]; intros k; cbn [skip_line]; auto. destruct (c =? 10); [simpl; lia|].
    destruct k; auto. simpl. specialize (IH k). lia. }
  destruct l as [|c l]; [congruence|]. cbn [skip_line]. destruct (c =? 10); [simpl; lia|]. destruct k; [lia|].
  specialize (L l k). simpl. lia.
Qed.

Lemma preamble_total s : exists s', skip_preamble s = Ok s'.
Proof.
  unfold skip_preamble.
  match goal with |- exists s', loopN ?f ?b s = Ok s' => assert (W : wp (loopN f b s) (fun _ => True)) end.
  - apply (wp_loopN_rel _ _ (fun s n => n = length (i_rest s)) s (length (i_rest s))); [auto|lia|].
    intros s0 n ->. unfold peek. destruct (good s0) eqn:G0.
    + destruct (i_rest s0) as [|c r] eqn:R.
      * cbn. exact I.
      * assert (IL : length (i_rest (ignore_line s0)) < length (c :: r)).
        { unfold ignore_line. rewrite G0, R. pose proof (skip_line_shorter IGNORE (c :: r) ltac:(discriminate) ltac:(pose proof ignore_eq; lia)) as H.
          destruct (skip_line IGNORE (c :: r)). exact H. }
        destruct (c =? 37); [cbn [wp ends_with]; eauto|]. rewrite G0, R. destruct (c =? 35); cbn; eauto.
    + cbn. unfold good, set_fail. cbn [i_eof i_fail negb andb]. rewrite andb_false_r. cbn. exact I.
  - apply wp_iff in W. destruct W as (s' & E & _). eauto.
Qed.

Definition u64 (z : Z) : Prop := (0 <= z < 18446744073709551616)%Z.

Lemma take_digits_u64 l res ovf any : u64 res -> u64 (fst (fst (fst (take_digits l res ovf any)))).
Proof.
  revert res ovf any. induction l as [|c l IH]; intros res ovf any H; cbn [take_digits]; auto.
  destruct (is_digit c); auto. destruct (U64_MAX / 10 <? res)%Z; apply IH; auto. unfold wrap, u64. apply Z.mod_pos_bound. lia.
Qed.

Definition opt_u64 (v : option Z) : Prop := match v with Some z => u64 z | None => True end.

Lemma extract_u64 s old : opt_u64 old -> opt_u64 (snd (extract s old)).
Proof.
  intros H. unfold extract. destruct (good s); auto. destruct (skip_space (i_rest s)) as [|c l]; auto.
  unfold get_number.
  match goal with |- context [let '(neg, l) := ?X in _] => destruct X as [neg l'] end.
  pose proof (take_digits_u64 l' 0 false false ltac:(unfold u64; lia)) as T.
  destruct (take_digits l' 0 false false) as [[[res ovf] any] rest]. cbn [fst] in T.
  destruct (negb any); [simpl; unfold u64; lia|]. destruct ovf; [simpl; unfold U64_MAX, u64; lia|].
  destruct neg; simpl; auto. unfold wrap, u64. apply Z.mod_pos_bound. lia.
Qed.

Lemma may_value v : opt_u64 v -> may (value v) u64.
Proof. destruct v; simpl; auto. left; auto. Qed.

(** The edge vector: [k] self loops in front, pairs up to [n] throughout. *)
Definition vec (n : Z) (k size : nat) (E : pairs) : Prop :=
  length E = size /\ (forall x, In x E -> (Z.of_nat (fst x) <= n)%Z /\ (Z.of_nat (snd x) <= n)%Z) /\ forall i, i < k -> nth_error E i = Some (i, i).

Lemma may_wr n k size E j x : vec n k size E -> k <= j -> (Z.of_nat (fst x) <= n)%Z -> (Z.of_nat (snd x) <= n)%Z ->
  may (wr E j x) (vec n k size).
Proof.
  intros (H1 & H2 & H3) J X1 X2. unfold wr. destruct (Nat.ltb_spec j (length E)); [|right; left; auto].
  split; [rewrite upd_length; auto|]. split.
  - intros y I. apply In_nth_error in I. destruct I as (i & I). rewrite nth_error_upd in I.
    destruct ((j =? i) && (i <? length E)).
    + inversion I; subst; auto.
    + apply H2. eapply nth_error_In; eauto.
  - intros i Hi. rewrite nth_error_upd_neq by lia. auto.
Qed.

Lemma may_read_edge n m k size s i j v1 v2 E : u64 n -> u64 m -> vec n k size E -> k <= j -> opt_u64 v1 -> opt_u64 v2 ->
  may (read_edge n m (s, i, j, v1, v2, E)) (fun r => match r with
    | Cont (s', i', j', v1', v2', E') => (i < m)%Z /\ i' = (i + 1)%Z /\ k <= j' /\ vec n k size E' /\ opt_u64 v1' /\ opt_u64 v2'
    | Done E' => vec n k size E'
    end).
Proof.
  intros Hn Hm HV HJ H1 H2. unfold read_edge. destruct (Z.ltb_spec i m) as [L|L]; cbn [andb]; [|exact HV].
  destruct (i_eof s); cbn [negb]; [exact HV|].
  pose proof (extract_u64 s v1 H1) as X1. destruct (extract s v1) as [s1 w1]. cbn [snd] in X1.
  pose proof (extract_u64 s1 v2 H2) as X2. destruct (extract s1 v2) as [s2 w2]. cbn [snd] in X2.
  apply may_bind. eapply may_mono; [apply may_value; auto|]. intros a HA. apply may_bind.
  eapply may_mono; [apply may_value; auto|]. intros b HB. unfold u64 in *.
  assert (W : forall x y, (Z.of_nat (fst x) <= n)%Z -> (Z.of_nat (snd x) <= n)%Z -> (Z.of_nat (fst y) <= n)%Z -> (Z.of_nat (snd y) <= n)%Z ->
    may (E <- wr E j x;; E <- wr E (j + 1) y;; Ok (Cont (ignore_line s2, (i + 1)%Z, j + 2, Some a, Some b, E)))
     (fun r : step (istream * Z * nat * option Z * option Z * pairs) pairs => match r with
    | Cont (s', i', j', v1', v2', E') => (i < m)%Z /\ i' = (i + 1)%Z /\ k <= j' /\ vec n k size E' /\ opt_u64 v1' /\ opt_u64 v2'
    | Done E' => vec n k size E'
    end)).
  { intros x y A1 A2 B1 B2. apply may_bind. eapply may_mono; [apply (may_wr n k size); auto|]. intros E' V'.
    apply may_bind. eapply may_mono; [apply (may_wr n k size); auto; lia|]. intros E'' V''. cbn. unfold u64.
    split; [auto|]. split; [auto|]. split; [lia|]. split; [auto|]. split; lia. }
  destruct (Z.ltb_spec n a), (Z.ltb_spec n b), (Z.eqb_spec a b); cbn [orb]; apply W; cbn [fst snd]; lia.
Qed.

Lemma reader_total text : may (mmio4_reader text) (fun r => match r with
  | Raise x => x = EFile
  | Ret (n, m, E) => u64 n /\ u64 m /\ (wrap (n + 1) <= Z.of_nat (length E) < 2 ^ 60)%Z /\ vec n (Z.to_nat (wrap (n + 1))) (length E) E
  end).
Proof.
  unfold mmio4_reader. destruct (preamble_total (mkI text false false)) as (s & ->). cbn [bind].
  pose proof (extract_u64 s None I) as X1. destruct (extract s None) as [s1 w1]. cbn [snd] in X1.
  destruct (extract s1 None) as [s2 w2].
  pose proof (extract_u64 s2 None I) as X3. destruct (extract s2 None) as [s3 w3]. cbn [snd] in X3.
  apply may_bind. eapply may_mono; [apply may_value; auto|]. intros m Hm. apply may_bind. eapply may_mono; [apply may_value; auto|]. intros n Hn.
  set (size := wrap (2 * m + n + 1)). set (loops := wrap (n + 1)).
  assert (S1 : (0 <= size)%Z) by (unfold size, wrap; apply Z.mod_pos_bound; lia).
  assert (S2 : (0 <= loops)%Z) by (unfold loops, wrap; apply Z.mod_pos_bound; lia).
  assert (S3 : (loops <= n + 1)%Z) by (unfold loops, wrap; apply Z.mod_le; unfold u64 in Hn; lia).
  destruct (Z.leb_spec 1152921504606846976 size) as [L|L]; [reflexivity|].
  destruct (Z.ltb_spec size loops) as [L2|L2]; [right; left; auto|].
  apply may_bind. apply (may_mono _ (vec n (Z.to_nat loops) (Z.to_nat size))).
  - apply may_wp. eapply (wp_for 0 _ _ (fun k E => vec n k (Z.to_nat size) E)); [lia| | |auto].
    + split; [apply repeat_length|]. split; [|intros; lia]. intros x I. apply repeat_spec in I. subst. unfold u64 in Hn. simpl. lia.
    + intros i E Hi (V1 & V2 & V3). rewrite wr_ok by lia. apply wp_ok. split; [rewrite upd_length; auto|]. split.
      * intros y I. apply In_nth_error in I. destruct I as (k & I). rewrite nth_error_upd in I.
        destruct ((i =? k) && (k <? length E)); [inversion I; subst; simpl; lia|]. apply V2. eapply nth_error_In; eauto.
      * intros k Hk. destruct (Nat.eq_dec i k) as [->|NE].
        -- rewrite nth_error_upd, Nat.eqb_refl. cbn [andb]. destruct (Nat.ltb_spec k (length E)); [auto|lia].
        -- rewrite nth_error_upd_neq by auto. apply V3. lia.
  - intros E V. apply may_bind.
    apply (may_run2 65 _ (fun x r => let '(s, i, j, v1, v2, E) := x in (0 <= i)%Z /\ r = Z.to_nat (m - i) /\ Z.to_nat loops <= j
       /\ vec n (Z.to_nat loops) (Z.to_nat size) E /\ opt_u64 v1 /\ opt_u64 v2)) with (n := Z.to_nat m).
    + split; [lia|]. split; [rewrite Z.sub_0_r; auto|]. split; [auto|]. split; [auto|]. split; exact I.
    + apply Nat2Z.inj_lt. rewrite Nat2Z.inj_pow. change (Z.of_nat 2 ^ Z.of_nat 65)%Z with 36893488147419103232%Z. unfold u64 in Hm. lia.
    + intros [[[[[s' i] j] v1] v2] E'] r (I0 & -> & HJ & V' & O1 & O2).
      eapply may_mono; [apply (may_read_edge n m (Z.to_nat loops) (Z.to_nat size)); auto|].
      intros [[[[[[s'' i'] j'] v1'] v2'] E'']|E''].
      * intros (L' & -> & HJ' & V'' & O1' & O2'). exists (Z.to_nat (m - (i + 1))). split; [lia|]. split; [lia|]. auto.
      * intros (V1 & V2 & V3). cbn. split; [auto|]. split; [auto|]. split; [lia|]. rewrite V1. split; auto.
Qed.

Lemma every_text text : may (from_file (Some text)) (fun r => match r with
  | Ret p => (Z.of_nat (p_nvert p) < 2 ^ 60)%Z
  | Raise x => x = EFile \/ x = ENoEdges
  end).
Proof.
  unfold from_file. apply may_bind. eapply may_mono; [apply reader_total|].
  intros [[[n m] E]|x]; [|intros ->; left; auto].
  intros (Hn & Hm & HL & V1 & V2 & V3). destruct E as [|e E]; [right; auto|].
  destruct (Z.eqb_spec n U64_MAX) as [X|X]; [right; right; auto|]. set (F := e :: E) in *.
  assert (EW : wrap (n + 1) = (n + 1)%Z) by (unfold wrap; apply Z.mod_small; unfold u64, U64_MAX in *; lia).
  rewrite EW in *. unfold u64 in Hn.
  destruct (construct_spec (Z.to_nat n) (length F) F) as (a & _ & _ & W).
  - intros y I. apply V2 in I. lia.
  - intros i Hi. eapply nth_error_In. apply V3. lia.
  - lia.
  - apply may_wp. unfold load_graph. apply wp_bind. apply wp_bind. eapply wp_mono; [exact W|]. intros g _. apply wp_ok. apply wp_ok. cbn [p_nvert]. lia.
Qed.

(** ** After a header *)
Lemma skip_space_split l : exists pre, l = pre ++ skip_space l /\ Forall blank pre /\ match skip_space l with c :: _ => ~ blank c | [] => True end.
Proof.
  induction l as [|c l (pre & E & F & H)]; [exists []; repeat split; auto|]. cbn [skip_space]. destruct (is_space c) eqn:S0.
  - exists (c :: pre). split; [simpl; f_equal; auto|]. split; auto. constructor; auto. apply is_space_iff. auto.
  - exists []. split; auto. split; auto. intros B. apply is_space_iff in B. congruence.
Qed.

Lemma skip_space_some l : skip_space l <> [] <-> exists c, In c l /\ ~ blank c.
Proof.
  split.
  - intros N. destruct (skip_space_split l) as (pre & E & _ & H). destruct (skip_space l) as [|c r]; [congruence|].
    exists c. split; auto. rewrite E. apply in_app_iff. right. left. auto.
  - intros (c & I & B) E. destruct (skip_space_split l) as (pre & E' & F & _). rewrite E, app_nil_r in E'. subst pre.
    rewrite Forall_forall in F. auto.
Qed.



Lemma take_digits_late s rest res any : Forall digit_char s -> stops rest ->
  exists r, take_digits (s ++ rest) res true any = (r, true, any || match s with [] => false | _ => true end, rest).
Proof.
  intros F. revert res any. induction F as [|c s D F IH]; intros res any HS.
  - cbn [app]. rewrite orb_false_r. destruct rest as [|c r]; [eexists; reflexivity|]. cbn [take_digits].
    rewrite (bool_false _ _ (is_digit_iff c) HS). eauto.
  - cbn [app take_digits]. rewrite (proj2 (is_digit_iff c) D). cbn [orb].
    destruct (U64_MAX / 10 <? res)%Z.
    + destruct (IH res true HS) as (r & ->). exists r. rewrite orb_true_r. auto.
    + destruct (IH (wrap (res * 10 + Z.of_nat (c - 48))) true HS) as (r & ->). exists r. rewrite orb_true_r. auto.
Qed.

Lemma take_digits_over s rest v any : Forall digit_char s -> stops rest -> (Z.of_nat v < 2 ^ 64 <= Z.of_nat (num s v))%Z ->
  exists r, take_digits (s ++ rest) (Z.of_nat v) false any = (r, true, true, rest).
Proof.
  intros F. revert v any. induction F as [|c s D F IH]; intros v any HS HB.
  - cbn [fold_left] in HB. lia.
  - cbn [fold_left] in HB. cbn [app take_digits]. rewrite (proj2 (is_digit_iff c) D). unfold digit_char in D.
    assert (E : (U64_MAX / 10 = 1844674407370955161)%Z) by reflexivity.
    destruct (Z.ltb_spec (U64_MAX / 10) (Z.of_nat v)) as [L|L].
    { destruct (take_digits_late s rest (Z.of_nat v) true F HS) as (r & ->). eauto. }
    rewrite E in L. cbn [orb].
    assert (E2 : (Z.of_nat v * 10 + Z.of_nat (c - 48) = Z.of_nat (10 * v + (c - 48)))%Z) by lia. rewrite E2.
    destruct (Z.ltb_spec (U64_MAX - Z.of_nat (c - 48)) (Z.of_nat v * 10)) as [L2|L2].
    { destruct (take_digits_late s rest (wrap (Z.of_nat (10 * v + (c - 48)))) true F HS) as (r & ->). eauto. }
    unfold U64_MAX in L2. unfold wrap. rewrite Z.mod_small by lia. apply IH; auto. lia.
Qed.

Lemma digits_split l : exists s rest, l = s ++ rest /\ Forall digit_char s /\ stops rest.
Proof.
  induction l as [|c l (s & rest & -> & F & H)]; [exists [], []; repeat split; auto|].
  destruct (is_digit c) eqn:D.
  - exists (c :: s), rest. split; auto. split; auto. constructor; auto. apply is_digit_iff. auto.
  - exists [], (c :: s ++ rest). split; auto. split; auto. intros X. apply is_digit_iff in X. congruence.
Qed.

Definition signed (sign : list nat) : Prop := sign = [] \/ sign = [43] \/ sign = [45].

Definition finish (neg : bool) (l : list nat) : istream * Z :=
  let '(res, ovf, any, rest) := take_digits l 0 false false in
  let eof := match rest with [] => true | _ => false end in
  if negb any then (mkI rest eof true, 0%Z)
  else if ovf then (mkI rest eof true, U64_MAX)
  else (mkI rest eof false, if neg then wrap (- res) else res).

Lemma get_number_finish l : get_number l =
  match l with
  | c :: r => if c =? 45 then finish true r else if c =? 43 then finish false r else finish false l
  | [] => finish false l
  end.
Proof. unfold get_number. destruct l as [|c r]; [reflexivity|]. destruct (c =? 45); [reflexivity|]. destruct (c =? 43); reflexivity. Qed.

Lemma finish_ok neg s k rest : numeral s k -> stops rest -> rest <> [] ->
  good (fst (finish neg (s ++ rest))) = true /\ i_rest (fst (finish neg (s ++ rest))) = rest.
Proof.
  intros (NE & F & <- & B) HS NR. unfold finish.
  pose proof (take_digits_spec s rest 0 false F HS B) as T. change (Z.of_nat 0) with 0%Z in T. rewrite T.
  destruct s as [|c s]; [congruence|]. cbn [negb orb fst]. destruct rest; [congruence|]. split; reflexivity.
Qed.

Lemma finish_inv neg l : good (fst (finish neg l)) = true ->
  exists s k rest, l = s ++ rest /\ numeral s k /\ stops rest /\ i_rest (fst (finish neg l)) = rest.
Proof.
  destruct (digits_split l) as (s & rest & -> & F & HS). intros G. unfold finish in *.
  destruct (Z.lt_ge_cases (Z.of_nat (num s 0)) (2 ^ 64)) as [B|B].
  - pose proof (take_digits_spec s rest 0 false F HS B) as T. change (Z.of_nat 0) with 0%Z in T. rewrite T in *.
    destruct s as [|c s]; [cbn in G; destruct rest; discriminate|]. cbn [negb orb] in *.
    exists (c :: s), (num (c :: s) 0), rest. split; auto. split; [split; [discriminate|auto]|]. split; auto.
  - destruct (take_digits_over s rest 0 false F HS ltac:(split; [reflexivity|exact B])) as (r & T). change (Z.of_nat 0) with 0%Z in T. rewrite T in G.
    cbn in G. destruct rest; discriminate.
Qed.

Lemma numeral_head s k : numeral s k -> exists c r, s = c :: r /\ digit_char c.
Proof. intros (NE & F & _). destruct s as [|c r]; [congruence|]. inversion F; eauto. Qed.

Lemma get_number_ok sign s k rest : signed sign -> numeral s k -> stops rest -> rest <> [] ->
  good (fst (get_number (sign ++ s ++ rest))) = true /\ i_rest (fst (get_number (sign ++ s ++ rest))) = rest.
Proof.
  intros HS NM ST NR. rewrite get_number_finish. destruct HS as [->|[->| ->]]; cbn [app Nat.eqb].
  - destruct (numeral_head s k NM) as (c & r & -> & D). cbn [app]. unfold digit_char in D.
    destruct (Nat.eqb_spec c 45); [lia|]. destruct (Nat.eqb_spec c 43); [lia|]. apply (finish_ok false (c :: r) k); auto.
  - apply (finish_ok false s k); auto.
  - apply (finish_ok true s k); auto.
Qed.

Lemma get_number_inv l : good (fst (get_number l)) = true ->
  exists sign s k rest, l = sign ++ s ++ rest /\ signed sign /\ numeral s k /\ stops rest /\ i_rest (fst (get_number l)) = rest.
Proof.
  unfold signed. rewrite get_number_finish. destruct l as [|c l].
  - intros G. destruct (finish_inv false [] G) as (s & k & rest & E & H). exists [], s, k, rest. simpl. auto.
  - destruct (Nat.eqb_spec c 45) as [->|N1]; [|destruct (Nat.eqb_spec c 43) as [->|N2]]; intros G;
      destruct (finish_inv _ _ G) as (s & k & rest & E & H).
    + exists [45], s, k, rest. split; [simpl; f_equal; auto|]. auto.
    + exists [43], s, k, rest. split; [simpl; f_equal; auto|]. auto.
    + exists [], s, k, rest. auto.
Qed.

Lemma extract_some s v : extract s None = (fst (extract s None), Some v) -> good s = true /\ exists c, In c (i_rest s) /\ ~ blank c.
Proof.
  unfold extract. destruct (good s); [|discriminate]. pose proof (skip_space_some (i_rest s)) as SS. intros E. split; auto. apply SS. intros N. rewrite N in E. discriminate.
Qed.

Lemma extract_reads s : good s = true -> (exists c, In c (i_rest s) /\ ~ blank c) -> exists s' v, extract s None = (s', Some v).
Proof.
  intros G H. unfold extract. rewrite G. apply skip_space_some in H. destruct (skip_space (i_rest s)) as [|c l]; [congruence|].
  destruct (get_number (c :: l)) as [s' z]. eauto.
Qed.

(** v1 and v2 after the first two extractions *)
Lemma first_values body : two_fields body ->
  exists s1 s2 a b, extract (mkI body false false) None = (s1, Some a) /\ extract s1 None = (s2, Some b).
Proof.
  intros (pre & sign & s & k & rest & -> & FB & HS & NM & ST & c & I & B).
  assert (NR : rest <> []) by (intros ->; destruct I).
  assert (H : match sign ++ s ++ rest with x :: _ => ~ blank x | [] => False end).
  { destruct (numeral_head s k NM) as (x & r & -> & D). destruct HS as [->|[->| ->]]; cbn [app]; try (unfold blank; lia). apply digit_not_blank. auto. }
  assert (SP : skip_space (pre ++ sign ++ s ++ rest) = sign ++ s ++ rest).
  { apply skip_space_spec; auto. destruct (sign ++ s ++ rest); auto. }
  destruct (get_number_ok sign s k rest HS NM ST NR) as [G R].
  destruct (extract_reads (fst (get_number (sign ++ s ++ rest)))) as (s2 & b & E2); [auto|rewrite R; eauto|].
  exists (fst (get_number (sign ++ s ++ rest))), s2, (snd (get_number (sign ++ s ++ rest))), b. split; auto.
  unfold extract, good. cbn [i_eof i_fail negb andb i_rest]. rewrite SP.
  destruct (sign ++ s ++ rest) as [|x r]; [contradiction|]. destruct (get_number (x :: r)); reflexivity.
Qed.

Lemma first_values_inv body s1 s2 a b : extract (mkI body false false) None = (s1, Some a) -> extract s1 None = (s2, Some b) -> two_fields body.
Proof.
  intros E1 E2. destruct (extract_some s1 b) as (G & c & I & B); [rewrite E2; reflexivity|].
  unfold extract, good in E1. cbn [i_eof i_fail negb andb i_rest] in E1.
  destruct (skip_space_split body) as (pre & EB & FB & _). destruct (skip_space body) as [|x l]; [discriminate|].
  pose proof (get_number_inv (x :: l)) as H. destruct (get_number (x :: l)) as [s1' z]. injection E1 as -> _. cbn [fst] in H.
  destruct (H G) as (sign & s & k & rest & EL & HS & NM & ST & ER). exists pre, sign, s, k, rest.
  split; [rewrite EB; f_equal; auto|]. split; [auto|]. split; [auto|]. split; [eauto|]. split; [auto|]. rewrite ER in I. eauto.
Qed.

Lemma reader_fields text n m body : header text n m body -> allocatable (n + 1 + 2 * m) -> m = 0 \/ body = [] \/ two_fields body ->
  wp (mmio4_reader text) (fun r => exists E, r = Ret (Z.of_nat n, Z.of_nat m, E) /\ in_range n (2 * m) E).
Proof.
  intros HD HA HB. rewrite (read_header text n m body HD HA). apply wp_bind.
  apply (wp_run2_rel 65 _ (fun x r => let '(s, i, j, v1, v2, E) := x in exists k, k + r = m /\ i = Z.of_nat k /\ j = n + 1 + 2 * k
     /\ in_range n (2 * m) E /\ ((v1 = None /\ v2 = None /\ s = mkI body (match body with [] => true | _ => false end) false) \/ (valid_value v1 /\ valid_value v2)))) with (n := m).
  - exists 0. split; [lia|]. split; [auto|]. split; [lia|]. split; [|left; auto]. split; [|split].
    + unfold self_loops. rewrite app_length, map_length, seq_length, repeat_length. auto.
    + intros x I. apply in_app_iff in I. unfold self_loops in I. rewrite in_map_iff in I. destruct I as [(i & <- & I)|I].
      * apply in_seq in I. simpl. lia.
      * apply repeat_spec in I. subst. simpl. lia.
    + intros i Hi. unfold self_loops. rewrite nth_error_app1 by (rewrite map_length, seq_length; auto).
      rewrite nth_error_map. rewrite (nth_error_Some_nth _ i 0) by (rewrite seq_length; auto). rewrite seq_nth by auto. reflexivity.
  - apply (edge_fuel n). auto.
  - intros [[[[[s i] j] v1] v2] E] r (k & HK & -> & -> & HR & HS).
    destruct (Nat.eq_dec r 0) as [->|NR].
    { unfold read_edge. destruct (Z.ltb_spec (Z.of_nat k) (Z.of_nat m)); [lia|]. cbn [andb]. apply wp_ok. apply wp_ok. eauto. }
    eapply wp_mono; [apply (turn_any n m s k); auto; [lia|]|].
    + destruct HS as [(-> & -> & ->)|(V1 & V2)].
      * destruct HB as [HB|[->|HB]]; [lia|left; auto|]. right.
        assert (NB : body <> []) by (intros ->; destruct HB as (pre & sign & s & kk & rest & EB & _ & _ & _ & _ & c & I & _);
          symmetry in EB; apply app_eq_nil in EB; destruct EB as [_ EB]; apply app_eq_nil in EB; destruct EB as [_ EB];
          apply app_eq_nil in EB; destruct EB as [_ ->]; destruct I).
        destruct body as [|c0 r0]; [congruence|]. split; auto.
        destruct (first_values (c0 :: r0) HB) as (s1 & s2 & a & b & E1 & E2). exists a, b, s1, s2. rewrite E1, E2.
        pose proof (extract_u64 (mkI (c0 :: r0) false false) None I) as U1. rewrite E1 in U1. cbn in U1.
        pose proof (extract_u64 s1 None I) as U2. rewrite E2 in U2. cbn in U2. unfold u64 in *. repeat split; auto; lia.
      * destruct (i_eof s); auto. right. split; auto.
        pose proof (extract_valid s v1 V1) as (a & A1 & A2). destruct (extract s v1) as [s' w1] eqn:X1. cbn [snd] in A1. subst w1.
        pose proof (extract_valid s' v2 V2) as (b & B1 & B2). destruct (extract s' v2) as [s'' w2] eqn:X2. cbn [snd] in B1. subst w2.
        exists a, b, s', s''. repeat split; auto.
    + intros [[[[[[s' i'] j'] v1'] v2'] E']|E'].
      * intros (-> & -> & R' & V1 & V2). exists (r - 1). split; [lia|]. exists (S k). split; [lia|]. split; auto.
      * intros R'. apply wp_ok. eauto.
Qed.

Lemma header_fields text n m body : header text n m body -> allocatable (n + 1 + 2 * m) -> m = 0 \/ body = [] \/ two_fields body ->
  wp (from_file (Some text)) (fun r => exists p, r = Ret p /\ p_nvert p = n /\ p_nedges p = m).
Proof.
  intros HD HA HB. unfold from_file. apply wp_bind. eapply wp_mono; [apply (reader_fields text n m body HD HA HB)|].
  intros r (E & -> & HL & HR & HS). destruct E as [|x E]; [simpl in HL; lia|].
  unfold allocatable in HA. destruct (Z.eqb_spec (Z.of_nat n) U64_MAX) as [X|X]; [unfold U64_MAX in X; lia|].
  rewrite !Nat2Z.id. set (F := x :: E) in *.
  destruct (construct_spec n (length F) F) as (a & _ & _ & W).
  - intros y I. apply HR in I. lia.
  - intros i Hi. eapply nth_error_In. apply HS. lia.
  - rewrite HL. lia.
  - unfold load_graph. apply wp_bind. apply wp_bind. eapply wp_mono; [exact W|]. intros g _. apply wp_ok. apply wp_ok. eauto.
Qed.

Lemma loop2_first {S R} k (body : S -> outcome (step S R)) s u : body s = UB u -> loop2 k body s = UB u.
Proof. intros H. induction k as [|k IH]; cbn [loop2]; auto. rewrite IH. reflexivity. Qed.

Lemma header_no_fields text n m body : header text n m body -> allocatable (n + 1 + 2 * m) -> 0 < m -> body <> [] -> ~ two_fields body ->
  from_file (Some text) = UB Uninit.
Proof.
  intros HD HA Hm NB NT. unfold from_file. rewrite (read_header text n m body HD HA).
  destruct body as [|c0 r0]; [congruence|]. unfold run2. rewrite (loop2_first _ _ _ Uninit); [reflexivity|].
  unfold read_edge. destruct (Z.ltb_spec 0 (Z.of_nat m)); [|lia]. cbn [andb i_eof negb].
  destruct (extract (mkI (c0 :: r0) false false) None) as [s1 v1] eqn:E1. destruct (extract s1 None) as [s2 v2] eqn:E2.
  destruct v1 as [a|]; [|reflexivity]. destruct v2 as [b|]; [|reflexivity]. exfalso. apply NT. eapply first_values_inv; eauto.
Qed.

Lemma header_too_big text n m body : header text n m body -> (2 ^ 60 <= Z.of_nat (n + 1 + 2 * m) < 2 ^ 64)%Z ->
  from_file (Some text) = Ok (Raise EFile).
Proof.
  intros (cs & pre & s1 & g1 & s2 & g2 & s3 & n' & -> & FC & FB & N1 & G1 & N2 & G2 & N3 & SB) HA.
  unfold from_file, mmio4_reader. rewrite skip_preamble_spec; auto.
  2:{ destruct pre as [|c pre]; simpl.
      - destruct N1 as (NE & F & _). destruct s1 as [|c s1]; [congruence|]. simpl. inversion F; subst. unfold digit_char in *. lia.
      - inversion FB; subst. unfold blank in *. lia. }
  cbn [bind].
  rewrite (extract_spec pre s1 (g1 ++ s2 ++ g2 ++ s3 ++ body) n); auto; [|apply gap_stops; auto].
  destruct (g1 ++ s2 ++ g2 ++ s3 ++ body) as [|c0 r0] eqn:E0; [destruct G1 as (NG & _); destruct g1; [congruence|discriminate]|].
  rewrite <- E0. rewrite (extract_spec g1 s2 (g2 ++ s3 ++ body) n'); [|destruct G1; auto|auto|apply gap_stops; auto].
  destruct (g2 ++ s3 ++ body) as [|c1 r1] eqn:E1; [destruct G2 as (NG & _); destruct g2; [congruence|discriminate]|].
  rewrite <- E1. rewrite (extract_spec g2 s3 body m); [|destruct G2; auto|auto|auto].
  cbn [value bind].
  assert (E2 : wrap (2 * Z.of_nat m + Z.of_nat n + 1) = Z.of_nat (n + 1 + 2 * m)).
  { unfold wrap. rewrite Z.mod_small; lia. }
  rewrite E2. destruct (Z.leb_spec 1152921504606846976 (Z.of_nat (n + 1 + 2 * m))) as [L|L]; [reflexivity|lia].
Qed.

Lemma after_header text n m body : header text n m body -> (Z.of_nat (n + 1 + 2 * m) < 2 ^ 64)%Z ->
  (allocatable (n + 1 + 2 * m) /\ (m = 0 \/ body = [] \/ two_fields body)
     /\ exists p, from_file (Some text) = Ok (Ret p) /\ p_nvert p = n /\ p_nedges p = m)
  \/ (allocatable (n + 1 + 2 * m) /\ ~ (m = 0 \/ body = [] \/ two_fields body) /\ from_file (Some text) = UB Uninit)
  \/ (~ allocatable (n + 1 + 2 * m) /\ from_file (Some text) = Ok (Raise EFile)).
Proof.
  intros HD HB. destruct (Z.lt_ge_cases (Z.of_nat (n + 1 + 2 * m)) (2 ^ 60)) as [A|A].
  - destruct (Nat.eq_dec m 0) as [M|M]; [|destruct (list_eq_dec Nat.eq_dec body []) as [B|B]].
    1,2: left; pose proof (header_fields text n m body HD A ltac:(auto)) as W; apply wp_iff in W; destruct W as (r & E & p & -> & H1 & H2); split; [auto|]; split; [auto|]; eauto.
    destruct (extract (mkI body false false) None) as [s1 v1] eqn:E1. destruct (extract s1 None) as [s2 v2] eqn:E2.
    assert (D : two_fields body \/ ~ two_fields body).
    { destruct v1 as [a|]; [destruct v2 as [b|]|].
      - left. eapply first_values_inv; eauto.
      - right. intros H. destruct (first_values body H) as (s1' & s2' & a' & b' & X1 & X2). congruence.
      - right. intros H. destruct (first_values body H) as (s1' & s2' & a' & b' & X1 & X2). congruence. }
    destruct D as [D|D].
    + left. pose proof (header_fields text n m body HD A ltac:(auto)) as W; apply wp_iff in W; destruct W as (r & E & p & -> & H1 & H2); split; [auto|]; split; [auto|]; eauto.
    + right. left. split; [auto|]. split; [intuition|]. eapply header_no_fields; eauto. lia.
  - right. right. split; [unfold allocatable; lia|]. eapply header_too_big; eauto.
Qed.

Lemma every_text_cases text :
  (exists p, from_file (Some text) = Ok (Ret p)) \/ from_file (Some text) = Ok (Raise EFile) \/ from_file (Some text) = Ok (Raise ENoEdges)
  \/ from_file (Some text) = UB Uninit \/ from_file (Some text) = UB OobWrite \/ from_file (Some text) = UB BadShift.
Proof.
  pose proof (every_text text) as H. destruct (from_file (Some text)) as [[p|x]|u|]; cbn in H; [eauto| | |contradiction].
  - destruct H as [->| ->]; auto.
  - destruct H as [->|[->| ->]]; auto 7.
Qed.
