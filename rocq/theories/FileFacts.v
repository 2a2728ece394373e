(** FileFacts: reading and writing Matrix Market files. *)
From Verif Require Import Base MBits MUtils MGraph MHeur MEnum MApi MExt MFile Spec BaseFacts SetFacts.
Local Open Scope nat_scope.
Local Arguments Nat.mul : simpl never.
Local Arguments Nat.div : simpl never.
Local Arguments Nat.modulo : simpl never.
Local Arguments Nat.sub : simpl never.

(** ** Characters *)
Lemma is_space_iff c : is_space c = true <-> blank c.
Proof.
  unfold is_space, blank. rewrite orb_true_iff, andb_true_iff, Nat.eqb_eq, !Nat.leb_le. lia.
Qed.

Lemma is_digit_iff c : is_digit c = true <-> digit_char c.
Proof. unfold is_digit, digit_char. rewrite andb_true_iff, !Nat.leb_le. lia. Qed.

Lemma digit_not_blank c : digit_char c -> ~ blank c.
Proof. unfold digit_char, blank. lia. Qed.

Lemma bool_false (b : bool) (P : Prop) : (b = true <-> P) -> ~ P -> b = false.
Proof. destruct b; auto. intros H N. destruct N. apply H. auto. Qed.

(** ** Lines *)
Lemma skip_line_nl k s r : ~ In newline s -> length s <= k -> skip_line k (s ++ newline :: r) = (r, false).
Proof.
  revert k. induction s as [|c s IH]; intros k N L.
  - destruct k; reflexivity.
  - cbn [app skip_line]. destruct (Nat.eqb_spec c 10) as [->|]; [destruct N; left; auto|].
    cbn [length] in L. destruct k; [lia|]. apply IH; [intros I; apply N; right; auto|lia].
Qed.

Lemma skip_line_end k s : ~ In newline s -> length s <= k -> skip_line k s = ([], true).
Proof.
  revert k. induction s as [|c s IH]; intros k N L; [destruct k; reflexivity|].
  cbn [skip_line]. destruct (Nat.eqb_spec c 10) as [->|]; [destruct N; left; auto|].
  cbn [length] in L. destruct k; [lia|]. apply IH; [intros I; apply N; right; auto|lia].
Qed.

Lemma ignore_eq : Z.of_nat IGNORE = 2048%Z.
Proof. unfold IGNORE. rewrite N_nat_Z. reflexivity. Qed.

Lemma skip_space_spec pre l : Forall blank pre -> match l with c :: _ => ~ blank c | [] => True end ->
  skip_space (pre ++ l) = l.
Proof.
  induction 1 as [|c pre B F IH]; intros H; cbn [app skip_space].
  - destruct l as [|c l]; auto. cbn [skip_space]. rewrite (bool_false _ _ (is_space_iff c) H). auto.
  - rewrite (proj2 (is_space_iff c) B). auto.
Qed.

(** ** Numbers *)
Notation num := (fold_left (fun v c => 10 * v + (c - 48))).

Lemma num_ge s v : v <= num s v.
Proof. revert v. induction s as [|c s IH]; intros v; simpl; auto. eapply Nat.le_trans; [|apply IH]. lia. Qed.

Definition stops (l : list nat) : Prop := match l with c :: _ => ~ digit_char c | [] => True end.

Lemma take_digits_spec s rest v any : Forall digit_char s -> stops rest -> (Z.of_nat (num s v) < 2 ^ 64)%Z ->
  take_digits (s ++ rest) (Z.of_nat v) false any
  = (Z.of_nat (num s v), false, any || match s with [] => false | _ => true end, rest).
Proof.
  intros F. revert v any. induction F as [|c s D F IH]; intros v any HS HB.
  - cbn [app fold_left]. rewrite orb_false_r. destruct rest as [|c r]; auto. cbn [take_digits].
    rewrite (bool_false _ _ (is_digit_iff c) HS). auto.
  - cbn [fold_left] in *. cbn [app take_digits]. rewrite (proj2 (is_digit_iff c) D).
    pose proof (num_ge s (10 * v + (c - 48))) as G. unfold digit_char in D.
    assert (E : (U64_MAX / 10 = 1844674407370955161)%Z) by reflexivity.
    destruct (Z.ltb_spec (U64_MAX / 10) (Z.of_nat v)) as [L|L]; [rewrite E in L; lia|].
    assert (E2 : wrap (Z.of_nat v * 10 + Z.of_nat (c - 48)) = Z.of_nat (10 * v + (c - 48))).
    { unfold wrap. rewrite Z.mod_small; lia. }
    destruct (Z.ltb_spec (U64_MAX - Z.of_nat (c - 48)) (Z.of_nat v * 10)) as [L2|L2]; [unfold U64_MAX in L2; lia|].
    cbn [orb]. rewrite E2, IH; auto. rewrite orb_true_r. auto.
Qed.

Lemma get_number_spec s rest k : numeral s k -> stops rest ->
  get_number (s ++ rest) = (mkI rest (match rest with [] => true | _ => false end) false, Z.of_nat k).
Proof.
  intros (NE & F & V & B) HS. unfold get_number.
  destruct s as [|c s]; [congruence|]. cbn [app]. inversion F; subst.
  assert (D : digit_char c) by auto. unfold digit_char in D.
  destruct (Nat.eqb_spec c 45); [lia|]. destruct (Nat.eqb_spec c 43); [lia|].
  pose proof (take_digits_spec (c :: s) rest 0 false F HS ltac:(auto)) as T. change (Z.of_nat 0) with 0%Z in T. cbn [app] in T. rewrite T. auto.
Qed.

Lemma extract_spec pre s rest k old : Forall blank pre -> numeral s k -> stops rest ->
  extract (mkI (pre ++ s ++ rest) false false) old = (mkI rest (match rest with [] => true | _ => false end) false, Some (Z.of_nat k)).
Proof.
  intros FB HN HS. unfold extract, good. cbn [i_eof i_fail negb andb i_rest].
  destruct s as [|c s]; [destruct HN as (N & _); congruence|].
  assert (D : digit_char c) by (destruct HN as (_ & F & _); inversion F; auto).
  pose proof (digit_not_blank c D) as NB.
  rewrite skip_space_spec; auto. cbn [app]. pose proof (get_number_spec (c :: s) rest k HN HS) as G. cbn [app] in G. rewrite G. auto.
Qed.

Lemma gap_stops g s r : gap g -> stops (g ++ s ++ r).
Proof. intros (N & F). destruct g as [|c g]; [congruence|]. simpl. inversion F; subst. intros D. apply (digit_not_blank c); auto. Qed.

(** ** The preamble *)
Lemma skip_preamble_spec cs l : Forall comment cs ->
  match l with c :: _ => c <> 37 /\ c <> 35 | [] => False end ->
  skip_preamble (mkI (concat cs ++ l) false false) = Ok (mkI l false false).
Proof.
  intros FC HL.
  assert (G : forall fuel, length cs < fuel ->
     loopN fuel
    (fun s =>
       let '(s, a) := peek s in
       if match a with Some c => c =? 37 | None => false end then Ok (Cont (ignore_line s))
       else
         let '(s, b) := peek s in
         if match b with Some c => c =? 35 | None => false end then Ok (Cont (ignore_line s))
         else Ok (Done s)) (mkI (concat cs ++ l) false false) = Ok (mkI l false false)).
  { induction FC as [|c cs HC FC IH]; [|destruct HC as (x & r & -> & HX & HN & HB)]; intros fuel Hf.
    - destruct fuel as [|fuel]; [simpl in Hf; lia|]. cbn [concat app loopN]. destruct l as [|c l]; [contradiction|]. destruct HL as [L1 L2].
      unfold peek, good. cbn [i_eof i_fail i_rest negb andb].
      destruct (Nat.eqb_spec c 37); [congruence|]. destruct (Nat.eqb_spec c 35); [congruence|]. reflexivity.
    - destruct fuel as [|fuel]; [simpl in Hf; lia|]. cbn [loopN].
      assert (E : concat ((x :: r ++ [newline]) :: cs) ++ l = (x :: r) ++ newline :: (concat cs ++ l)).
      { cbn [concat app]. rewrite <- !app_assoc. reflexivity. }
      rewrite E.
      assert (IL : ignore_line (mkI ((x :: r) ++ newline :: concat cs ++ l) false false) = mkI (concat cs ++ l) false false).
      { unfold ignore_line, good. cbn [i_eof i_fail i_rest negb andb]. rewrite skip_line_nl; auto.
        - intros [I|I]; [unfold newline in I; lia|auto].
        - pose proof ignore_eq. cbn [length]. lia. }
      unfold peek at 1, good. cbn [i_eof i_fail i_rest negb andb app].
      destruct HX as [-> | ->].
      + cbn [Nat.eqb bind]. change (37 :: r ++ newline :: concat cs ++ l) with ((37 :: r) ++ newline :: concat cs ++ l). rewrite IL.
        apply IH. simpl in Hf. lia.
      + cbn [Nat.eqb]. unfold peek at 1, good. cbn [i_eof i_fail i_rest negb andb app Nat.eqb bind].
        change (35 :: r ++ newline :: concat cs ++ l) with ((35 :: r) ++ newline :: concat cs ++ l). rewrite IL. apply IH. simpl in Hf. lia. }
  unfold skip_preamble. apply G. cbn [i_rest]. rewrite app_length.
  assert (length cs <= length (concat cs)); [|lia].
  clear G. induction FC as [|c cs HC FC IH]; simpl; auto. destruct HC as (x & r & -> & _). rewrite !app_length. simpl. lia.
Qed.

(** ** The edge loop *)
Definition line_ok (n : nat) (x : nat * nat) : bool := (fst x <=? n) && (snd x <=? n) && negb (fst x =? snd x).

Definition line_pairs (n : nat) (x : nat * nat) : pairs :=
  if line_ok n x then [x; (snd x, fst x)] else [(0, 0); (0, 0)].

Lemma line_pairs_len n rows : length (flat_map (line_pairs n) rows) = 2 * length rows.
Proof.
  induction rows as [|x rows IH]; auto. cbn [flat_map length]. rewrite app_length, IH.
  unfold line_pairs. destruct (line_ok n x); simpl; lia.
Qed.

Lemma loops_spec n k : wp (for_ 0 (n + 1) (fun j E => wr E j (j, j)) (repeat (0, 0) (n + 1 + k)))
  (fun E => E = self_loops n ++ repeat (0, 0) k).
Proof.
  eapply (wp_for 0 _ _ (fun j E => E = map (fun i => (i, i)) (seq 0 j) ++ repeat (0, 0) (n + 1 + k - j))); [lia| | |].
  - simpl. f_equal. lia.
  - intros j E Hj ->. apply wp_wr.
    + rewrite app_length, map_length, seq_length, repeat_length. lia.
    + replace (n + 1 + k - j) with (S (n + 1 + k - S j)) by lia. cbn [repeat].
      pose proof (upd_app_mid (map (fun i => (i, i)) (seq 0 j)) (0, 0) (j, j) (repeat (0, 0) (n + 1 + k - S j))) as U.
      rewrite map_length, seq_length in U. rewrite U. rewrite seq_S, map_app, <- app_assoc. reflexivity.
  - intros E ->. unfold self_loops. f_equal. f_equal. lia.
Qed.

Lemma write_two (A : pairs) x y k : (E1 <- wr (A ++ repeat (0, 0) (S (S k))) (length A) x;; wr E1 (length A + 1) y) = Ok ((A ++ [x; y]) ++ repeat (0, 0) k).
Proof.
  rewrite wr_ok by (rewrite app_length, repeat_length; lia). cbn [bind repeat]. rewrite upd_app_mid.
  rewrite wr_ok by (rewrite app_length; simpl; lia). f_equal.
  pose proof (upd_app_mid (A ++ [x]) (0, 0) y (repeat (0, 0) k)) as U. rewrite app_length in U. cbn [length] in U.
  rewrite <- app_assoc in U. cbn [app] in U. rewrite U, <- !app_assoc. reflexivity.
Qed.

Lemma write_row n u v (A : pairs) k (s : istream) (i : Z) (j : nat) : j = length A ->
  (let a := Z.of_nat u in let b := Z.of_nat v in
    if (Z.of_nat n <? a)%Z || (Z.of_nat n <? b)%Z || (a =? b)%Z then
      E <- wr (A ++ repeat (0, 0) (S (S k))) j (0, 0);;
      E <- wr E (j + 1) (0, 0);;
      Ok (Cont (s, (i + 1)%Z, j + 2, Some a, Some b, E))
    else
      E <- wr (A ++ repeat (0, 0) (S (S k))) j (Z.to_nat a, Z.to_nat b);;
      E <- wr E (j + 1) (Z.to_nat b, Z.to_nat a);;
      Ok (Cont (s, (i + 1)%Z, j + 2, Some a, Some b, E)))
  = (Ok (Cont (s, (i + 1)%Z, j + 2, Some (Z.of_nat u), Some (Z.of_nat v), (A ++ line_pairs n (u, v)) ++ repeat (0, 0) k))
      : outcome (step (istream * Z * nat * option Z * option Z * pairs) pairs)).
Proof.
  intros ->. cbv zeta.
  assert (W : forall x y, (E <- wr (A ++ repeat (0, 0) (S (S k))) (length A) x;;
      E <- wr E (length A + 1) y;;
      Ok (Cont (s, (i + 1)%Z, length A + 2, Some (Z.of_nat u), Some (Z.of_nat v), E)))
     = (Ok (Cont (s, (i + 1)%Z, length A + 2, Some (Z.of_nat u), Some (Z.of_nat v), (A ++ [x; y]) ++ repeat (0, 0) k))
      : outcome (step (istream * Z * nat * option Z * option Z * pairs) pairs))).
  { intros x y. pose proof (write_two A x y k) as W. apply bind_ok in W. destruct W as (E1 & W1 & W2). rewrite W1. cbn [bind]. rewrite W2. auto. }
  unfold line_pairs, line_ok. cbn [fst snd]. rewrite !Nat2Z.id.
  destruct (Z.ltb_spec (Z.of_nat n) (Z.of_nat u)), (Z.ltb_spec (Z.of_nat n) (Z.of_nat v)), (Z.eqb_spec (Z.of_nat u) (Z.of_nat v)),
    (Nat.leb_spec u n), (Nat.leb_spec v n), (Nat.eqb_spec u v); try lia; cbn [orb andb negb]; apply W.
Qed.

Definition done_or (rows : list (nat * nat)) (s : istream) : Prop :=
  rows = [] \/ (i_eof s = false /\ i_fail s = false /\ edge_lines rows (i_rest s)).

Lemma trailer_stops t r : trailer t -> stops (t ++ newline :: r).
Proof. intros (_ & _ & H). destruct t; simpl in *; auto. unfold digit_char, newline. lia. Qed.

Lemma trailer_stops_end t : trailer t -> stops t.
Proof. intros (_ & _ & H). destruct t; simpl in *; auto. Qed.

Lemma trailer_len t : trailer t -> length t <= IGNORE.
Proof. intros (_ & H & _). pose proof ignore_eq. lia. Qed.

Lemma turn_spec n m u v rows s i j v1 v2 A k : j = length A -> (i < m)%Z ->
  i_eof s = false -> i_fail s = false -> edge_lines ((u, v) :: rows) (i_rest s) ->
  exists s', done_or rows s' /\
    read_edge (Z.of_nat n) m (s, i, j, v1, v2, A ++ repeat (0, 0) (S (S k)))
    = Ok (Cont (s', (i + 1)%Z, j + 2, Some (Z.of_nat u), Some (Z.of_nat v), (A ++ line_pairs n (u, v)) ++ repeat (0, 0) k)).
Proof.
  intros HJ HI HE HF EL. destruct s as [rest eof fail]. cbn [i_eof i_fail i_rest] in *. subst eof fail.
  unfold read_edge. rewrite (proj2 (Z.ltb_lt i m) HI). cbn [andb i_eof negb].
  inversion EL as [| pre s1 g s2 t x y FB N1 G N2 T E1 E2 | pre s1 g s2 t x y rows' rest' FB N1 G N2 T EL' E1 E2]; subst.
  - rewrite (extract_spec pre s1 (g ++ s2 ++ t) u); auto; [|apply gap_stops; auto].
    destruct (g ++ s2 ++ t) as [|c0 r0] eqn:E0.
    { destruct G as (NG & _). destruct g; [congruence|discriminate]. }
    rewrite <- E0. rewrite (extract_spec g s2 t v); [|destruct G; auto|auto|apply trailer_stops_end; auto].
    destruct t as [|c1 t1].
    + eexists. split; [left; reflexivity|]. cbn [value bind]. apply (write_row n u v A k); auto.
    + eexists. split; [left; reflexivity|]. cbn [value bind]. apply (write_row n u v A k); auto.
  - rewrite (extract_spec pre s1 (g ++ s2 ++ t ++ newline :: rest') u); auto; [|apply gap_stops; auto].
    destruct (g ++ s2 ++ t ++ newline :: rest') as [|c0 r0] eqn:E0.
    { destruct G as (NG & _). destruct g; [congruence|discriminate]. }
    rewrite <- E0. rewrite (extract_spec g s2 (t ++ newline :: rest') v); [|destruct G; auto|auto|apply trailer_stops; auto].
    destruct (t ++ newline :: rest') as [|c1 r1] eqn:E1; [destruct t; discriminate|]. rewrite <- E1.
    assert (IL : ignore_line (mkI (t ++ newline :: rest') false false) = mkI rest' false false).
    { unfold ignore_line, good. cbn [i_eof i_fail i_rest negb andb]. rewrite skip_line_nl; [auto|apply T|apply trailer_len; auto]. }
    rewrite IL. exists (mkI rest' false false). split; [right; cbn [i_eof i_fail i_rest]; auto|]. cbn [value bind]. apply (write_row n u v A k); auto.
Qed.

Lemma edge_loop_spec n rows s A fuel : length A = n + 1 -> done_or rows s -> length rows < 2 ^ fuel ->
  wp (run2 fuel (read_edge (Z.of_nat n) (Z.of_nat (length rows))) (s, 0%Z, n + 1, None, None, A ++ repeat (0, 0) (2 * length rows)))
    (fun E => E = A ++ flat_map (line_pairs n) rows).
Proof.
  intros HA HD HL. set (m := length rows) in *.
  apply (wp_run2_rel fuel _ (fun x r => let '(s, i, j, v1, v2, E) := x in exists done todo, rows = done ++ todo /\ r = length todo
     /\ i = Z.of_nat (length done) /\ j = n + 1 + 2 * length done /\ E = (A ++ flat_map (line_pairs n) done) ++ repeat (0, 0) (2 * length todo)
     /\ done_or todo s)) with (n := m).
  - exists [], rows. repeat split; auto; simpl; try lia. rewrite app_nil_r. auto.
  - auto.
  - clear s HD. intros [[[[[s i] j] v1] v2] E] r (done & todo & ER & -> & -> & -> & -> & HD).
    assert (Hm : m = length done + length todo) by (unfold m; rewrite ER, app_length; auto).
    destruct todo as [|[u v] todo].
    + unfold read_edge. destruct (Z.ltb_spec (Z.of_nat (length done)) (Z.of_nat m)) as [L|L]; [simpl in Hm; lia|].
      cbn [andb]. apply wp_ok. rewrite app_nil_r in ER. subst done. simpl. rewrite app_nil_r. auto.
    + destruct HD as [HD|(H1 & H2 & H3)]; [discriminate|]. cbn [length] in Hm.
      destruct (turn_spec n (Z.of_nat m) u v todo s (Z.of_nat (length done)) (n + 1 + 2 * length done) v1 v2
        (A ++ flat_map (line_pairs n) done) (2 * length todo)) as (s' & D' & TE); auto.
      * rewrite app_length, line_pairs_len. lia.
      * lia.
      * replace (2 * length ((u, v) :: todo)) with (S (S (2 * length todo))) by (cbn [length]; lia).
        rewrite TE. apply wp_ok. exists (length todo). split; [simpl; lia|].
        exists (done ++ [(u, v)]), todo. rewrite <- app_assoc. split; [auto|]. split; [auto|]. rewrite app_length. cbn [length].
        split; [lia|]. split; [lia|]. split; [|auto].
        rewrite flat_map_app. cbn [flat_map]. rewrite app_nil_r, <- !app_assoc. auto.
Qed.

(** ** The reader *)
Lemma read_header text n m body : header text n m body -> allocatable (n + 1 + 2 * m) ->
  mmio4_reader text =
    (E <- run2 65 (read_edge (Z.of_nat n) (Z.of_nat m))
       (mkI body (match body with [] => true | _ => false end) false, 0%Z, n + 1, None, None, self_loops n ++ repeat (0, 0) (2 * m));;
     Ok (Ret (Z.of_nat n, Z.of_nat m, E))).
Proof.
  intros (cs & pre & s1 & g1 & s2 & g2 & s3 & n' & -> & FC & FB & N1 & G1 & N2 & G2 & N3 & SB) HA.
  unfold mmio4_reader. rewrite skip_preamble_spec; auto.
  2:{ destruct pre as [|c pre]; simpl.
      - destruct N1 as (NE & F & _). destruct s1 as [|c s1]; [congruence|]. simpl. inversion F; subst. unfold digit_char in *. lia.
      - inversion FB; subst. unfold blank in *. lia. }
  cbn [bind].
  rewrite (extract_spec pre s1 (g1 ++ s2 ++ g2 ++ s3 ++ body) n); auto; [|apply gap_stops; auto].
  destruct (g1 ++ s2 ++ g2 ++ s3 ++ body) as [|c0 r0] eqn:E0; [destruct G1 as (NG & _); destruct g1; [congruence|discriminate]|].
  rewrite <- E0. rewrite (extract_spec g1 s2 (g2 ++ s3 ++ body) n'); [|destruct G1; auto|auto|apply gap_stops; auto].
  destruct (g2 ++ s3 ++ body) as [|c1 r1] eqn:E1; [destruct G2 as (NG & _); destruct g2; [congruence|discriminate]|].
  rewrite <- E1. rewrite (extract_spec g2 s3 body m); [|destruct G2; auto|auto|auto].
  cbn [value bind]. unfold allocatable in HA.
  assert (E2 : wrap (2 * Z.of_nat m + Z.of_nat n + 1) = Z.of_nat (n + 1 + 2 * m)).
  { unfold wrap. rewrite Z.mod_small; lia. }
  assert (E3 : wrap (Z.of_nat n + 1) = Z.of_nat (n + 1)).
  { unfold wrap. rewrite Z.mod_small; lia. }
  rewrite E2, E3. destruct (Z.leb_spec 1152921504606846976 (Z.of_nat (n + 1 + 2 * m))) as [L|L]; [lia|].
  destruct (Z.ltb_spec (Z.of_nat (n + 1 + 2 * m)) (Z.of_nat (n + 1))) as [L2|L2]; [lia|].
  rewrite !Nat2Z.id.
  pose proof (loops_spec n (2 * m)) as W1. apply wp_iff in W1. destruct W1 as (E & -> & ->). cbn [bind]. reflexivity.
Qed.

Lemma edge_fuel n m : allocatable (n + 1 + 2 * m) -> m < 2 ^ 65.
Proof. intros HA. unfold allocatable in HA. apply Nat2Z.inj_lt. rewrite Nat2Z.inj_pow. change (Z.of_nat 2 ^ Z.of_nat 65)%Z with 36893488147419103232%Z. lia. Qed.

Lemma reader_spec text n rows : market text n rows -> allocatable (n + 1 + 2 * length rows) ->
  mmio4_reader text = Ok (Ret (Z.of_nat n, Z.of_nat (length rows), self_loops n ++ flat_map (line_pairs n) rows)).
Proof.
  intros (body & HD & EL) HA. rewrite (read_header text n (length rows) body HD HA).
  assert (W2 : wp (run2 65 (read_edge (Z.of_nat n) (Z.of_nat (length rows)))
     (mkI body (match body with [] => true | _ => false end) false, 0%Z, n + 1, None, None, self_loops n ++ repeat (0, 0) (2 * length rows)))
     (fun E => E = self_loops n ++ flat_map (line_pairs n) rows)).
  { apply edge_loop_spec.
    - unfold self_loops. rewrite map_length, seq_length. auto.
    - destruct rows as [|x rows]; [left; auto|]. right. destruct body as [|c body].
      + exfalso. remember (x :: rows) as rr. remember (@nil nat) as bb. destruct EL as [rest|pre' s1' g s2' t u v _ _ (NG & _)|pre' s1' g s2' t u v rr rest' _ _ (NG & _)];
          [discriminate| |]; destruct pre'; try discriminate; destruct s1'; try discriminate; destruct g; [congruence|discriminate|congruence|discriminate].
      + simpl. auto.
    - apply (edge_fuel n). auto. }
  apply wp_iff in W2. destruct W2 as (E & -> & ->). reflexivity.
Qed.

(** ** Any text after a readable first edge *)
Definition valid_value (v : option Z) : Prop := exists z, v = Some z /\ (0 <= z)%Z.

Lemma take_digits_nonneg l res ovf any : (0 <= res)%Z -> (0 <= fst (fst (fst (take_digits l res ovf any))))%Z.
Proof.
  revert res ovf any. induction l as [|c l IH]; intros res ovf any H; cbn [take_digits]; auto.
  destruct (is_digit c); auto. destruct (U64_MAX / 10 <? res)%Z; apply IH; auto. unfold wrap. apply Z.mod_pos_bound. lia.
Qed.

Lemma extract_valid s old : valid_value old -> valid_value (snd (extract s old)).
Proof.
  intros H. unfold extract. destruct (good s); auto. destruct (skip_space (i_rest s)) as [|c l]; auto.
  unfold get_number.
  match goal with |- context [let '(neg, l) := ?X in _] => destruct X as [neg l'] end.
  pose proof (take_digits_nonneg l' 0 false false ltac:(lia)) as T.
  destruct (take_digits l' 0 false false) as [[[res ovf] any] rest]. cbn [fst] in T.
  destruct (negb any); [exists 0%Z; split; auto; lia|]. destruct ovf; [exists U64_MAX; split; auto; unfold U64_MAX; lia|].
  destruct neg; eexists; (split; [reflexivity|]); auto. unfold wrap. apply Z.mod_pos_bound. lia.
Qed.

(** What the edge vector looks like at any time *)
Definition in_range (n k : nat) (E : pairs) : Prop :=
  length E = n + 1 + k /\ (forall x, In x E -> fst x < n + 1 /\ snd x < n + 1) /\ forall i, i < n + 1 -> nth_error E i = Some (i, i).

Lemma in_range_wr n k E j x : in_range n k E -> n + 1 <= j -> j < n + 1 + k -> fst x < n + 1 -> snd x < n + 1 ->
  exists E', wr E j x = Ok E' /\ in_range n k E'.
Proof.
  intros (H1 & H2 & H3) J1 J2 X1 X2. exists (upd E j x). split; [apply wr_ok; lia|]. split; [rewrite upd_length; auto|]. split.
  - intros y I. apply In_nth_error in I. destruct I as (i & I). rewrite nth_error_upd in I.
    destruct ((j =? i) && (i <? length E)).
    + inversion I; subst; auto.
    + apply H2. eapply nth_error_In; eauto.
  - intros i Hi. rewrite nth_error_upd_neq by lia. auto.
Qed.

Lemma turn_any n m s i j v1 v2 E : in_range n (2 * m) E -> i < m -> j = n + 1 + 2 * i ->
  (i_eof s = true \/ (i_eof s = false /\ exists a b s' s'', (0 <= a /\ 0 <= b)%Z /\ extract s v1 = (s', Some a) /\ extract s' v2 = (s'', Some b))) ->
  wp (read_edge (Z.of_nat n) (Z.of_nat m) (s, Z.of_nat i, j, v1, v2, E))
    (fun r => match r with
              | Cont (s', i', j', v1', v2', E') => i' = Z.of_nat (S i) /\ j' = n + 1 + 2 * S i /\ in_range n (2 * m) E' /\ valid_value v1' /\ valid_value v2'
              | Done E' => in_range n (2 * m) E'
              end).
Proof.
  intros HR Hi HJ HV. unfold read_edge. rewrite (proj2 (Z.ltb_lt (Z.of_nat i) (Z.of_nat m))) by lia. cbn [andb].
  destruct HV as [->|(-> & a & b & s' & s'' & (HA & HB) & -> & ->)]; [apply wp_ok; auto|]. cbn [negb value bind].
  assert (W : forall x y, fst x < n + 1 -> snd x < n + 1 -> fst y < n + 1 -> snd y < n + 1 ->
    wp (E <- wr E j x;; E <- wr E (j + 1) y;; Ok (Cont (ignore_line s'', (Z.of_nat i + 1)%Z, j + 2, Some a, Some b, E)))
     (fun r : step (istream * Z * nat * option Z * option Z * pairs) pairs => match r with
              | Cont (s', i', j', v1', v2', E') => i' = Z.of_nat (S i) /\ j' = n + 1 + 2 * S i /\ in_range n (2 * m) E' /\ valid_value v1' /\ valid_value v2'
              | Done E' => in_range n (2 * m) E'
              end)).
  { intros x y X1 X2 Y1 Y2. destruct (in_range_wr n (2 * m) E j x HR ltac:(lia) ltac:(lia) X1 X2) as (E' & -> & R1). cbn [bind].
    destruct (in_range_wr n (2 * m) E' (j + 1) y R1 ltac:(lia) ltac:(lia) Y1 Y2) as (E'' & -> & R2). cbn [bind]. apply wp_ok.
    split; [lia|]. split; [lia|]. split; [auto|]. split; eexists; (split; [reflexivity|auto]). }
  destruct (Z.ltb_spec (Z.of_nat n) a), (Z.ltb_spec (Z.of_nat n) b), (Z.eqb_spec a b); cbn [orb]; apply W; cbn [fst snd]; lia.
Qed.

Lemma from_file_eq text n rows : market text n rows -> allocatable (n + 1 + 2 * length rows) ->
  from_file (Some text) =
    (p <- load_graph new_pygraph n (length rows) (n + 1 + 2 * length rows) (self_loops n ++ flat_map (line_pairs n) rows);; Ok (Ret p)).
Proof.
  intros M HA. unfold from_file. rewrite (reader_spec text n rows M HA). cbn [bind].
  destruct (self_loops n ++ flat_map (line_pairs n) rows) as [|x E] eqn:EE.
  - assert (In (0, 0) (self_loops n ++ flat_map (line_pairs n) rows)) as I; [|rewrite EE in I; destruct I].
    apply in_app_iff. left. unfold self_loops. apply in_map_iff. exists 0. split; auto. apply in_seq. lia.
  - rewrite <- EE. unfold allocatable in HA. destruct (Z.eqb_spec (Z.of_nat n) U64_MAX) as [X|X]; [unfold U64_MAX in X; lia|].
    rewrite !Nat2Z.id. f_equal. f_equal.
    unfold self_loops. rewrite app_length, map_length, seq_length, line_pairs_len. auto.
Qed.

Lemma lines_in n rows u v : no_zero n rows ->
  In (u, v) (self_loops n ++ flat_map (line_pairs n) rows) <-> u <= n /\ v <= n /\ (u = v \/ adj_lines n rows u v).
Proof.
  intros NZ. rewrite in_app_iff, in_flat_map. unfold self_loops. rewrite in_map_iff. split.
  - intros [(i & E & I)|((x, y) & I & J)].
    + inversion E; subst. apply in_seq in I. repeat split; auto; lia.
    + unfold line_pairs, line_ok in J. cbn [fst snd] in J.
      destruct (Nat.leb_spec x n), (Nat.leb_spec y n), (Nat.eqb_spec x y); cbn [andb negb] in J;
        try (destruct J as [J|[J|[]]]; inversion J; subst; repeat split; auto; lia).
      assert (Z : 1 <= x /\ 1 <= y).
      { destruct x as [|x]; [destruct (NZ y ltac:(lia)); tauto|]. destruct y as [|y]; [destruct (NZ (S x) ltac:(lia)); tauto|lia]. }
      destruct J as [J|[J|[]]]; inversion J; subst; repeat split; auto; right; unfold adj_lines; repeat split; auto; lia.
  - intros (H1 & H2 & [->|(N & B1 & B2 & I)]).
    + left. exists v. split; auto. apply in_seq. lia.
    + right. destruct I as [I|I]; eexists; (split; [exact I|]); unfold line_pairs, line_ok; cbn [fst snd];
        rewrite (proj2 (Nat.leb_le u n)), (proj2 (Nat.leb_le v n)) by lia.
      * destruct (Nat.eqb_spec u v); [congruence|]. simpl. auto.
      * destruct (Nat.eqb_spec v u); [congruence|]. simpl. auto.
Qed.

Lemma lines_simple n rows : simple n (adj_lines n rows).
Proof. intros u v (N & B1 & B2 & I). repeat split; auto; unfold adj_lines; intuition. Qed.

(** ** The writer *)
Lemma decimal_f_spec fuel k : k < fuel -> decimal_f fuel k <> [] /\ Forall digit_char (decimal_f fuel k) /\ num (decimal_f fuel k) 0 = k.
Proof.
  revert k. induction fuel as [|f IH]; intros k Hk; [lia|]. cbn [decimal_f].
  pose proof (Nat.div_mod k 10 ltac:(lia)) as DM. pose proof (Nat.mod_upper_bound k 10 ltac:(lia)) as MB.
  assert (D : digit_char (48 + k mod 10)) by (unfold digit_char; lia).
  destruct (Nat.eqb_spec (k / 10) 0) as [Z|Z].
  - cbn [app]. split; [discriminate|]. split; [constructor; auto|]. cbn [fold_left]. rewrite Z in DM.
    replace (48 + k mod 10 - 48) with (k mod 10) by lia. lia.
  - destruct (IH (k / 10)) as (I1 & I2 & I3); [apply Nat.lt_le_trans with k; [apply Nat.div_lt; lia|lia]|].
    split; [destruct (decimal_f f (k / 10)); discriminate|]. split; [apply Forall_app; auto|].
    rewrite fold_left_app, I3. cbn [fold_left]. replace (48 + k mod 10 - 48) with (k mod 10) by lia. lia.
Qed.

Lemma decimal_numeral k : (Z.of_nat k < 2 ^ 64)%Z -> numeral (decimal k) k.
Proof. intros H. destruct (decimal_f_spec (S k) k ltac:(lia)) as (H1 & H2 & H3). split; auto. Qed.

Lemma trailer_nil : trailer [].
Proof. split; [intros []|]. split; [simpl; lia|exact I]. Qed.

Lemma gap_space : gap [32].
Proof. split; [discriminate|]. constructor; [left; auto|constructor]. Qed.

Lemma written_lines calls : (forall u v, In (u, v) calls -> (Z.of_nat u < 2 ^ 64)%Z /\ (Z.of_nat v < 2 ^ 64)%Z) ->
  edge_lines calls (flat_map (fun '(i, j) => decimal i ++ [32] ++ decimal j ++ [10]) calls).
Proof.
  induction calls as [|[u v] calls IH]; intros H; [constructor|]. cbn [flat_map].
  destruct (H u v ltac:(left; auto)) as [H1 H2].
  replace ((decimal u ++ [32] ++ decimal v ++ [10]) ++ flat_map (fun '(i, j) => decimal i ++ [32] ++ decimal j ++ [10]) calls)
    with ([] ++ decimal u ++ [32] ++ decimal v ++ [] ++ newline :: flat_map (fun '(i, j) => decimal i ++ [32] ++ decimal j ++ [10]) calls).
  - apply el_line; auto using decimal_numeral, trailer_nil, gap_space. apply IH. intros x y I. apply H. right. auto.
  - simpl. rewrite <- !app_assoc. simpl. rewrite <- !app_assoc. reflexivity.
Qed.

Lemma banner_comment : comment banner.
Proof.
  exists 37, [37; 32; 103; 101; 110; 101; 114; 97; 116; 101; 100; 32; 98; 121; 32; 99; 108; 105; 113; 117; 101; 109; 97; 116; 99; 104].
  split; [reflexivity|]. split; [auto|]. split; [unfold newline; simpl; lia|reflexivity].
Qed.

Lemma written_market n (calls : list (nat * nat)) : (Z.of_nat n < 2 ^ 64)%Z -> (Z.of_nat (length calls) < 2 ^ 64)%Z ->
  (forall u v, In (u, v) calls -> (Z.of_nat u < 2 ^ 64)%Z /\ (Z.of_nat v < 2 ^ 64)%Z) ->
  market (banner ++ decimal n ++ [32] ++ decimal n ++ [32] ++ decimal (length calls) ++ [10]
          ++ flat_map (fun '(i, j) => decimal i ++ [32] ++ decimal j ++ [10]) calls) n calls.
Proof.
  intros Hn Hm HC. exists ([10] ++ flat_map (fun '(i, j) => decimal i ++ [32] ++ decimal j ++ [10]) calls). split.
  { exists [banner], [], (decimal n), [32], (decimal n), [32], (decimal (length calls)), n.
    split; [cbn [concat app]; rewrite app_nil_r; reflexivity|].
    split; [constructor; [apply banner_comment|constructor]|]. split; [constructor|].
    split; [apply decimal_numeral; auto|]. split; [apply gap_space|]. split; [apply decimal_numeral; auto|]. split; [apply gap_space|].
    split; [apply decimal_numeral; auto|]. simpl; unfold digit_char; lia. }
  pose proof (written_lines calls HC) as W. destruct calls as [|[u v] calls]; [constructor|].
  cbn [flat_map] in *. destruct (HC u v ltac:(left; auto)) as [H1 H2].
  replace ([10] ++ (decimal u ++ [32] ++ decimal v ++ [10]) ++ flat_map (fun '(i, j) => decimal i ++ [32] ++ decimal j ++ [10]) calls)
    with ([10] ++ decimal u ++ [32] ++ decimal v ++ [] ++ newline :: flat_map (fun '(i, j) => decimal i ++ [32] ++ decimal j ++ [10]) calls).
  - apply el_line; auto using decimal_numeral, trailer_nil, gap_space.
    + constructor; [unfold blank; lia|constructor].
    + apply written_lines. intros x y I. apply HC. right. auto.
  - simpl. rewrite <- !app_assoc. simpl. rewrite <- !app_assoc. reflexivity.
Qed.
