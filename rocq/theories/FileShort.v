(** FileShort: from_file on files with fewer edge lines than announced (C57). *)
From Verif Require Import Base MBits MUtils MGraph MHeur MEnum MApi MExt MFile Spec SpecFile SpecBits BaseFacts SetFacts SortFacts RowFacts ConstructFacts FileFacts LoadFacts FileAny.
From Coq Require Import Sorting.Sorted.
Local Open Scope nat_scope.
Local Arguments Nat.mul : simpl never.
Local Arguments Nat.sub : simpl never.

(** The stream has met the end and no line is left, or it is good and these lines are left. *)
Definition left_in (todo : list (nat * nat)) (s : istream) : Prop :=
  (todo = [] /\ i_eof s = true) \/ (i_eof s = false /\ i_fail s = false /\ only_lines todo (i_rest s)).

Lemma turn_line n m u v rows s i j v1 v2 A k : j = length A -> (i < m)%Z ->
  i_eof s = false -> i_fail s = false -> only_lines ((u, v) :: rows) (i_rest s) ->
  exists s', left_in rows s' /\
    read_edge (Z.of_nat n) m (s, i, j, v1, v2, A ++ repeat (0, 0) (S (S k)))
    = Ok (Cont (s', (i + 1)%Z, j + 2, Some (Z.of_nat u), Some (Z.of_nat v), (A ++ line_pairs n (u, v)) ++ repeat (0, 0) k)).
Proof.
  intros HJ HI HE HF EL. destruct s as [rest eof fail]. cbn [i_eof i_fail i_rest] in *. subst eof fail.
  unfold read_edge. rewrite (proj2 (Z.ltb_lt i m) HI). cbn [andb i_eof negb].
  inversion EL as [| pre s1 g s2 t x y FB N1 G N2 T E1 E2 | pre s1 g s2 t x y rows' rest' FB N1 G N2 T EL' E1 E2]; subst.
  - rewrite (extract_spec pre s1 (g ++ s2 ++ t) u); auto; [|apply gap_stops; auto].
    destruct (g ++ s2 ++ t) as [|c0 r0] eqn:E0.
    { destruct G as (NG & _). destruct g; [congruence|discriminate]. }
    rewrite <- E0. rewrite (extract_spec g s2 t v); [|destruct G; auto|auto|apply trailer_stops_end; auto].
    destruct t as [|c1 t1].
    + exists (mkI [] true true). split; [left; auto|]. cbn [value bind]. apply (write_row n u v A k); auto.
    + exists (mkI [] true false). split; [left; auto|]. cbn [value bind].
      assert (IL : ignore_line (mkI (c1 :: t1) false false) = mkI [] true false).
      { unfold ignore_line, good. cbn [i_eof i_fail i_rest negb andb]. rewrite skip_line_end; [auto|apply T|apply trailer_len; auto]. }
      rewrite IL. apply (write_row n u v A k); auto.
  - rewrite (extract_spec pre s1 (g ++ s2 ++ t ++ newline :: rest') u); auto; [|apply gap_stops; auto].
    destruct (g ++ s2 ++ t ++ newline :: rest') as [|c0 r0] eqn:E0.
    { destruct G as (NG & _). destruct g; [congruence|discriminate]. }
    rewrite <- E0. rewrite (extract_spec g s2 (t ++ newline :: rest') v); [|destruct G; auto|auto|apply trailer_stops; auto].
    destruct (t ++ newline :: rest') as [|c1 r1] eqn:E1; [destruct t; discriminate|]. rewrite <- E1.
    assert (IL : ignore_line (mkI (t ++ newline :: rest') false false) = mkI rest' false false).
    { unfold ignore_line, good. cbn [i_eof i_fail i_rest negb andb]. rewrite skip_line_nl; [auto|apply T|apply trailer_len; auto]. }
    rewrite IL. exists (mkI rest' false false). split; [right; cbn [i_eof i_fail i_rest]; auto|]. cbn [value bind]. apply (write_row n u v A k); auto.
Qed.

(** Only white space is left: the values of the line before are used once more. *)
Lemma turn_again n m u v s i j A k : j = length A -> (i < m)%Z -> i_eof s = false -> i_fail s = false -> Forall blank (i_rest s) ->
  exists s', left_in [] s' /\
    read_edge (Z.of_nat n) m (s, i, j, Some (Z.of_nat u), Some (Z.of_nat v), A ++ repeat (0, 0) (S (S k)))
    = Ok (Cont (s', (i + 1)%Z, j + 2, Some (Z.of_nat u), Some (Z.of_nat v), (A ++ line_pairs n (u, v)) ++ repeat (0, 0) k)).
Proof.
  intros HJ HI HE HF FB. destruct s as [rest eof fail]. cbn [i_eof i_fail i_rest] in *. subst eof fail.
  unfold read_edge. rewrite (proj2 (Z.ltb_lt i m) HI). cbn [andb i_eof negb].
  assert (X : extract (mkI rest false false) (Some (Z.of_nat u)) = (mkI [] true true, Some (Z.of_nat u))).
  { unfold extract, good. cbn [i_eof i_fail i_rest negb andb]. pose proof (skip_space_spec rest [] FB I) as SS. rewrite app_nil_r in SS. rewrite SS. reflexivity. }
  rewrite X. exists (mkI [] true true). split; [left; auto|]. cbn [value bind]. apply (write_row n u v A k); auto.
Qed.

Lemma short_loop n m rows s A fuel : length A = n + 1 -> rows <> [] -> length rows <= m -> left_in rows s -> m < 2 ^ fuel ->
  wp (run2 fuel (read_edge (Z.of_nat n) (Z.of_nat m)) (s, 0%Z, n + 1, None, None, A ++ repeat (0, 0) (2 * m)))
    (fun E => exists more, E = (A ++ flat_map (line_pairs n) more) ++ repeat (0, 0) (2 * (m - length more)) /\ length more <= m /\ forall x, In x more <-> In x rows).
Proof.
  intros HA NR HL HD HF.
  apply (wp_run2_rel fuel _ (fun x r => let '(s, i, j, v1, v2, E) := x in exists more todo, r = m - length more
     /\ i = Z.of_nat (length more) /\ j = n + 1 + 2 * length more /\ E = (A ++ flat_map (line_pairs n) more) ++ repeat (0, 0) (2 * (m - length more))
     /\ length more + length todo <= m /\ left_in todo s /\ (forall x, In x more \/ In x todo <-> In x rows)
     /\ ((more = [] /\ todo <> []) \/ exists u v, In (u, v) more /\ v1 = Some (Z.of_nat u) /\ v2 = Some (Z.of_nat v)))) with (n := m).
  - exists [], rows. cbn [length flat_map]. rewrite app_nil_r. split; [lia|]. split; [reflexivity|]. split; [lia|]. split; [do 2 f_equal; lia|]. split; [lia|].
    split; [exact HD|]. split; [intros x; cbn [In]; tauto|]. left. auto.
  - auto.
  - clear s HD. intros [[[[[s i] j] v1] v2] E] r (more & todo & -> & -> & -> & -> & LT & HD & SUB & PV).
    destruct (Nat.eq_dec (length more) m) as [EM|NM].
    { unfold read_edge. destruct (Z.ltb_spec (Z.of_nat (length more)) (Z.of_nat m)) as [L|L]; [lia|]. cbn [andb]. apply wp_ok.
      exists more. split; [reflexivity|]. split; [lia|]. destruct todo; [|cbn [length] in LT; lia]. intros x. rewrite <- SUB. cbn [In]. tauto. }
    destruct HD as [(-> & EO)|(EO & FA & OL)].
    { unfold read_edge. rewrite EO. cbn [negb]. rewrite Bool.andb_false_r. apply wp_ok.
      exists more. split; [reflexivity|]. split; [lia|]. intros x. rewrite <- SUB. cbn [In]. tauto. }
    assert (LA : n + 1 + 2 * length more = length (A ++ flat_map (line_pairs n) more)) by (rewrite app_length, line_pairs_len; lia).
    assert (R2 : 2 * (m - length more) = S (S (2 * (m - (length more + 1))))) by lia. rewrite R2.
    destruct todo as [|[u v] todo].
    + destruct PV as [[_ X]|(u & v & IM & -> & ->)]; [congruence|].
      assert (FB : Forall blank (i_rest s)) by (inversion OL; auto).
      destruct (turn_again n (Z.of_nat m) u v s (Z.of_nat (length more)) _ _ (2 * (m - (length more + 1))) LA ltac:(lia) EO FA FB) as (s' & L' & TE).
      rewrite TE. apply wp_ok. exists (m - (length more + 1)). split; [lia|]. exists (more ++ [(u, v)]), []. rewrite app_length. cbn [length].
      split; [lia|]. split; [lia|]. split; [lia|]. split; [rewrite flat_map_app; cbn [flat_map]; rewrite app_nil_r, <- !app_assoc; reflexivity|].
      split; [lia|]. split; [exact L'|]. split; [|right; exists u, v; split; [apply in_app_iff; cbn [In]; auto|auto]].
      intros x. rewrite <- SUB, in_app_iff. cbn [In]. split; [intros [[X|[<- |[]]]|[]]; auto|]. intros [X|[]]; auto.
    + destruct (turn_line n (Z.of_nat m) u v todo s (Z.of_nat (length more)) _ v1 v2 _ (2 * (m - (length more + 1))) LA ltac:(lia) EO FA OL) as (s' & L' & TE).
      rewrite TE. apply wp_ok. exists (m - (length more + 1)). cbn [length] in LT. split; [lia|]. exists (more ++ [(u, v)]), todo. rewrite app_length. cbn [length].
      split; [lia|]. split; [lia|]. split; [lia|]. split; [rewrite flat_map_app; cbn [flat_map]; rewrite app_nil_r, <- !app_assoc; reflexivity|].
      split; [lia|]. split; [exact L'|]. split; [|right; exists u, v; split; [apply in_app_iff; cbn [In]; auto|auto]].
      intros x. rewrite <- SUB, in_app_iff. cbn [In]. tauto.
Qed.

Lemma short_file text n m body rows : header text n m body -> only_lines rows body -> rows <> [] -> length rows <= m -> allocatable (n + 1 + 2 * m) ->
  wp (from_file (Some text)) (fun r => exists p, r = Ret p /\ p_nvert p = n /\ p_nedges p = m /\
    forall v, v <= n -> wp (vertex_neighbors p v) (fun r => exists l, r = Ret l /\ StronglySorted lt l
      /\ forall u, In u l <-> u <> v /\ u <= n /\ (In (u, v) rows \/ In (v, u) rows))).
Proof.
  intros HD OL NR HL HA.
  assert (LI : left_in rows (mkI body (match body with [] => true | _ => false end) false)).
  { right. cbn [i_eof i_fail i_rest]. split; [|auto]. destruct body as [|c body]; [|reflexivity]. exfalso.
    remember (@nil nat) as bb. destruct OL as [ws _|pre' s1' g s2' t u v _ _ (NG & _)|pre' s1' g s2' t u v rr rest' _ _ (NG & _)]; [congruence| |];
      destruct pre'; try discriminate; destruct s1'; try discriminate; destruct g; [congruence|discriminate|congruence|discriminate]. }
  pose proof (short_loop n m rows _ (self_loops n) 65 ltac:(unfold self_loops; rewrite map_length, seq_length; reflexivity) NR HL LI (edge_fuel n m HA)) as W.
  apply wp_iff in W. destruct W as (E & EE & more & EV & LM & SAME).
  assert (RE : mmio4_reader text = Ok (Ret (Z.of_nat n, Z.of_nat m, E))) by (rewrite (read_header text n m body HD HA), EE; reflexivity).
  assert (RAW : forall u v, In (u, v) E <-> u <= n /\ v <= n /\ (u = v \/ In (u, v) rows \/ In (v, u) rows)).
  { intros u v. rewrite EV, in_app_iff, lines_raw, !SAME. split; [|auto]. intros [X|X]; [exact X|]. apply repeat_spec in X. injection X as -> ->.
    split; [lia|]. split; [lia|]. auto. }
  assert (LE : length E = n + 1 + 2 * m).
  { rewrite EV, !app_length, line_pairs_len, repeat_length. unfold self_loops. rewrite map_length, seq_length. lia. }
  unfold from_file. rewrite RE. cbn [bind]. destruct E as [|x0 E0] eqn:EN; [cbn [length] in LE; lia|]. rewrite <- EN in *. clear x0 E0 EN.
  unfold allocatable in HA. destruct (Z.eqb_spec (Z.of_nat n) U64_MAX) as [X|X]; [unfold U64_MAX in X; lia|]. rewrite !Nat2Z.id, LE.
  destruct (construct_spec n (n + 1 + 2 * m) E) as (a & A1 & A2 & A3).
  - intros [u v] I. apply RAW in I. simpl. lia.
  - intros i Hi. apply RAW. repeat split; auto.
  - rewrite LE. lia.
  - apply wp_bind. unfold load_graph. apply wp_bind. eapply wp_mono; [exact A3|]. intros g B. apply wp_ok. apply wp_ok.
    eexists. split; [reflexivity|]. split; [reflexivity|]. split; [reflexivity|]. intros v Hv.
    unfold vertex_neighbors. cbn [p_nvert p_G]. destruct (Nat.ltb_spec n v); [lia|].
    assert (LA : length a <= length E). { apply NoDup_incl_length; [apply sorted_lt_nodup; auto|]. intros x I. apply A2. auto. }
    rewrite (vertex_data_raw a n g v); auto.
    + cbn [bind]. apply wp_ok. eexists. split; [reflexivity|]. split; [apply filter_sorted, row_sorted; auto|].
      intros u. rewrite filter_In, row_in, A2, RAW. destruct (Nat.eqb_spec u v); simpl; intuition congruence.
    + intros k Hk. apply A2, RAW. repeat split; auto.
    + intros [x y] I. apply A2, RAW in I. simpl. lia.
    + rewrite LE in LA. lia.
    + split; [apply (b_el _ _ _ _ B)|]. split; [exists (bound a); apply (b_vs _ _ _ _ B)|apply (b_nv _ _ _ _ B)].
Qed.
