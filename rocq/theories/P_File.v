(** P_File: Matrix Market files (C08, C09, C57). *)
From Verif Require Import Base MBits MUtils MGraph MHeur MApi MExt MFile Spec SpecFile SpecBits SpecDec FileFacts FileProps FileAny FileShort FileCount.
From Coq Require Import Sorting.Sorted Ascii String List.
Local Open Scope nat_scope.

(** * C08 *)
Theorem C08_file_round_trip : forall p n adj,
  made p n adj -> 1 <= n -> (forall l, edges_of adj l -> p_nedges p = length l) -> allocatable (n + 1 + 2 * p_nedges p) ->
  ends_with (to_file true p) (fun r => exists text, r = Ret text /\
    ends_with (from_file (Some text)) (fun r => exists q, r = Ret q /\ p_nvert q = p_nvert p /\ p_nedges q = p_nedges p
      /\ forall v, v <= n -> exists l, vertex_neighbors p v = Ok (Ret l) /\ vertex_neighbors q v = Ok (Ret l))).
Proof. exact file_round_trip. Qed.
Print Assumptions C08_file_round_trip.

Example C08_example : exists p text q, from_edgelist [(3, 1); (2, 12); (1, 2); (4, 3)] 12 = Ok (Ret p)
  /\ to_file true p = Ok (Ret text)
  /\ skipn (length banner) text = map nat_of_ascii (list_ascii_of_string "12 12 4
1 2
1 3
2 12
3 4
"%string)
  /\ from_file (Some text) = Ok (Ret q) /\ p_nvert q = 12 /\ p_nedges q = 4
  /\ vertex_neighbors q 2 = Ok (Ret [1; 12]) /\ vertex_neighbors q 3 = Ok (Ret [1; 4]).
Proof. do 3 eexists. repeat (split; [vm_compute; reflexivity|]). vm_compute; reflexivity. Qed.

(** The hypothesis on n_edges is needed: an edge list [(1,1)] leaves n_edges = 1 (C07), and the file written cannot be
    read back. *)
Theorem C08_wrong_count_refuted : exists p text,
  from_edgelist [(1, 1)] 1 = Ok (Ret p) /\ to_file true p = Ok (Ret text) /\ from_file (Some text) = UB Uninit.
Proof. do 2 eexists. repeat (split; [vm_compute; reflexivity|]). vm_compute; reflexivity. Qed.
Print Assumptions C08_wrong_count_refuted.

(** For any n_edges: the graph read back has the first n_edges edges, or all if n_edges is larger, except that it cannot be read back if
    there is no edge and n_edges is not 0. *)
Theorem C08_any_count : forall p n adj, made p n adj -> 1 <= n -> allocatable (n + 1 + 2 * p_nedges p) ->
  exists l text, edges_of adj l /\ StronglySorted lexless l /\ to_file true p = Ok (Ret text)
  /\ (l = [] -> 0 < p_nedges p -> from_file (Some text) = UB Uninit)
  /\ (l <> [] \/ p_nedges p = 0 -> exists q, from_file (Some text) = Ok (Ret q) /\ p_nvert q = p_nvert p /\ p_nedges q = p_nedges p
       /\ forall v, v <= n -> exists c, vertex_neighbors q v = Ok (Ret c) /\ StronglySorted lt c
         /\ forall u, In u c <-> In (u, v) (firstn (p_nedges p) l) \/ In (v, u) (firstn (p_nedges p) l)).
Proof. exact round_trip_any. Qed.
Print Assumptions C08_any_count.

(** A repeated edge does no harm. *)
Example C08_any_count_example : exists p text q, from_edgelist [(3, 1); (1, 3); (2, 3)] 3 = Ok (Ret p) /\ p_nedges p = 3 /\ to_file true p = Ok (Ret text)
  /\ from_file (Some text) = Ok (Ret q) /\ p_nedges q = 3 /\ vertex_neighbors p 3 = Ok (Ret [1; 2]) /\ vertex_neighbors q 3 = Ok (Ret [1; 2]).
Proof. do 3 eexists. repeat (split; [vm_compute; reflexivity|]). vm_compute; reflexivity. Qed.

(** The path 1 - 2 - 3 given by the upper half of its matrix has n_edges = 1 (C07). Written to a file and read back, it has lost an edge. *)
Theorem C08_lost_edge_refuted : exists p text q,
  from_matrix 3 3 (fun i j => j =? S i) = Ok (Ret p) /\ vertex_neighbors p 3 = Ok (Ret [2]) /\ to_file true p = Ok (Ret text)
  /\ from_file (Some text) = Ok (Ret q) /\ vertex_neighbors q 3 = Ok (Ret []).
Proof. do 3 eexists. repeat (split; [vm_compute; reflexivity|]). vm_compute; reflexivity. Qed.
Print Assumptions C08_lost_edge_refuted.

(** * C09: the full statement has no hypothesis [no_zero]. *)
Theorem C09_ignored_lines_partial : forall text n rows,
  allocatable (n + 1 + 2 * length rows) -> market text n rows -> no_zero n rows ->
  ends_with (from_file (Some text)) (fun r => exists p, r = Ret p /\ p_nvert p = n /\ p_nedges p = length rows /\
    forall v, v <= n -> ends_with (vertex_neighbors p v) (fun r => exists l, r = Ret l /\ StronglySorted lt l
      /\ forall u, In u l <-> u <> v /\ 1 <= u <= n /\ 1 <= v <= n /\ (In (u, v) rows \/ In (v, u) rows))).
Proof. exact file_neighbors. Qed.
Print Assumptions C09_ignored_lines_partial.

Example C09_example : exists p, from_file (Some (map nat_of_ascii (list_ascii_of_string "%% a comment
# another
3 3 5
1 2
 2 2 ignored
2  7
3	2 0.5
4 1"%string))) = Ok (Ret p)
  /\ p_nvert p = 3 /\ p_nedges p = 5 /\ vertex_neighbors p 1 = Ok (Ret [2]) /\ vertex_neighbors p 2 = Ok (Ret [1; 3])
  /\ vertex_neighbors p 3 = Ok (Ret [2]).
Proof. eexists. repeat (split; [vm_compute; reflexivity|]). vm_compute; reflexivity. Qed.

(** Without that hypothesis: lines naming a vertex above n or the same vertex twice are ignored, but vertex 0 is taken for a
    vertex. *)
Theorem C09_all_lines_partial : forall text n rows, allocatable (n + 1 + 2 * length rows) -> market text n rows ->
  ends_with (from_file (Some text)) (fun r => exists p, r = Ret p /\ p_nvert p = n /\ p_nedges p = length rows /\
    forall v, v <= n -> ends_with (vertex_neighbors p v) (fun r => exists l, r = Ret l /\ StronglySorted lt l
      /\ forall u, In u l <-> u <> v /\ u <= n /\ (In (u, v) rows \/ In (v, u) rows))).
Proof. exact file_all_lines. Qed.
Print Assumptions C09_all_lines_partial.

(** Fewer lines than announced, at least one: the graph of the lines that are there. Only the number of edges is the announced one. *)
Theorem C09_few_lines_partial : forall text n m body rows, header text n m body -> only_lines rows body -> rows <> [] -> length rows <= m ->
  allocatable (n + 1 + 2 * m) ->
  ends_with (from_file (Some text)) (fun r => exists p, r = Ret p /\ p_nvert p = n /\ p_nedges p = m /\
    forall v, v <= n -> ends_with (vertex_neighbors p v) (fun r => exists l, r = Ret l /\ StronglySorted lt l
      /\ forall u, In u l <-> u <> v /\ u <= n /\ (In (u, v) rows \/ In (v, u) rows))).
Proof. exact short_file. Qed.
Print Assumptions C09_few_lines_partial.

Example C09_few_lines_example : exists text body p, text = map nat_of_ascii (list_ascii_of_string "4 4 7
1 3
3 2 x"%string) /\ header text 4 7 body /\ only_lines [(1, 3); (3, 2)] body
  /\ from_file (Some text) = Ok (Ret p) /\ p_nvert p = 4 /\ p_nedges p = 7
  /\ vertex_neighbors p 3 = Ok (Ret [1; 2]) /\ vertex_neighbors p 1 = Ok (Ret [3]) /\ vertex_neighbors p 4 = Ok (Ret []).
Proof.
  assert (D : forall c, 48 <= c <= 57 -> numeral [c] (c - 48)).
  { intros c H. split; [discriminate|]. split; [constructor; [exact H|constructor]|]. cbn [num]. split; [reflexivity|lia]. }
  assert (B : blank 10 /\ blank 32) by (unfold blank; lia).
  assert (G : gap [32]) by (split; [discriminate|]; constructor; [apply B|constructor]).
  eexists. exists [10; 49; 32; 51; 10; 51; 32; 50; 32; 120]. eexists. split; [reflexivity|].
  split.
  - exists [], [], [52], [32], [52], [32], [55], 4. split; [reflexivity|]. split; [constructor|]. split; [constructor|].
    split; [apply (D 52); lia|]. split; [exact G|]. split; [apply (D 52); lia|]. split; [exact G|]. split; [apply (D 55); lia|]. unfold digit_char. lia.
  - split.
    + apply (ol_line [10] [49] [32] [51] [] 1 3 [(3, 2)] [51; 32; 50; 32; 120]).
      * constructor; [apply B|constructor].
      * apply (D 49). lia.
      * exact G.
      * apply (D 51). lia.
      * split; [intros []|]. split; [cbn [length]; lia|exact I].
      * apply (ol_last [] [51] [32] [50] [32; 120]); [constructor|apply (D 51); lia|exact G|apply (D 50); lia|].
        split; [unfold newline; cbn [In]; lia|]. split; [cbn [length]; lia|]. unfold digit_char. lia.
    + split; [vm_compute; reflexivity|]. split; [vm_compute; reflexivity|]. split; [vm_compute; reflexivity|]. split; [vm_compute; reflexivity|].
      split; vm_compute; reflexivity.
Qed.

(** A line naming vertex 0 adds an edge, and the search returns a clique with vertex 0. *)
Theorem C09_vertex_zero_refuted : exists text p e p1 c,
  text = map nat_of_ascii (list_ascii_of_string "6 6 6
0 1
0 2
1 2
3 4
4 5
5 6
"%string)
  /\ from_file (Some text) = Ok (Ret p) /\ vertex_neighbors p 1 = Ok (Ret [0; 2])
  /\ get_max_clique e p 1 DEFAULT_UB true true false = Ok (p1, Ret c) /\ In 0 c.
Proof.
  do 2 eexists. exists (run_env None). do 2 eexists. split; [reflexivity|]. repeat (split; [vm_compute; reflexivity|]). vm_compute. auto.
Qed.
Print Assumptions C09_vertex_zero_refuted.

(** * C57: the full statement is that every text leads to a graph or an exception. What holds: no other undefined behaviour than
    the kinds shown below, and the reader terminates. *)
Theorem C57_every_text_partial : forall text,
  (exists p, from_file (Some text) = Ok (Ret p)) \/ from_file (Some text) = Ok (Raise EFile) \/ from_file (Some text) = Ok (Raise ENoEdges)
  \/ from_file (Some text) = UB Uninit \/ from_file (Some text) = UB OobWrite \/ from_file (Some text) = UB BadShift.
Proof. exact every_text_cases. Qed.
Print Assumptions C57_every_text_partial.

(** After a header "n _ m" whose edge vector has a size below 2^64, exactly: a graph unless edges are announced and the rest of
    the file is not empty, yet does not start with a number followed by more text. *)
Theorem C57_after_header_partial : forall text n m body, header text n m body -> (Z.of_nat (n + 1 + 2 * m) < 2 ^ 64)%Z ->
  (allocatable (n + 1 + 2 * m) /\ (m = 0 \/ body = [] \/ two_fields body)
     /\ exists p, from_file (Some text) = Ok (Ret p) /\ p_nvert p = n /\ p_nedges p = m)
  \/ (allocatable (n + 1 + 2 * m) /\ ~ (m = 0 \/ body = [] \/ two_fields body) /\ from_file (Some text) = UB Uninit)
  \/ (~ allocatable (n + 1 + 2 * m) /\ from_file (Some text) = Ok (Raise EFile)).
Proof. exact after_header. Qed.
Print Assumptions C57_after_header_partial.

Example C57_example : exists p q, from_file (Some (map nat_of_ascii (list_ascii_of_string "3 3 4
1 2
2 x 3
what"%string))) = Ok (Ret p) /\ p_nvert p = 3 /\ p_nedges p = 4
  /\ from_file (Some (map nat_of_ascii (list_ascii_of_string "3 3 4"%string))) = Ok (Ret q) /\ p_nvert q = 3 /\ p_nedges q = 4
  /\ from_file (Some (map nat_of_ascii (list_ascii_of_string "3 3 2000000000000000000
1 2
"%string))) = Ok (Raise EFile)
  /\ from_file (Some (map nat_of_ascii (list_ascii_of_string "3 3 1
1
"%string))) = UB Uninit.
Proof. do 2 eexists. repeat (split; [vm_compute; reflexivity|]). vm_compute; reflexivity. Qed.

(** The empty file, a file without edge lines, and a header whose edge count makes the buffer size wrap *)
Theorem C57_uninit_refuted : exists text, from_file (Some text) = UB Uninit.
Proof. exists []. vm_compute. reflexivity. Qed.
Print Assumptions C57_uninit_refuted.

Theorem C57_no_lines_refuted : exists text n body, header text n 1 body /\ from_file (Some text) = UB Uninit.
Proof.
  exists (map nat_of_ascii (list_ascii_of_string "3 3 1
"%string)), 3, [newline]. split; [|vm_compute; reflexivity].
  exists [], [], [51], [32], [51], [32], [49], 3. split; [reflexivity|].
  split; [constructor|]. split; [constructor|].
  split; [split; [discriminate|]; split; [repeat constructor; unfold digit_char; auto with arith|]; split; [reflexivity|reflexivity]|].
  split; [split; [discriminate|]; repeat constructor|].
  split; [split; [discriminate|]; split; [repeat constructor; unfold digit_char; auto with arith|]; split; [reflexivity|reflexivity]|].
  split; [split; [discriminate|]; repeat constructor|].
  split; [split; [discriminate|]; split; [repeat constructor; unfold digit_char; auto with arith|]; split; [reflexivity|reflexivity]|].
  unfold newline, digit_char. intros [H _]. vm_compute in H. repeat (apply le_S_n in H). inversion H.
Qed.
Print Assumptions C57_no_lines_refuted.

Theorem C57_count_wraps_refuted : exists text, from_file (Some text) = UB OobWrite.
Proof. exists (map nat_of_ascii (list_ascii_of_string "1 1 9223372036854775808
1 1
"%string)). vm_compute. reflexivity. Qed.
Print Assumptions C57_count_wraps_refuted.

(** A vertex count of -1 is read as 2^64 - 1. *)
Theorem C57_negative_count_refuted : exists text, from_file (Some text) = UB BadShift.
Proof. exists (map nat_of_ascii (list_ascii_of_string "-1 -1 1
1 2
"%string)). vm_compute. reflexivity. Qed.
Print Assumptions C57_negative_count_refuted.
