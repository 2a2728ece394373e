(** P_Length: get_correspondence with lengths that need not be those the graph was built for (C73). *)
From Verif Require Import Base MBits MUtils MGraph MHeur MStack MRec MEnum MApi Spec SpecDec SearchProps Samples LengthProps.
Local Open Scope nat_scope.

(** * C73: with a second length of at least 1 the pairs returned stand for the vertices of a clique, and the first indices are below
    every first length that makes room for all vertices. *)
Theorem C73_decodes : forall p n adj q e len2 lb ub heur dfs cont,
  made p n adj -> has_edge adj -> storage_live p -> history p q -> lawful e lb -> 1 <= len2 ->
  ends_with (get_correspondence e q len2 lb ub heur dfs cont) (fun r =>
    match snd r with
    | Ret (a, b) => length b = length a /\ lb <= length a
        /\ (forall k, k < length a -> nth k b 0 < len2 /\ 1 <= nth k a 0 * len2 + nth k b 0 + 1 <= n)
        /\ (forall k l, k < length a -> l < length a -> k <> l ->
              adj (nth k a 0 * len2 + nth k b 0 + 1) (nth l a 0 * len2 + nth l b 0 + 1))
        /\ forall len1, n <= len1 * len2 -> forall k, k < length a -> nth k a 0 < len1
    | Raise x => x = EBounds
    end).
Proof. exact lengths_decode. Qed.
Print Assumptions C73_decodes.

(** With a second length of 0, a search that finds a clique divides by zero. *)
Theorem C73_zero_undefined : forall p n adj q e lb ub heur dfs cont,
  made p n adj -> has_edge adj -> storage_live p -> history p q -> lawful e lb -> 1 <= lb ->
  get_correspondence e q 0 lb ub heur dfs cont = UB DivZero
  \/ exists q', get_correspondence e q 0 lb ub heur dfs cont = Ok (q', Raise EBounds)
       /\ get_max_clique e q lb ub heur dfs cont = Ok (q', Raise EBounds).
Proof. exact length_zero. Qed.
Print Assumptions C73_zero_undefined.

Theorem C73_zero_refuted : exists p n adj e, made p n adj /\ has_edge adj /\ storage_live p /\ lawful e 1
  /\ get_correspondence e p 0 1 DEFAULT_UB true true false = UB DivZero.
Proof.
  exists sample, 8, (adj_rows sample_rows), late. split; [exact sample_made|]. split; [exact sample_edge|]. split; [exact sample_live|].
  split; [apply late_lawful|]. vm_compute. reflexivity.
Qed.
Print Assumptions C73_zero_refuted.

(** The first length is not looked at: an index equal to it is returned. *)
Theorem C73_range_refuted : exists p n adj e len1 len2 q a b, made p n adj /\ has_edge adj /\ storage_live p /\ lawful e 1 /\ 1 <= len1 /\ 1 <= len2
  /\ get_correspondence e p len2 1 DEFAULT_UB true true false = Ok (q, Ret (a, b)) /\ In len1 a.
Proof.
  exists sample, 8, (adj_rows sample_rows), late, 1, 2. do 3 eexists. split; [exact sample_made|]. split; [exact sample_edge|].
  split; [exact sample_live|]. split; [apply late_lawful|]. split; [apply le_n|]. split; [apply le_S, le_n|].
  split; [vm_compute; reflexivity|]. cbn [In]. right. right. left. reflexivity.
Qed.
Print Assumptions C73_range_refuted.

Example C73_example : made sample 8 (adj_rows sample_rows) /\ has_edge (adj_rows sample_rows) /\ storage_live sample
  /\ history sample sample3 /\ lawful late 1 /\ 8 <= 3 * 3
  /\ exists q, get_correspondence late sample3 3 1 4 true true true = Ok (q, Ret ([0; 0; 0; 1], [0; 1; 2; 0])).
Proof.
  split; [exact sample_made|]. split; [exact sample_edge|]. split; [exact sample_live|]. split; [exact sample_history|].
  split; [apply late_lawful|]. split; [vm_compute; repeat constructor|]. eexists. vm_compute. reflexivity.
Qed.
