(** SpecScript: programs that use one Graph or NWGraph object, and what they observe. No proofs here. *)
From Verif Require Import Base MUtils MGraph MEnum MApi MExt MNW MNWEnum MNWApi Spec SpecNW.
Local Open Scope nat_scope.

(** A call on a Graph. Iterators are numbered in the order of their creation; [CNext lr i] advances number i. Exports that read
    n_edges (to_edgelist, to_file) are left out, because two objects for the same graph may differ there (C07). *)
Inductive gcall : Type :=
| CGet (e : env) (lb ub : nat) (heur dfs cont : bool)
| CCorrespondence (e : env) (len2 lb ub : nat) (heur dfs cont : bool)
| CReset
| CIterate (size : nat)
| CNext (lr : bool) (i : nat)
| CNextPairs (lr : bool) (len2 i : nat)
| CNeighbors (v : nat)
| CMatrix
| CAdjlist
| CVertices
| CDone
| CRepr.

(** What a call shows. [SNothing]: no result, or no such iterator. *)
Inductive seen : Type :=
| SNothing
| SMade (r : exc unit)
| SClique (r : exc (list nat))
| SPairs (r : exc (list nat * list nat))
| SVertex (r : exc (Z * list nat))
| SMatrix (r : exc (list (list bool)))
| SAdjlist (r : exc (list (list nat)))
| SWeight (r : exc Z)
| SWeights (r : exc (list Z))
| SNumber (k : nat)
| SFlag (b : bool).

Definition replace {A} (i : nat) (x : A) (l : list A) : list A := firstn i l ++ x :: skipn (S i) l.

Definition gcall_run (c : gcall) (p : pygraph) (its : list enum) : outcome (pygraph * list enum * seen) :=
  match c with
  | CGet e lb ub heur dfs cont => '(p, r) <- get_max_clique e p lb ub heur dfs cont;; Ok (p, its, SClique r)
  | CCorrespondence e len2 lb ub heur dfs cont => '(p, r) <- get_correspondence e p len2 lb ub heur dfs cont;; Ok (p, its, SPairs r)
  | CReset => p <- reset_search p;; Ok (p, its, SNothing)
  | CIterate k => match all_cliques p k with
                  | Ret en => Ok (p, its ++ [en], SMade (Ret tt))
                  | Raise x => Ok (p, its, SMade (Raise x))
                  end
  | CNext lr i => match nth_error its i with
                  | None => Ok (p, its, SNothing)
                  | Some en => '(p, en, r) <- next_clique lr p en;; Ok (p, replace i en its, SClique r)
                  end
  | CNextPairs lr len2 i => match nth_error its i with
                  | None => Ok (p, its, SNothing)
                  | Some en => '(p, en, r) <- next_correspondence lr len2 p en;; Ok (p, replace i en its, SPairs r)
                  end
  | CNeighbors v => r <- vertex_neighbors p v;; Ok (p, its, SClique r)
  | CMatrix => r <- to_matrix p;; Ok (p, its, SMatrix r)
  | CAdjlist => r <- to_adjlist p;; Ok (p, its, SAdjlist r)
  | CVertices => Ok (p, its, SNumber (p_nvert p))
  | CDone => Ok (p, its, SFlag (p_done p))
  | CRepr => Ok (p, its, SFlag (repr_search_done p))
  end.

(** Everything the program sees. *)
Fixpoint observe (s : list gcall) (p : pygraph) (its : list enum) : outcome (list seen) :=
  match s with
  | [] => Ok []
  | c :: s => '(p, its, x) <- gcall_run c p its;; l <- observe s p its;; Ok (x :: l)
  end.

(** The same for a NWGraph. *)
Inductive ncall : Type :=
| NGet (e : nwenv) (lb ub : Z) (heur dfs : bool)
| NCorrespondence (e : nwenv) (len2 : nat) (lb ub : Z) (heur dfs : bool)
| NReset
| NIterate (e : nwenv) (T : Z)
| NNext (lr : bool) (i : nat)
| NNextPairs (lr : bool) (len2 i : nat)
| NWeight (c : list nat)
| NWeights
| NNeighbors (v : nat)
| NMatrix
| NAdjlist
| NVertices
| NDone.

Definition ncall_run (rnd : Z -> Z) (c : ncall) (p : pynw) (its : list nenum) : outcome (pynw * list nenum * seen) :=
  match c with
  | NGet e lb ub heur dfs => '(p, r) <- nw_get_max_clique rnd e p lb ub heur dfs;; Ok (p, its, SClique r)
  | NCorrespondence e len2 lb ub heur dfs => '(p, r) <- nw_get_correspondence rnd e p len2 lb ub heur dfs;; Ok (p, its, SPairs r)
  | NReset => p <- nw_reset_search p;; Ok (p, its, SNothing)
  | NIterate e T => match nw_all_cliques e p T with
                    | Ret en => Ok (p, its ++ [en], SMade (Ret tt))
                    | Raise x => Ok (p, its, SMade (Raise x))
                    end
  | NNext lr i => match nth_error its i with
                  | None => Ok (p, its, SNothing)
                  | Some en => '(p, en, r) <- nw_next_clique rnd lr p en;; Ok (p, replace i en its, SClique r)
                  end
  | NNextPairs lr len2 i => match nth_error its i with
                  | None => Ok (p, its, SNothing)
                  | Some en => '(p, en, r) <- nw_next_correspondence rnd lr len2 p en;; Ok (p, replace i en its, SPairs r)
                  end
  | NWeight c => r <- nw_get_clique_weight rnd p c;; Ok (p, its, SWeight r)
  | NWeights => r <- nw_all_weights p;; Ok (p, its, SWeights r)
  | NNeighbors v => r <- nw_vertex_data p v;; Ok (p, its, SVertex r)
  | NMatrix => r <- nw_to_matrix p;; Ok (p, its, SMatrix r)
  | NAdjlist => r <- nw_to_adjlist p;; Ok (p, its, SAdjlist r)
  | NVertices => Ok (p, its, SNumber (q_nvert p))
  | NDone => Ok (p, its, SFlag (q_done p))
  end.

Fixpoint nobserve (rnd : Z -> Z) (s : list ncall) (p : pynw) (its : list nenum) : outcome (list seen) :=
  match s with
  | [] => Ok []
  | c :: s => '(p, its, x) <- ncall_run rnd c p its;; l <- nobserve rnd s p its;; Ok (x :: l)
  end.

(** What search_done should show after the program, judged from the program alone: the last search decides. [None]: the last
    search was a depth-first search with a time limit. *)
Definition gflag_search (e : env) (dfs cont : bool) (f : option bool) : option bool :=
  if dfs then match clock e with None => Some true | Some _ => None end
  else if cont then f else Some false.

Fixpoint gflag (s : list gcall) (f : option bool) : option bool :=
  match s with
  | [] => f
  | CGet e _ _ _ dfs cont :: s => gflag s (gflag_search e dfs cont f)
  | CCorrespondence e _ _ _ _ dfs cont :: s => gflag s (gflag_search e dfs cont f)
  | CReset :: s => gflag s (Some false)
  | _ :: s => gflag s f
  end.

Fixpoint nflag (s : list ncall) (f : bool) : bool :=
  match s with
  | [] => f
  | NGet _ _ _ _ dfs :: s => nflag s dfs
  | NCorrespondence _ _ _ _ _ dfs :: s => nflag s dfs
  | NReset :: s => nflag s false
  | _ :: s => nflag s f
  end.
