(** SpecNW: weighted graphs, independently of the model. No proofs here. *)
From Verif Require Import Base MUtils MGraph MNW MNWEnum MNWApi Spec.
Local Open Scope nat_scope.

(** The weight of vertex v is entry v-1 of the Python array; there is no weight for other numbers. *)
Definition vweight (w : list Z) (v : nat) : Z := nth v (0%Z :: w) 0%Z.

(** The weight of a list of vertices. *)
Fixpoint weight (w : list Z) (c : list nat) : Z :=
  match c with
  | [] => 0%Z
  | v :: c => (vweight w v + weight w c)%Z
  end.

Definition nonnegative (w : list Z) : Prop := forall x, In x w -> (0 <= x)%Z.

(** Rounding changes no sum of weights of distinct vertices. *)
Definition sums_exact (rnd : Z -> Z) (w : list Z) : Prop := forall l, NoDup l -> rnd (weight w l) = weight w l.

(** [nmade rnd p n adj w]: [p] is a freshly loaded NWGraph whose input denotes the graph [adj] on 1..n with weights [w].
    (nw_from_adjlist is left out: C36 shows that it never returns an object.) *)
Inductive nmade (rnd : Z -> Z) : pynw -> nat -> (nat -> nat -> Prop) -> list Z -> Prop :=
| nmade_edgelist rows n w p :
    fits (n + 1 + 2 * length rows) -> nw_from_edgelist rnd rows n w = Ok (Ret p) -> nmade rnd p n (adj_rows rows) w
| nmade_matrix n M w p :
    fits (1 + 2 * (n * n)) -> nw_from_matrix rnd n n M w = Ok (Ret p) -> nmade rnd p n (adj_matrix n M) w.

(** std::sort rearranges its range. *)
Definition npermutes (e : nwenv) : Prop := forall l, Permutation (nw_srt e l) l.

(** std::sort with std::greater<>: a rearrangement in decreasing order of the weighted degree. *)
Definition nsorts (e : nwenv) : Prop := npermutes e /\ forall l, StronglySorted (fun x y => wd_deg y <= wd_deg x)%Z (nw_srt e l).

(** The clique bitsets still point into live storage. *)
Definition nstorage_live (p : pynw) : Prop := storage_live (nw_as_pygraph p).

(** No clique of two or more vertices is heavier than M. *)
Definition all_within (n : nat) (adj : nat -> nat -> Prop) (w : list Z) (M : Z) : Prop :=
  forall d, clique n adj d -> 2 <= length d -> (weight w d <= M)%Z.

(** The object after calls of get_max_clique (whatever their outcome), reset_search and list(all_cliques(W)). *)
Inductive nhistory (rnd : Z -> Z) (p : pynw) : pynw -> Prop :=
| nh_start : nhistory rnd p p
| nh_get q e lb ub heur dfs q' r :
    nhistory rnd p q -> npermutes e -> nw_get_max_clique rnd e q lb ub heur dfs = Ok (q', r) -> nhistory rnd p q'
| nh_reset q q' : nhistory rnd p q -> nw_reset_search q = Ok q' -> nhistory rnd p q'
| nh_all q e T en lr fuel q' en' l :
    nhistory rnd p q -> nw_all_cliques e q T = Ret en -> nw_drain rnd fuel lr q en = Ok (q', en', l) -> nhistory rnd p q'.

(** The same, when no upper bound excludes a clique. *)
Inductive nunhurried (rnd : Z -> Z) (n : nat) (adj : nat -> nat -> Prop) (w : list Z) (p : pynw) : pynw -> Prop :=
| nu_start : nunhurried rnd n adj w p p
| nu_get q e lb ub heur dfs q' r :
    nunhurried rnd n adj w p q -> npermutes e -> all_within n adj w ub ->
    nw_get_max_clique rnd e q lb ub heur dfs = Ok (q', r) -> nunhurried rnd n adj w p q'
| nu_reset q q' : nunhurried rnd n adj w p q -> nw_reset_search q = Ok q' -> nunhurried rnd n adj w p q'
| nu_all q e T en lr fuel q' en' l :
    nunhurried rnd n adj w p q -> nw_all_cliques e q T = Ret en -> nw_drain rnd fuel lr q en = Ok (q', en', l) -> nunhurried rnd n adj w p q'.

(** Freshly loaded, or reset after any such calls. *)
Definition nrested (rnd : Z -> Z) (n : nat) (adj : nat -> nat -> Prop) (w : list Z) (p q : pynw) : Prop :=
  q = p \/ exists q0, nunhurried rnd n adj w p q0 /\ nw_reset_search q0 = Ok q.

(** The weighted degree of v: the weight of v and its neighbours. *)
Definition wdegree (adj : nat -> nat -> Prop) (w : list Z) (v : nat) (x : Z) : Prop :=
  exists l, NoDup l /\ (forall u, In u l <-> u = v \/ adj v u) /\ x = weight w l.

(** The search builds the clique d starting from its member v: the one of least weighted degree, then least number. *)
Definition starts_at (adj : nat -> nat -> Prop) (w : list Z) (d : list nat) (v : nat) : Prop :=
  In v d /\ forall u xv xu, In u d -> u <> v -> wdegree adj w v xv -> wdegree adj w u xu -> (xv < xu)%Z \/ (xv = xu /\ v < u).

(** The last member added is the largest of the others. *)
Definition ends_at (d : list nat) (v u : nat) : Prop := In u d /\ u <> v /\ forall x, In x d -> x <> v -> x <= u.

(** A clique of two or more vertices that weighs at least T; without the last one added it weighs less, or is a single vertex. *)
Definition heavy_minimal (n : nat) (adj : nat -> nat -> Prop) (w : list Z) (T : Z) (d : list nat) (v : nat) : Prop :=
  clique n adj d /\ 2 <= length d /\ (T <= weight w d)%Z /\ starts_at adj w d v
  /\ exists u, ends_at d v u /\ (length (remove Nat.eq_dec u d) = 1 \/ (weight w (remove Nat.eq_dec u d) < T)%Z).
