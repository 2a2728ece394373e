(** MPy: model of the Python wrappers wrappers/{isograph,_gen_graph}.py around the correspondence search.
    Python dictionaries are association lists in insertion order; Python sets are lists, of which only membership matters. *)
From Verif Require Import Base MBits MUtils MGraph MHeur MStack MRec MEnum MApi MExt.
Local Open Scope nat_scope.

(** d[k] = v *)
Fixpoint dset {V : Type} (d : list (nat * V)) (k : nat) (v : V) : list (nat * V) :=
  match d with
  | [] => [(k, v)]
  | (k', v') :: r => if k' =? k then (k', v) :: r else (k', v') :: dset r k v
  end.

(** d.get(k) *)
Fixpoint dget {V : Type} (d : list (nat * V)) (k : nat) : option V :=
  match d with
  | [] => None
  | (k', v) :: r => if k' =? k then Some v else dget r k
  end.

(** isograph.py:32 v2_inv: set(inv_map[x] for x in z); a missing key raises KeyError. *)
Fixpoint v2_inv (inv_map : list (nat * nat)) (z : list nat) : exc (list nat) :=
  match z with
  | [] => Ret []
  | x :: r =>
      match dget inv_map x with
      | None => Raise EKeyError
      | Some y => match v2_inv inv_map r with Ret l => Ret (y :: l) | Raise e => Raise e end
      end
  end.

(** isograph.py:33-35 the dictionaries mapping and inv_map *)
Fixpoint fill_maps (a b : list nat) (mapping inv_map : list (nat * nat)) : list (nat * nat) * list (nat * nat) :=
  match a, b with
  | x :: a, y :: b => fill_maps a b (dset mapping x y) (dset inv_map y x)
  | _, _ => (mapping, inv_map)
  end.

(** isograph.py:36-38; [v2] is the set intersected with. *)
Fixpoint fill_graphs (s2 : pygraph) (v2 : list nat) (inv_map : list (nat * nat)) (a b : list nat)
    (G1 G2 : list (nat * list nat)) : outcome (exc (list (nat * list nat) * list (nat * list nat))) :=
  match a, b with
  | x :: a, y :: b =>
      r <- vertex_neighbors s2 y;;
      match r with
      | Raise e => Ok (Raise e)
      | Ret l =>
          let nb := filter (fun z => existsb (Nat.eqb z) v2) l in
          match v2_inv inv_map nb with
          | Raise e => Ok (Raise e)
          | Ret im => fill_graphs s2 v2 inv_map a b (dset G1 x im) (dset G2 y nb)
          end
      end
  | _, _ => Ok (Ret (G1, G2))
  end.

(** isograph.py:25-39 _format_correspondence; indices = [a, b], lists of the same length. v2 is set(indices[0]), line 27. *)
Definition format_correspondence (s2 : pygraph) (a b : list nat)
  : outcome (exc (list (nat * list nat) * list (nat * list nat) * list (nat * nat))) :=
  let v2 := a in
  let '(mapping, inv_map) := fill_maps a b [] [] in
  r <- fill_graphs s2 v2 inv_map a b [] [];;
  match r with
  | Raise e => Ok (Raise e)
  | Ret (G1, G2) => Ok (Ret (G1, G2, mapping))
  end.

(** isograph.py:41-90 get_correspondence with return_indices=True; [p] is self, [s2] is self.S2. *)
Definition iso_get_correspondence (e : env) (p s2 : pygraph) (lb ub : nat) (heur dfs cont : bool)
  : outcome (pygraph * exc (list nat * list nat)) :=
  '(p, r) <- get_correspondence e p (p_nvert s2) lb ub heur dfs cont;;
  match r with
  | Ret (a, b) => Ok (p, Ret (map S a, map S b))
  | Raise x => Ok (p, Raise x)
  end.

(** isograph.py:41-92 get_correspondence with return_indices=False *)
Definition iso_get_dicts (e : env) (p s2 : pygraph) (lb ub : nat) (heur dfs cont : bool)
  : outcome (pygraph * exc (list (nat * list nat) * list (nat * list nat) * list (nat * nat))) :=
  '(p, r) <- iso_get_correspondence e p s2 lb ub heur dfs cont;;
  match r with
  | Raise x => Ok (p, Raise x)
  | Ret (a, b) => d <- format_correspondence s2 a b;; Ok (p, d)
  end.
