(** MMask: model of the class MaskFilter (wrappers/aligngraph.py:7-73), the condition in Python that
    AlignGraph.build_edges_with_filter has in C++ (MAlign).

    Coordinates are rationals, as in MAlign. The matrices given to numpy.linalg.solve, and its result, are arrays of float32 (lines 32-34):
    [f32] is the conversion. Otherwise rounding is not modelled. The array of control points has two columns. *)
From Verif Require Import Base MBits MUtils MGraph MHeur MStack MRec MEnum MApi MExt MGen MAlign.
From Coq Require Import QArith.
Local Open Scope nat_scope.

Definition pt32 (f32 : Q -> Q) (s : point) : point := (f32 (fst s), f32 (snd s)).

(** aligngraph.py:36-73 __call__. [None] stands for LinAlgError: line 53 with two points of set 2 that coincide once converted.
    Lines 60, 61 convert to uint by assignment; as in MAlign a number that does not fit makes this undefined. Lines 64-71: the coordinates
    are compared as in MAlign; line 72 divides by the number of control points (0/0 is NaN, and the comparison false). *)
Definition mask_filter (f32 : Q -> Q) (ctl : list point) (m : mask) (pct : Q) (M1 M2 : nat -> point) (i1 j1 i2 j2 : nat) : outcome (option bool) :=
  let '(x1, y1) := M2 i2 in let '(x2, y2) := M2 j2 in
  if Qeq_bool ((x1 - x2) * (x1 - x2) + (y1 - y2) * (y1 - y2)) 0 then Ok (Some false)
  else
    let s1 := pt32 f32 (M2 i2) in let s2 := pt32 f32 (M2 j2) in
    if Qeq_bool (fst s1 - fst s2) 0 && Qeq_bool (snd s1 - snd s2) 0 then Ok None
    else
      let '(a, b, c0, c1) := solve s1 s2 (pt32 f32 (M1 i1)) (pt32 f32 (M1 j1)) in
      rcu <- move_points (f32 a) (f32 b) (f32 c0) (f32 c1) ctl;;
      match ctl with
      | [] => Ok (Some false)
      | _ :: _ => Ok (Some (Qle_bool pct (inject_Z (Z.of_nat (length (filter (in_mask m) rcu))) / inject_Z (Z.of_nat (length ctl)))))
      end.
