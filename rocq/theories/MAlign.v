(** MAlign: model of ext/Aligngraph.cpp and of AlignGraph.build_edges_with_filter in wrappers/aligngraph.py.

    Coordinates are exact rationals. The linear system solved by Eigen's partialPivLu is replaced by its solution in closed
    form; rounding is not modelled. The array of control points has two columns. *)
From Verif Require Import Base MBits MUtils MGraph MHeur MStack MRec MEnum MApi MExt MGen.
From Coq Require Import QArith.
Local Open Scope nat_scope.

Definition point : Type := (Q * Q)%type.

(** The boolean mask: msk.rows(), msk.cols() and msk(r, c). *)
Record mask : Type := mkMask { mk_rows : nat; mk_cols : nat; mk_at : nat -> nat -> bool }.

(** Aligngraph.cpp:29-36: a, b, c with a x - b y + c0, b x + a y + c1 sending (x1,y1) to (x3,y3) and (x2,y2) to (x4,y4).
    Only used if (x1,y1) and (x2,y2) differ (line 31). *)
Definition solve (s1 s2 t1 t2 : point) : Q * Q * Q * Q :=
  let '(x1, y1) := s1 in let '(x2, y2) := s2 in let '(x3, y3) := t1 in let '(x4, y4) := t2 in
  let dx := (x1 - x2)%Q in let dy := (y1 - y2)%Q in
  let ex := (x3 - x4)%Q in let ey := (y3 - y4)%Q in
  let den := (dx * dx + dy * dy)%Q in
  let a := ((dx * ex + dy * ey) / den)%Q in
  let b := ((dx * ey - dy * ex) / den)%Q in
  (a, b, (x3 - a * x1 + b * y1)%Q, (y3 - b * x1 - a * y1)%Q).

(** Conversion of a double to u64 (line 42): the fraction is dropped; undefined if the result does not fit. *)
Definition to_u64 (q : Q) : outcome Z :=
  let t := Z.quot (Qnum q) (Zpos (Qden q)) in
  if (t <? 0)%Z || (18446744073709551616 <=? t)%Z then UB BadCast else Ok t.

(** Aligngraph.cpp:38-42: the transformed control points, converted. *)
Fixpoint move_points (a b c0 c1 : Q) (ctl : list point) : outcome (list (Z * Z)) :=
  match ctl with
  | [] => Ok []
  | (x, y) :: r =>
      u <- to_u64 (a * x - b * y + c0)%Q;;
      v <- to_u64 (b * x + a * y + c1)%Q;;
      l <- move_points a b c0 c1 r;;
      Ok ((u, v) :: l)
  end.

(** Aligngraph.cpp:47 the condition of the if; column first, as in RCU. *)
Definition in_mask (m : mask) (uv : Z * Z) : bool :=
  ((snd uv <? Z.of_nat (mk_rows m)) && (fst uv <? Z.of_nat (mk_cols m)))%Z && mk_at m (Z.to_nat (snd uv)) (Z.to_nat (fst uv)).

(** Aligngraph.cpp:10-52 filter_score and :66-73 the comparison with the percentage. (i1,j1) are rows of M1, (i2,j2) of M2.
    With no control points the score is 0/0 = NaN and the comparison false. *)
Definition filter_rule (ctl : list point) (m : mask) (pct : Q) (M1 M2 : nat -> point) (i1 j1 i2 j2 : nat) : outcome bool :=
  let '(x1, y1) := M2 i2 in let '(x2, y2) := M2 j2 in
  if Qeq_bool (x1 - x2) 0 && Qeq_bool (y1 - y2) 0 then Ok (Qle_bool pct 0)
  else
    let '(a, b, c0, c1) := solve (M2 i2) (M2 j2) (M1 i1) (M1 j1) in
    rcu <- move_points a b c0 c1 ctl;;
    match ctl with
    | [] => Ok false
    | _ :: _ => Ok (Qle_bool pct (inject_Z (Z.of_nat (length (filter (in_mask m) rcu))) / inject_Z (Z.of_nat (length ctl))))
    end.

(** Aligngraph.cpp:54-77 build_edges_with_filter: the default metrics, declared symmetric. [d1], [d2] are the Euclidean
    distances of the rows, as for gs_euclid in MGen. *)
Definition build_edges_with_filter (srt : list pdist -> list pdist) (p : pygraph) (n1 n2 : nat) (M1 M2 : nat -> point)
    (d1 d2 : metric) (eps : Z) (ctl : list point) (m : mask) (pct : Q) : outcome (exc pygraph) :=
  build_edges_m srt p (mkM n1 d1 true) (mkM n2 d2 true) eps (filter_rule ctl m pct M1 M2).
